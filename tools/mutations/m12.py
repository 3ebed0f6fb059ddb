M=[]
def m(file,definition,old,new,claim,**k): M.append(dict(file=file,definition=definition,old=old,new=new,claim=claim,**k))
C='CntModel.v';T='TrajModel.v';P='PolyModel.v'
m(C,'grid_time','(INR t + 1) * dt','INR t * dt','C30: off by one step')
m(C,'covers','Rlt_dec (grid_time dt t) (c_end c)','Rle_dec (grid_time dt t) (c_end c)','C30: deactivation time included')
m(C,'covers','Rle_dec (c_ini c) (grid_time dt t)','Rlt_dec (c_ini c) (grid_time dt t)','C30: activation time excluded')
m(C,'mark','Eff true cid aid (c_pos c)','Eff true aid cid (c_pos c)','C30/C31: contact id and activation id swapped')
m(C,'mark','(c_ori c)','(e_ori e)','C30: orientation of the contact not written')
m(C,'fill_step','Ok (l, (snd s + 1)%Z)','Ok (l, snd s)','C31: counter not incremented')
m(C,'fill_contact','if c_sel (snd ic) then','if negb (c_sel (snd ic)) then','C30: unselected contacts used')
m(C,'fill_contact','(seq 0 N)','(seq 0 (N - 1))','C30: last step skipped')
m(C,'fill_eff','(states q, 0%Z)','(states q, act_steps q eff)','C31: counter not restarted for an effector', optional=True)
m(C,'fill_eff','(states q, 0%Z)','(states q, 1%Z)','C31: counter starts at one')
m(C,'fillDynamicsSequence','seq 0 n_endeffs','seq 1 (n_endeffs - 1)','C30: first effector skipped')
m(C,'load_eff','(load_eff r (optid + 1)%Z)','(load_eff r optid)','C30: contacts not numbered')
m(C,'plan_from_file','(map (map select) (fst x), snd x)','(fst x, snd x)','C30: contacts not selected')
m(C,'contact_of','V3 x y z','V3 x z y','C30: coordinates swapped')
m(T,'traj_dir','[(tini, 0); (tend, 0)] [(tini, 0); (tend, 0)]','[(tini, 0); (tend, 0)] [(tini, 0); (tini, 0)]','C38: end acceleration not constrained')
m(T,'traj_dir','(/ 2 * (tini + tend), via)','(/ 2 * (tend - tini), via)','C38: via time wrong')
m(T,'query_time','Rmin (Rmax t (span0 it)) (span1 it)','Rmax t (span0 it)','C38: not clamped above')
m(T,'vel_row','INR col * t ^ c','t ^ c','C38: factor of the derivative dropped')
m(T,'acc_row','INR col * INR (col - 1) * t ^ c','INR col * INR col * t ^ c','C38: second derivative factor')
m(T,'interpolate','(cpow q (Z.of_nat i - 1))','(cpow q (Z.of_nat i))','C38: velocity exponent')
m(T,'interpolate','let q := query_time it t in','let q := t in','C38: query time not clamped')
m(T,'init_interp','(Rmin (Rmin a b) c)','(Rmin a b)','C38: span ignores acceleration way-points')
m(T,'traj_init','(vz pini) tend (vz pend) (vz via)','(vz pini) tend (vz pend) (vy via)','C38: via of the wrong coordinate')
m(P,'diff_row','(fst r * INR (S e), e)','(fst r * INR e, e)','C39: derivative factor')
m(P,'diff_row','O => (0, O)','O => (fst r, O)','C39: constant not dropped')
m(P,'arow','Ok (row (differentiate (differentiate c)))','Ok (row (differentiate c))','C39: acceleration constraint as velocity')
m(P,'fit','map (fun k => snd (fst k)) ks','map (fun k => fst (fst k)) ks','C39: right hand side takes the time')
m(P,'set_constraints','(length all - 1)%nat','(length all)','C39: order one too large')
m(P,'create_constraints','/ 2 * (t1 - t0) + t0','/ 2 * (t1 - t0)','C39: middle time without offset')
m(P,'create_constraints','/ 2 * (x1 - x0) + x0','/ 2 * (x1 - x0)','C39: default via without offset')
m(P,'create_constraints','((t1, 0), 1%nat)','((t0, 0), 1%nat)','C39: end velocity not constrained')
m(P,'get_poly','Rlt_dec e t','Rle_dec e t','C39: end of the window goes to the next polynomial')
m(P,'get_poly','[(_, p)] => Ok p','[((_, e), p)] => if Rlt_dec e t then Throw else Ok p','C39: after the last window fails')
m(P,'pdeval','if (length c =? 1)%nat then Ok 0 else','','C39: shortcut dropped (refutation of the single row)')
m(P,'initial_coeffs','map (fun i => (1, i)) (seq 0 (order + 1))','map (fun i => (1, i)) (seq 1 (order + 1))','C39: no constant term')
