M=[]
def m(file,definition,old,new,claim,**k): M.append(dict(file=file,definition=definition,old=old,new=new,claim=claim,**k))
L='LqrModel.v'
m(L,'internal_dynamics','let k4 := dyn (vplus x k3) u t in','let k4 := dyn (vplus x (vscal (1 / 2) k3)) u t in','C46: last Runge-Kutta stage at the midpoint')
m(L,'internal_dynamics','(fun i => vplus k1 k4 i / 6) (fun i => vplus k2 k3 i / 3)','(fun i => vplus k1 k4 i / 3) (fun i => vplus k2 k3 i / 6)','C46: weights swapped')
m(L,'clip','if leb v1 lo then lo else v1','if leb lo v1 then lo else v1','C24: lower limit test inverted')
m(L,'fp_step','let u1 := if s_limits S then','let u1 := if negb (s_limits S) then','C24: limits applied only when off')
m(L,'fp_step','(upd (f_cost F) t (obj (f_x F t) u t false))','(upd (f_cost F) t (obj (f_x F t) (un t) t false))','C24: cost of the old control')
m(L,'fp_step','|| f_div F)','&& f_div F)','C24: divergence forgotten')
m(L,'applyController','(upd (f_cost F) (s_tdim S) (obj (f_x F (s_tdim S)) ctrl0 (s_tdim S) true))','(f_cost F)','C24: final cost dropped')
m(L,'newCost','rsum (s_tdim S + 1) (f_cost F)','rsum (s_tdim S) (f_cost F)','C24: sum misses the final cost')
m(L,'fd1','(bump x3 k\' h_devs, upd D k\' (quot p m))','(x3, upd D k\' (quot p m))','C26: argument not restored')
m(L,'rquot','(p - m) / (2 * h_devs)','(p - m) / h_devs','C26: one-sided denominator')
m(L,'mixed','(ip - im - jp + jm)','(ip - im + jp - jm)','C26: sign of mixed difference')
m(L,'fd2','(bump xi r (- h_devs), yi, bump xj r h_devs, yj, upd D r row)','(bump xi r (- h_devs), yi, xj, yj, upd D r row)','C26: second copy not restored')
m(L,'computeDerivatives','if (t <? s_tdim S)%nat then us t','if (t <=? s_tdim S)%nat then us t','C26/C25: final derivatives use a control that does not exist')
m(L,'bp_step','let P := tr (d_cxu d) in','let P := (fun _ _ => 0) in','C25: cross term dropped')
m(L,'bp_step','let l := vscal (-1) (llt_solve nu C g) in','let l := llt_solve nu C g in','C25: sign of the step')
m(L,'bp_step','cost + v_c V + 1 / 2 * vdot nu l (mv nu H l) + vdot nu l g','cost + v_c V + vdot nu l (mv nu H l) + vdot nu l g','C25: value constant')
m(L,'bp_step','+ mv nu (tr G) l j + mv nu (tr L) g j','+ mv nu (tr L) g j','C25: value gradient term dropped')
m(L,'bp_step','(mm nu (tr L) G)) (mm nu (tr G) L) in','(mm nu (tr L) G)) (mm nu (tr L) G) in','C25: transposed term in the value Hessian')
m(L,'llt','if leb (A 0%nat 0%nat) 0 then None','if ltb (A 0%nat 0%nat) 0 then None','C25: zero pivot accepted')
m(L,'bp_loop','| None => (bs, Some t, Vs)','| None => (bs, None, Vs)','C25: failure not reported')
m(L,'constrained_objective','+ rsum (s_udim S) (fun c => g c * v c)','- rsum (s_udim S) (fun c => g c * v c)','C25: linear term sign')
m(L,'cost_change','(if f_div F then 10 ^ 10 else 0)','(if f_div F then - 10 ^ 10 else 0)','C23: divergence rewarded')
m(L,'line_search','if ltb 0 (cost_change L F\')','if ltb (cost_change L F\') 0','C23: accepts increases')
m(L,'line_search',"(seqplus (l_u L) (seqscal a bs)) in","(seqplus (seqscal a bs) (l_u L)) in",'C25: feedback taken from the wrong operand')
m(L,'lqr_iter',"let L' := mkL (f_x F) (f_u F) (newCost F) F bs ds true mult' reg' in","let L' := mkL (f_x F) (f_u F) (l_cost L) F bs ds true mult' reg' in",'C23/C24: stored cost not updated')
m(L,'lqr_iter',"let L' := mkL (l_x L) (l_u L) (l_cost L) F bs ds false (incr_mult mult) reg' in","let L' := mkL (f_x F) (l_u L) (l_cost L) F bs ds false (incr_mult mult) reg' in",'C23: rejected step changes the states')
m(L,'incr_mult','Rmax (mult * s_incr S) (s_incr S)','mult * s_incr S','C23: multiplier can stay below one: termination')
m(L,'lqr_runs','lqr_runs (i + 1) L\' o -> lqr_runs i L o','lqr_runs i L\' o -> lqr_runs i L o','C23: iteration counter not advanced')
m(L,'initial_rollout',"if f_div F' then initial_rollout alphas' xs us F' else F'","F'",'C24: only the first coefficient tried')
m(L,'start',"else inr (mkL (f_x F) (f_u F) (newCost F)","else inr (mkL xs (f_u F) (newCost F)",'C24: initial states not the simulated ones')
