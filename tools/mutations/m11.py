M=[]
def m(file,definition,old,new,claim,**k): M.append(dict(file=file,definition=definition,old=old,new=new,claim=claim,**k))
H='QpModel.v'
m(H,'distance','let t := a1 / b1 in b1 * sqrt','let t := a1 / b1 in a1 * sqrt','C49: wrong leg scales the hypotenuse')
m(H,'givens','(- cc, - ss, - h)','(- cc, ss, - h)','C49: sign of the sine kept')
m(H,'rot2','(t1 + rot1 cc ss t1 t2) - t2','(t1 + rot1 cc ss t1 t2) + t2','C49: sign of the second entry')
m(H,'add_step','let d\' := upd (upd d j 0) (j - 1)%nat e in','let d\' := upd d (j - 1)%nat e in','C49: annihilated entry not cleared')
m(H,'addConstraint','(n - 1 - iq) iq J d','(n - 2 - iq) iq J d','C49: last column not rotated')
m(H,'addConstraint','(k =? iq) && (i <=? iq)','(k =? iq) && (i <? iq)','C49: diagonal entry of R not stored')
m(H,'del_step','(j + 1 <=? k) && (k <? iq)','(j + 1 <=? k) && (k <? iq - 1)','C49: last column of R not rotated')
m(H,'del_loop','del_loop c iq (S j) R\' J\'','del_loop c iq (S j) R J\'','C49: R not carried to the next rotation')
m(H,'deleteConstraint','(iq\' - qq) iq\' qq R1 J','(iq\' - qq - 1) iq\' qq R1 J','C49: one rotation missing')
m(H,'shift_down','else if (i =? last - 1)%nat then f last','else if (i =? last - 1)%nat then f (last - 1)%nat','C55: multiplier of the new constraint lost on a partial step')
m(H,'eq_step','(- dotn n npv (x q) - q_ce0 P i)','(- dotn n npv (x q) + q_ce0 P i)','C55: sign of the equality offset')
m(H,'eq_step','fv q + / 2 * (t2 * t2) * dotn n z npv','fv q + (t2 * t2) * dotn n z npv','C55: objective value update')
m(H,'slack','- (dotn (q_n P) (row (q_CI P) i) xv + q_ci0 P i)','- (dotn (q_n P) (row (q_CI P) i) xv - q_ci0 P i)','C55: sign of the inequality offset')
m(H,'step_l1','INR (q_mi P) * eps * c1 * c2 * 100','INR (q_mi P) * eps * c1 * c2 * 1000','C55: exit tolerance')
m(H,'pick','rltb (sv i) best && negb (iai i =? -1)%Z && excl i','rltb (sv i) best && excl i','C55: active constraint chosen again',optional=True)
m(H,'step_l2','(vopp (row (q_CI P) ip\'))','(row (q_CI P) ip\')','C55: normal with the wrong sign')
m(H,'ratio','rltb (u k / r k) t','rltb t (u k / r k)','C55: largest instead of smallest ratio')
m(H,'ratio','rltb 0 (r k)','rltb (r k) 0','C55: ratio test with the wrong sign')
m(H,'step_l2a','Rmin t1v t2v','t2v','C55: partial step length ignored')
m(H,'step_l2a','t * dotn n z (np q) * (/ 2 * t + u q (iq q))','t * dotn n z (np q) * (/ 2 * t)','C55: objective value update in a partial step')
m(H,'step_l2a','Next false L1 (QS x\' u\' (A q)','Next false L1 (QS (x q) u\' (A q)','C55: full step not taken')
m(H,'step_l2a','(upd (s q) (ip q) (slack P x\' (ip q)))','(s q)','C55: slack not refreshed after a partial step')
m(H,'rollback_iai','mark_active len A_old 0 iq','mark_active len A_old 1 (iq - 1)','C56: first active index not marked after a rollback')
m(H,'optimize','(match v with Some _ => true | None => false end, v)','(true, v)','C55: failure reported as success')
m(H,'updateR','backsub iq iq R d','backsub (iq - 1) iq R d','C55: first multiplier direction not computed')
