M=[]
def m(file,definition,old,new,claim,**k): M.append(dict(file=file,definition=definition,old=old,new=new,claim=claim,**k))
L='LbfgsModel.v'
m(L,'bt_test','if ltb (finit + stp * dgtest) f then finish (1 / 2)','if ltb (finit + stp * dgtest) f then finish (4 / 10)','C20: step not halved')
m(L,'bt_test','if ltb dg (p_wolfe P * dginit) then finish (21 / 10)','if ltb dg (p_wolfe P * dginit) then finish (1 / 2)','C20: too short a step is halved')
m(L,'bt_test','if ltb (- p_wolfe P * dginit) dg then finish (1 / 2) else inl (inr count)','inl (inr count)','C20: strong Wolfe condition not tested')
m(L,'bt_test','if ltb stp (p_minstep P) then inl (inl MinimumStep)','if ltb stp (p_minstep P) then inl (inr count)','C20: minimum step reported as success')
m(L,'backtracking','if ltb 0 dginit then mkLS (inl IncreaseGradient)','if ltb dginit 0 then mkLS (inl IncreaseGradient)','C20: descent directions refused')
m(L,'cubic_min','let gamma := if ltb v u then - (s * root)','let gamma := if ltb u v then - (s * root)','C20: the maximiser of the cubic')
m(L,'quard_min','Ok (u + w / 2 * a)','Ok (u + w * a)','C20: minimiser of the quadratic')
m(L,'quard_min2','Ok (v + w * a)','Ok (v - w * a)','C20: secant in the wrong direction')
m(L,'update_trial_interval','else if dsign dt (t_dx I) then mkTI t ft dt x (t_fx I) (t_dx I) t br','else if dsign dt (t_dx I) then mkTI t ft dt y (t_fy I) (t_dy I) t br','C20: interval loses the bracket')
m(L,'mt_turn','if (leb f ftest1 && leb (Rabs dg) (p_gtol P * - dginit))%bool then ret (inr count)','if (leb f ftest1 || leb (Rabs dg) (p_gtol P * - dginit))%bool then ret (inr count)','C20: one condition is enough')
m(L,'mt_turn','else if (p_maxls P <=? count)%Z then ret (inl MaximumLinesearch)','else if (p_maxls P <? count)%Z then ret (inl MaximumLinesearch)','C20: one trial too many')
m(L,'twoloop1','(vaxpy d (i_y it) (- alpha))','(vaxpy d (i_y it) alpha)','C22: sign of alpha')
m(L,'twoloop1','imod (j + m - 1) m','imod (j + 1) m','C22: oldest correction first')
m(L,'twoloop2','(vaxpy d (i_s it) (i_alpha it - beta))','(vaxpy d (i_s it) (beta - i_alpha it))','C22: sign of the correction')
m(L,'direction','bind (rdiv ys yy)','bind (rdiv yy ys)','C22: scaling inverted')
m(L,'iteration','(mkID (i_alpha it) s y ys)','(mkID (i_alpha it) y s ys)','C22: s and y swapped')
m(L,'iteration','let bound := if (p_m P <=? l_k S)%Z then p_m P else l_k S in','let bound := if (p_m P <=? l_k S)%Z then p_m P else (l_k S + 1)%Z in','C22: uses a correction that does not exist')
m(L,'iteration','let y := vdiff g (l_g S) in','let y := vdiff (l_g S) g in','C22: sign of y')
m(L,'iteration','| inl c => Ok (inl (mkO c (l_x S) (ls_f r)))','| inl c => Ok (inl (mkO c (ls_x r) (ls_f r)))','C21: failed search keeps the trial point')
m(L,'iteration','Ok (inr (mkL x fx g d 1 lm','Ok (inr (mkL x fx g d (l_step S) lm','C22: initial step not reset to 1')
m(L,'iteration','bind (imod (l_end S + 1) (p_m P))','bind (Ok (l_end S + 1)%Z)','C21: ring index not wrapped')
m(L,'stop_tests','(p_maxit P <? l_k S + 1)%Z%bool','(p_maxit P <? l_k S)%Z%bool','C21: iteration limit off by one')
m(L,'stop_tests','Ok (ltb rate (p_delta P))','Ok (ltb (p_delta P) rate)','C21: stops when progress is large')
m(L,'converged','(if ltb xnorm 1 then 1 else xnorm)','(if ltb xnorm 1 then xnorm else 1)','C21: wrong scaling of the convergence test')
m(L,'start','mkL x0 (F x0) g d (1 / vnorm n d)','mkL x0 (F x0) g d 1','C22: initial step not normalised')
m(L,'check_params','(leb (p_wolfe P) (p_ftol P) || leb 1 (p_wolfe P))','(leb 1 (p_wolfe P))','C21: incompatible coefficients accepted')
m(L,'viol_term','if leb u v then acc1 + sq (v - u) else acc1','if leb u v then acc + sq (v - u) else acc1','C52: lower violation forgotten')
m(L,'viol_term','if leb v l then acc + sq (v - l) else acc','if leb l v then acc + sq (v - l) else acc','C52: penalises feasible values')
m(L,'evaluate_objective_function','viol_loop ncons (cons x) gl gu (viol_loop nvars x xl xu 0)','viol_loop ncons (cons x) gl gu 0','C52: variable bounds ignored')
m(L,'jac_loop','upd x2 k\' (x2 k\' + prt), upd jac','x2, upd jac','C52: perturbation not undone')
m(L,'jac_loop','((gp - gm) / (2 * prt))','((gp - gm) / prt)','C52: gradient twice too large')
