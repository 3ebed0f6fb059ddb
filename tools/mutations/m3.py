M=[]
def m(file,definition,old,new,claim,**k): M.append(dict(file=file,definition=definition,old=old,new=new,claim=claim,**k))
m('LinModel.v','sign','1 else -1','-1 else 1','C53/C13: signs handed to the factorisation swapped',tightened=['C53_signs_match_diagonal'],note='survived m2; new theorem added')
I='IpModel.v'
m(I,'computeResiduals','r i * i_y o r) - rsum (p_m d)','r i * i_y o r) + rsum (p_m d)','C14/C54: sign of G\'z in the dual residual')
m(I,'computeResiduals','p_G d r i * i_x o i) + i_s o r in','p_G d r i * i_x o i) in','C14: slack dropped from the cone residual')
m(I,'computeResiduals','(fun r => ry r - i_tau o * p_b d r)','(fun r => ry r - p_b d r)','C14/C54: tau missing in the equality residual')
m(I,'computeResiduals','(i_kappa o + cx + by_ + hz)','(i_kappa o + cx + by_ - hz)','C54: sign in gap residual')
m(I,'updateStatistics','let pcost := rs_cx r / i_tau o in','let pcost := rs_cx r in','C14: cost not divided by tau')
m(I,'updateStatistics','/ Rmax (inires p (p_b d) + nx) 1) (vnorm m (rs_z r)','/ Rmax (inires p (p_b d) + nx) 1) (vnorm p (rs_z r)','C14: wrong dimension in the cone residual norm')
m(I,'updateStatistics','let dres := vnorm n (rs_x r)','let dres := vnorm p (rs_y r)','C14: dual residual taken from the primal one')
m(I,'updateStatistics','/ Rmax (inires m (p_h d) + nx + ns) 1) / i_tau o in','/ Rmax (inires m (p_h d) + nx + ns) 1) in','C14: primal residual not divided by tau')
m(I,'updateStatistics','gap / (- pcost) else','gap / pcost else','C14: relative gap with the wrong sign')
m(I,'updateStatistics','let dcost := - (rs_hz r + rs_by r) / i_tau o in','let dcost := (rs_hz r + rs_by r) / i_tau o in','C14: sign of the dual cost')
m(I,'updateStatistics','then rs_resx r / Rmax (ny + nz) 1 else','then rs_resy r / Rmax (ny + nz) 1 else','C14: infeasibility certificate from the wrong residual')
m(I,'updateStatistics','then Rmax (rs_resy r / Rmax nx 1) (rs_resz r','then Rmin (rs_resy r / Rmax nx 1) (rs_resz r','C14: min instead of max in the unboundedness certificate')
m(I,'convergenceCheck','match m with Full => t_full S | Reduced => t_inacc S end','match m with Full => t_inacc S | Reduced => t_full S end','C14: tolerances of the two modes swapped')
m(I,'convergenceCheck','(ltb (f_pres f) (t_feas t) && ltb (f_dres f) (t_feas t))','(ltb (f_pres f) (t_feas t) || ltb (f_dres f) (t_feas t))','C14: or instead of and')
m(I,'convergenceCheck','ltb (f_relgap f) (t_rel t)','ltb (f_relgap f) (t_abs t)','C14: wrong tolerance for the relative gap')
m(I,'convergenceCheck','then match m with Full => DualInf | Reduced => DualInfInacc end','then match m with Full => PrimalInf | Reduced => PrimalInfInacc end','C14: unbounded reported as infeasible')
m(I,'convergenceCheck','(negb (eqb (f_dinf f) (t_nan S)) && ltb (f_dinf f)','(negb (eqb (f_pinf f) (t_nan S)) && ltb (f_dinf f)','C14: wrong sentinel test')
m(I,'fallback','NotConverged => c | e => e','NotConverged => OptimalInacc | e => e','C14: unconverged reported as inaccurate optimum')
m(I,'ip_loop','PrSearchDirection) (ls_best L) true (ls_binfo L) k\n    else','PrSearchDirection) (ls_opt L) true (ls_binfo L) k\n    else','C14: best iterate not restored')
m(I,'ip_loop','let best := if better then o else ls_best L in','let best := ls_best L in','C14: best iterate never saved')
m(I,'ip_loop','else if Nat.eqb k (t_maxiters S) then','else if false then','C14: iteration limit not reported')
m(I,'ip_optimize','ip_loop S d step (Datatypes.S (t_maxiters S)) 0','ip_loop S d step (Datatypes.S (Datatypes.S (t_maxiters S))) 0','C14: loop bound one too large')
m(I,'ip_loop','let o\' := if keep then o else ls_best L in','let o\' := if keep then ls_best L else o in','C14: worse iterate returned at the limit')
m(I,'newton_step','let denom := kappa / tau - cbh_dot d dir2 in','let denom := kappa / tau + cbh_dot d dir2 in','C54: sign of the denominator')
m(I,'newton_step','(fun i => - rs_y r i * (1 - sigma))','(fun i => - rs_y r i)','C54: centring factor dropped')
m(I,'newton_step','let dk := - (dkc + kappa * dt) / tau in','let dk := - (dkc + kappa * dt) in','C54: division by tau dropped')
m(I,'newton_step','let dkc := kappa * tau + dka * dta - sigma * mu in','let dkc := kappa * tau + dka * dta + sigma * mu in','C54: sign of centring in kappa')
m(I,'newton_step','let dsc := add_identity nl q (- (sigma * mu))','let dsc := add_identity nl q (sigma * mu)','C54: sign of centring')
m(I,'advance','(i_tau o + a * w_dtau w)','(i_tau o + w_dtau w)','C54: step length dropped')
m(I,'newton_step','let dst := conicDivision nl q lam dsc in','let dst := dsc in','C54: conic division dropped')
m(I,'initial_point','(conicProjection (p_nl d) (p_q d) (d_z q2))','(d_z q2)','C14/C54: starting multiplier not projected')
