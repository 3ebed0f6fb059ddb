M=[]
def m(file,definition,old,new,claim,**k): M.append(dict(file=file,definition=definition,old=old,new=new,claim=claim,**k))
I='IpModel.v'
T=dict(tightened=['C54_centring_terms'],note='survived m3; new theorem')
m(I,'newton_step','let dkc := kappa * tau + dka * dta - sigma * mu in','let dkc := kappa * tau + dka * dta + sigma * mu in','C54: sign of centring in kappa',**T)
m(I,'newton_step','let dsc := add_identity nl q (- (sigma * mu))','let dsc := add_identity nl q (sigma * mu)','C54: sign of centring',**T)
m(I,'initial_point','(conicProjection (p_nl d) (p_q d) (d_z q2))','(d_z q2)','C14: starting multiplier not projected',tightened=['C14_starting_point'],note='survived m3; new theorem')
B='BnbModel.v'
m(B,'createBranches','(vset col (n_part nd) 0%Z)','(vset col (n_part nd) 1%Z)','C19: both branches fix the variable to one')
m(B,'createBranches','bind (vset mat1 id col0)','bind (vset mat1 id col)','C19: the old node keeps its decisions')
m(B,'createBranches','(mkNode NotSolved (n_part nw) (n_lower nd) (n_upper nd))','(mkNode NotSolved (n_part nw) (n_lower nd) NInf)','C18: wrong upper bound inherited')
m(B,'continue','<? Z.of_nat (b_max S) - 1)%Z)%bool','<? Z.of_nat (b_max S))%Z)%bool','C19: one pass too many (out of range)')
m(B,'updateNodeBounds','if optimal c2 then Fin (cost x2) else n_upper nd','if accepted c2 then Fin (cost x2) else n_upper nd','C18: infeasible rounding accepted as incumbent')
m(B,'updateNodeBounds','(Fin (cost x)) (if optimal c2','(Fin (cost x2)) (if optimal c2','C18: lower bound from the rounded problem')
m(B,'updateNodeBounds','let better := e_ltb (n_upper nd\') (s_ub s) in','let better := e_ltb (s_ub s) (n_upper nd\') in','C18: worse incumbents kept')
m(B,'updateNodeBounds','(if better then last else s_opt s)','last','C18: the stored vector is always overwritten')
m(B,'getProblemLowerBound','firstn (s_iter s + 1) (s_nodes s)) PInf','firstn (s_iter s) (s_nodes s)) PInf','C18: last node missing from the bound')
m(B,'best_node','if e_ltb (n_lower nd) lower then best_node l\' (k + 1) k (n_lower nd) else','if e_ltb lower (n_lower nd) then best_node l\' (k + 1) k (n_lower nd) else','C18: open nodes never selected')
m(B,'selectNodeToExplore','firstn (s_iter s + 1) (s_nodes s)) 0 (-1) PInf','firstn (s_iter s) (s_nodes s)) 0 (-1) PInf','C18: last node never explored')
m(B,'select_part','if ltb (Rabs (x i - / 2)) threshold then','if ltb threshold (Rabs (x i - / 2)) then','C19: an already fixed variable is branched on')
m(B,'is_integer','forallb (fun i => ltb (Rabs (x i - IZR (round_ (x i)))) (b_tol S)) ids','existsb (fun i => ltb (Rabs (x i - IZR (round_ (x i)))) (b_tol S)) ids','C18: one integral binary is enough')
m(B,'bnb_exitcode','PInf => PrimalInf |','PInf => Optimal |','C18: infeasible reported optimal')
m(B,'e_min','if e_ltb b a then b else a','if e_ltb b a then a else b','C18: maximum instead of minimum')
m(B,'gap_exceeds','Fin u, Fin l => ltb g (u - l)','Fin u, Fin l => ltb g (l - u)','C18: stops with any gap')
m(B,'bnb_body','bind (updateNodeBounds s2 (s_node s)) (fun s3 =>','bind (Ok s2) (fun s3 =>','C18: one child not evaluated')
