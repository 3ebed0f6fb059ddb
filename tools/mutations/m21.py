M=[]
def m(file,definition,old,new,claim,**k): M.append(dict(file=file,definition=definition,old=old,new=new,claim=claim,**k))
F='ScpModel.v'
m(F,'set_vals','set_val (snd iv) (x (fst iv))','set_val (snd iv) (x (S (fst iv)))','C65: values of the variables off by one')
m(F,'set_vals','combine (seq 0 (List','combine (seq 1 (List','C65: values of the variables shifted')
m(F,'set_vals','(p_qineq p) (p_soc p) (p_obj p) (p_ntr p) (p_nsc p)','(p_qineq p) (p_soc p) (p_obj p) 0 (p_nsc p)','C67: counter lost',note='the counters are recomputed by the next round; but after the round has_approx reads them')
m(F,'set_val','(v_ub v) a (v_guess v)','(v_ub v) (v_val v) (v_guess v)','C65: values not stored')
m(F,'recount','(p_obj p) (n_tr p) (n_sc p)','(p_obj p) (p_ntr p) (p_nsc p)','none for accepted constraints; C67 number of solves with rejected ones',optional=True)
m(F,'recount','(p_obj p) (n_tr p) (n_sc p)','(p_obj p) (n_sc p) (n_tr p)','C67: counters swapped',optional=True,note='has_approx and the solver choice only use whether one of the two is positive: equivalent here')
m(F,'scp_round','(p_ntr p =? 0) && (p_nsc p =? 0)','(p_ntr p =? 0) || (p_nsc p =? 0)','C67: solver choice')
m(F,'scp_round','(0 <? List.length (p_bin p)) &&','(1 <? List.length (p_bin p)) &&','C67: one binary variable is enough')
m(F,'scp_round','cp_build (c_thr S) (c_wsoft S) iter warm p','cp_build (c_thr S) (c_wsoft S) 0 warm p','C65: iteration not passed to the compilation')
m(F,'scp_round','cp_build (c_thr S) (c_wsoft S) iter warm p','cp_build (c_wsoft S) (c_thr S) iter warm p','C65: settings swapped')
m(F,'scp_round','cp_build (c_thr S) (c_wsoft S) iter warm p','cp_build (c_thr S) (c_wsoft S) iter true p','C65: approximations dropped')
m(F,'scp_round','(b_q p warm)','(b_q p true)','C66: cone sizes of the warm start')
m(F,'scp_round','(b_nlineq p warm)','(b_nlineq p true)','C65: trust region rows missing')
m(F,'scp_round','Scp (set_vals x p)','Scp p','C65: answer not stored')
m(F,'scp_round','(Datatypes.S (sc_calls s)) code','(sc_calls s) code','C67: count of solves')
m(F,'scp_round','(Datatypes.S (sc_calls s)) code','(Datatypes.S (sc_calls s)) (sc_code s)','C65: exit code of an earlier round')
m(F,'has_approx','(0 <? p_ntr p) || (0 <? p_nsc p)','(0 <? p_ntr p) && (0 <? p_nsc p)','C65: refinements skipped')
m(F,'has_approx','(0 <? p_ntr p) || (0 <? p_nsc p)','(0 <? p_ntr p)','C67: soft constraints not counted')
m(F,'has_approx','(0 <? p_ntr p) || (0 <? p_nsc p)','(1 <? p_ntr p) || (0 <? p_nsc p)','C65: boundary of the counter')
m(F,'scp_warm','(0 <? c_warm S)%Z','(1 <? c_warm S)%Z','C67: boundary of the warm start')
m(F,'scp_warm','scp_round 0 true s','scp_round 0 false s','C66/C67: warm start with approximations',note='the theorems say nothing about which programme the warm start solves beyond C66_warm_start')
m(F,'scp_main','scp_round 1 false s','scp_round 0 false s','C65: exponent of the threshold')
m(F,'scp_main','scp_round 1 false s','scp_round 1 true s','C65: main round without approximations')
m(F,'scp_main','(0 <? c_max S)%Z','(1 <? c_max S)%Z','C67: boundary')
m(F,'scp_refine','scp_round (ref + 1) false s','scp_round ref false s','C65: exponent of the threshold')
m(F,'scp_refine','(seq 1 (Z.to_nat (c_refs S)))','(seq 0 (Z.to_nat (c_refs S)))','C65: exponent of the threshold')
m(F,'scp_refine','(seq 1 (Z.to_nat (c_refs S)))','(seq 1 (Z.to_nat (c_refs S) - 1))','C65/C67: one refinement too few')
m(F,'scp_refine','scp_round (ref + 1) false s','scp_round (ref + 1) true s','C65: refinements without approximations')
m(F,'scp_refine','(0 <? c_refs S)%Z && has_approx (sc_p s)','(0 <? c_refs S)%Z','C67: refinements without approximations')
m(F,'scp_optimize','(Scp p calls IpModel.Indeterminate)','(Scp p calls IpModel.Optimal)','C67: initial exit code')
m(F,'scp_optimize','scp_refine (scp_main (scp_warm','scp_main (scp_refine (scp_warm','C65: order of the rounds')
m(F,'model_optimize','(0 <? List.length (p_bin p))%nat && has_approx p','(0 <? List.length (p_bin p))%nat || has_approx p','C67: dispatch')
m(F,'model_optimize','(0 <? List.length (p_bin p))%nat && has_approx p','(0 <? List.length (p_bin p))%nat','C67: dispatch')
m(F,'model_optimize','Scp (set_vals x p) calls code','Scp p calls code','C67: solution of the search not stored')
