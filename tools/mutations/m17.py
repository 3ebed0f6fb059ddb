M=[]
def m(file,definition,old,new,claim,**k): M.append(dict(file=file,definition=definition,old=old,new=new,claim=claim,**k))
K='KinModel.v'
m(K,'k_vel_calls',"| S t' => v kQ d t' end)) (kdt t))","| S t' => v kQ d t' end)) (kdt 0))",'C44: velocity divided by the duration of another step')
m(K,'k_vel_calls',"match t with O => kc (k_coord k_inilog kini d)","match t with O => kc (k_coord k_inilog (kcur 0) d)",'C44: first velocity relative to the wrong state')
m(K,'k_limit_calls','CAddLin (v kQ (6 + d) t) "<" (kc (k_max g (k_dof g d)))','CAddLin (v kQ (6 + d) t) "<" (kc (k_max g d))','C44: upper limit of another joint')
m(K,'k_limit_calls','CAddLin (v kQ (6 + d) t) ">" (kc (k_min g (k_dof g d)))','CAddLin (v kQ d t) ">" (kc (k_min g (k_dof g d)))','C44: limit on a base coordinate')
m(K,'k_axis_calls','rb_ag rob (seqk t) (3 + i)%nat (k_ext g d)','rb_ag rob (seqk t) i (k_ext g d)','C44: angular momentum rows')
m(K,'k_axis_calls','(fun d => rb_ag rob (seqk t) i (k_ext g d)) (fun d => col kTQD d t)','(fun d => rb_ag rob (seqk t) i (k_ext g d)) (fun d => col kQD d t)','C44: momentum of the correction velocity')
m(K,'k_axis_calls','k_step g * rb_jcom rob (seqk t) i (k_ext g d)','k_step g * rb_jcom rob (seqk t) i d','C44: Jacobian column of another joint')
m(K,'k_acc_calls',"le_of_var (col kTQD d t) (1 / kdt t)","le_of_var (col kTQD d t) (kdt t)",'C44: first acceleration')
m(K,'k_floor_calls','(v (kEP e) 2 t) ">"','(v (kEP e) 1 t) ">"','C44: floor on the y axis')
m(K,'k_obj_terms','[(kw_vel g d, v kTQD d t); (kw_acc g d, v kTQDD d t)]','[(kw_vel g d, v kTQD d t); (kw_vel g d, v kTQDD d t)]','C44: acceleration weight')
m(K,'k_track_terms','if e_act (d_eff d e) then kw_eff g else kw_neff g','if e_act (d_eff d e) then kw_neff g else kw_eff g','C44: weights of active and inactive end-effectors swapped')
m(K,'k_store','(fun d => x (col kQD d t))','(fun d => x (col kTQD d t))','C58: total velocity integrated')
m(K,'k_store','rb_diff rob prev s2 (kdt t)','rb_diff rob s2 prev (kdt t)','C58: arguments swapped')
m(K,'k_stored',"match t with O => kini | S t' => k_stored t' end","match t with O => kini | S t' => seqk t' end",'C58: velocity relative to the old sequence')
m(K,'k_store','(fun d => x (col kTQDD d t)) (ks_acc s3)','(fun d => x (col kTQD d t)) (ks_acc s3)','C58: stored acceleration')
m(K,'set_head','if (d <? n)%nat then f d else old d','if (d <=? n)%nat then f d else old d','C58: one coordinate too many')
m(K,'optimizeTrajectory','| None => seqk end)','| None => fun _ => kini end)','C58: failure resets the motion')
m(K,'p_constraints','CAddLin (v bSLACK c) ">" (le_of_const 0);','CAddLin (v bSLACK c) "<" (le_of_const 0);','C59: slack sign')
m(K,'p_constraints','(col bQD (6 + d)) (k_step g)','(col bQD d) (k_step g)','C59: base velocity moves the joint')
m(K,'p_obj_terms','p_mom_term (kw_amom g) des_amom (3 + i) i','p_mom_term (kw_amom g) des_amom i i','C59: angular momentum rows')
m(K,'des_com','vsub (d_com des) (ks_com cur)','vsub (ks_com cur) (d_com des)','C59: com error sign')
m(K,'p_constraints','CAddLin (v bQ d) ">" (le_of_const (k_min g d));','','C59: lower limit dropped')
m(K,'post_store','rb_diff rob start (rb_integrate rob s1 (k_step g)) (d_time des)','rb_diff rob start s1 (d_time des)','C59: no integration')
m(K,'optimizePosture','(fun _ => 0) (fun _ => 0) (ks_com r) (d_lmom des)','(ks_vel r) (fun _ => 0) (ks_com r) (d_lmom des)','C59: initial velocity')
m(K,'post_loop','if stop then cur g rob s','if stop then s','C59: state not updated')
m(K,'post_order','[0; 1; 3; 4; 5; 6; 2]','[0; 1; 3; 4; 5; 6]','C59: slack variables not declared')
