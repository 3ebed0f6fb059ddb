M=[]
F='PlnModel.v'
def m(d,o,n,c,t=None):
    M.append(dict(file=F,definition=d,old=o,new=n,claim=c))
    if t: M[-1]['tightened']=t
m('shortopts','["h"; "i"; ":"; "m"]%char','["h"; ":"; "i"; "m"]%char','C82 which options take an argument')
m('longopts','"ifile="; "solo12"','"ifile"; "solo12"','C82 --ifile takes an argument')
m('short_has_arg','Ascii.eqb e ":" | [] => false end)','negb (Ascii.eqb e ":") | [] => false end)','C82 option arguments')
m('short_has_arg','negb (Ascii.eqb d ":")','Ascii.eqb d ":"','C82 unknown options refused')
m('do_shorts','(opts ++ [(String "-" (String c EmptyString), rest)])%list, args)','opts, args)','C82 -iFILE')
m('do_longs','| Some (false, name) => match oarg with Some _ => None |','| Some (false, name) => match oarg with Some _ => Some (opts, args) |','C82 --solo12=x refused')
m('do_longs','match args with [] => None | a :: r => Some ((opts ++ [(("--" ++ name)%string, a)])%list, r) end','None','C82 --ifile FILE')
m('long_has_args','if mem o (p :: more) then Some (false, o)\n      else if','if','C82 exact name of a long option')
m('long_has_args','| _ :: _ => None\n','| _ :: _ => Some (false, p)\n','C82 ambiguous prefix refused')
m('split_eq','(EmptyString, Some r)','(EmptyString, Some (String c r))','C82 argument after the equals sign')
m('getopt_loop','if String.eqb (String d w) "-" then Some opts\n          else match','match','C82 -- ends the options')
m('getopt_loop','| _ => Some opts\n      end','| _ :: r => getopt_loop f opts r\n      | [] => Some opts\n      end','C82 first operand ends the options')
m('handle','handle l a r lqr','handle l cfg r lqr','C82 file name')
m('handle','handle l cfg Quadruped12 lqr','handle l cfg Biped lqr','C82 robot')
m('handle','if String.eqb o "-h" then None\n      else if','if','C82 help')
m('handle','mem o ["-i"; "--ifile"]','mem o ["-i"]','C82 --ifile')
m('handle','handle l cfg r false','handle l cfg r true','C82 lqr')
m('parse_arguments','"" Quadruped false','"" Quadruped true','C82 lqr by default')
m('parse_arguments','"" Quadruped false','"" Biped false','C82 robot by default')
m('parse_arguments','if exists_file cfg then','if exists_file "" then','C82 missing file')
m('updateTrackingObjective','w_track_com s)','v0)','C83 tracking weight')
m('updateTrackingObjective','(WS (w_track_lmom s) (w_track_amom s) (w_track_com s)','(WS (w_track_amom s) (w_track_lmom s) (w_track_com s)','C83 tracking weights')
m('optimize_dynamics','if (0 <? kd_iter)%nat','if (1 <? kd_iter)%nat','C83 first run after kinematics tracks')
m('optimize_dynamics','(PL s d (p_kin p) (p_fb p))','(PL (p_set p) d (p_kin p) (p_fb p))','C83 weights of the shared setting')
m('optimize_kinematics','kin_optimize (p_kin p) (p_dyn p)','kin_optimize (p_kin p) (p_dyn p)) (fun _ => Ok (p_kin p)','C83 kinematic plan is replaced')
m('kd_loop','bind (optimize_kinematics p) (fun p1 => bind (optimize_dynamics p1 (i + 1)) (fun p2 => kd_loop m (S i) p2))','bind (optimize_dynamics p (i + 1)) (fun p1 => bind (optimize_kinematics p1) (fun p2 => kd_loop m (S i) p2))','C83 order of the alternation')
m('kd_loop','optimize_dynamics p1 (i + 1)','optimize_dynamics p1 i','C83 first turn tracks')
m('optimize_motion','kd_loop (Z.to_nat iterations) 0 p1','kd_loop (Z.to_nat iterations - 1) 0 p1','C83 number of turns')
m('optimize_motion','create_time_vector (durations (p_dyn p2))','create_time_vector (durations (p_dyn p1))','C83 times of the last plan')
m('optimize_motion','if with_lqr then','if negb with_lqr then','C83 feedback on demand')
F='InsModel.v'
m('assign_second','(OSo, "w_lin_mom_tracking", PPD PlannerDoubleParam_WeightLinMomentumTracking_Second)','(OSo, "w_lin_mom_tracking", PPD PlannerDoubleParam_WeightAngMomentumTracking_Second)','C94 weight')
m('assign_second','(OSo, "d_orient_tracking", PPD PlannerDoubleParam_DGainBaseOrientationTracking_Second);\n','','C94 every attribute')
m('assign_first','(OKin, "reg_orientation", PPD PlannerDoubleParam_PGainOrientationTracking)','(OKin, "reg_orientation", PPD PlannerDoubleParam_PGainPositionTracking)','C94 gains')
m('assign_first','(OIk, "w_endeff_contact", PPD PlannerDoubleParam_WeightEndEffContact)','(OIk, "w_endeff_contact", PPD PlannerDoubleParam_WeightEndEffContact_Second)','C94 entry of the first order')
m('assign_first','(OIk, "p_com_tracking"','(OSo, "p_com_tracking"','C94 object configured')
m('init_from_settings','VB true => assign assign_second s a1 | VB false => assign assign_first s a1','VB true => assign assign_first s a1 | VB false => assign assign_second s a1','C94 order of the solver')
m('init_from_settings','let a1 := set_attr a OKin "use_second_order_inv_kin" v in','let a1 := a in','C94 flag stored')
m('init_from_settings','planner_get (PPB PlannerBoolParam_UseSecondOrderInverseKinematics) s','planner_get (PPB PlannerBoolParam_LoadKinematics) s','C94 flag')
m('assign','assign r s (set_attr a o n v)','bind (assign r s a) (fun a\' => Ok (set_attr a\' o n v))','harmless: order of independent assignments')
m('set_attr','(pobj_eqb o\' o && String.eqb n\' n)%bool','String.eqb n\' n','C94 attribute of one object only')
F='PycModel.v'
m('contact_new','FreeContact false (-1)','FreeContact true (-1)','C93 initial activation')
m('quat_of_matrix','(ent m 2 1 - ent m 1 2) * h','(ent m 1 2 - ent m 2 1) * h','C93 round trip')
m('quat_of_matrix','if Rlt_dec 0 t then','if Rlt_dec 1 t then','harmless: still the branch of the largest, unless')
m('quat_of_matrix','if Rlt_dec (ent m i i) (ent m 2 2) then 2%nat else i','if Rlt_dec (ent m i i) (ent m 2 2) then i else 2%nat','C93 branch')
m('quat_of_matrix','Q4 ((ent m k j - ent m j k) * h)','Q4 ((ent m j k - ent m k j) * h)','C93 round trip, negative trace')
m('quat_of_matrix','(ent m k i + ent m i k) * h in','(ent m k i - ent m i k) * h in','C93 round trip, negative trace')
m('quat_of_matrix','let s := sqrt (ent m i i - ent m j j - ent m k k + 1)','let s := sqrt (ent m i i + ent m j j - ent m k k + 1)','C93 round trip, negative trace')
m('matrix_of_quat','txz + twy','txz - twy','C93 rotation of a quaternion')
m('placement','vget3 (c_pos c) i','vget3 (c_pos c) j','C93 fourth column')
m('placement','if (j <? 3)%nat then 0 else 1','0','C93 last row')
m('capply','| WEnd x => Cnt a x p','| WEnd x => Cnt x b p','C93 end time')
m('capply','V3 (ent m 0 3) (ent m 1 3) (ent m 2 3)','V3 (ent m 3 0) (ent m 3 1) (ent m 3 2)','C93 translation of a placement')
m('capply','| WActive y => Cnt a b p o t y oi te','| WActive y => Cnt a b p o t s oi te','C93 activation')
m('capply','(quat_of_matrix m) t s oi te','o t s oi te','C93 rotation of a placement')
F='SimModel.v'
m('after_run','last qs (snd (jac_configs feedback wq qs))','hd (snd (jac_configs feedback wq qs)) qs','C87 next run starts from the last configuration')
F='RbwModel.v'
m('select','JLin (map snd l)','JLin (map fst l)','C88 rotation part',['C88_jacobians_current'])
F='UtlModel.v'
m('norm_vec','v with [] => Throw','v with [] => Ok 0','C91 empty vector raises',['C91_norm_list','C91_norm_weights','C91_norm_empty'])
m('sumsq','x * x + a','x + a','C91 norm',['C91_norm_list','C91_norm_weights'])

F='LstModel.v'
m('lqr_field','LPI LI_Verbosity => Some "verbosity_"','LPI LI_Verbosity => Some "precision_digits_"','C95 parameter of each name')
m('lqr_field','LPV LV_MaxControlLimits => Some "max_control_limits_"','LPV LV_MaxControlLimits => Some "min_control_limits_"','C95 limits')
m('lqr_field','LPI LI_TimeDimension => Some "time_dimension_" |','LPI LI_TimeDimension => None |','C95 readable settings')
m('lqr_steps','LEntry "precision_digits_" "decimal_digits" Tint; ','','C95 every entry is loaded')
m('lqr_steps','LEntry "bpass_min_regularization_" "bpass_min_regularization"','LEntry "bpass_min_regularization_" "bpass_max_regularization"','C95 entry')
m('lqr_steps','LEntry "initial_state_" "initial_state" Tvector; LTimeDim','LTimeDim; LEntry "initial_state_" "initial_state" Tvector','harmless: order of independent statements')
m('lqr_steps','[LRungeKutta; ','[','C95 Runge-Kutta is off')
m('lqr_steps','LEntry "time_step_" "time_step" Tdouble; LEntry "time_horizon_" "time_horizon" Tdouble; LEntry "state_dimension_" "state_dimension" Tint; LEntry "control_dimension_" "control_dimension" Tint;\n   LEntry "initial_state_" "initial_state" Tvector; LTimeDim;','LTimeDim; LEntry "time_step_" "time_step" Tdouble; LEntry "time_horizon_" "time_horizon" Tdouble; LEntry "state_dimension_" "state_dimension" Tint; LEntry "control_dimension_" "control_dimension" Tint;\n   LEntry "initial_state_" "initial_state" Tvector;','C95 number of time steps of this file')
m('lqr_entry','None => (s, Throw)','None => (s, Ok tt)','C95 missing entries refused')
m('lqr_step','(supd s "alpha_" (VV (coefficients c (Z.to_nat z))), Ok tt)\n        else (s, UB)','(supd s "alpha_" (VV (coefficients c (Z.to_nat z))), Ok tt)\n        else (supd s "alpha_" (VV (coefficients c (Z.to_nat z))), Ok tt)','C95 fractions write past the vector')
m('lqr_step','Int_part (T / dt)%R','(Int_part (T / dt)%R + 1)%Z','C95 number of time steps')
m('lqr_step','Some (VB false) => (s, Ok tt)','Some (VB false) => (supd s "min_control_limits_" (VV []), Ok tt)','C95 limits kept')
m('lqr_step','lqr_entry y "max_control_limits_" "max_control_limits" Tvector s1','lqr_entry y "max_control_limits_" "min_control_limits" Tvector s1','C95 upper limits')
m('without_extension','else String.length name - 5','else String.length name - 4','C95 results file')
m('lqr_initialize','NoFile => (s1, Throw)','NoFile => (s, Throw)','C95 names kept when the call raises')
m('lqr_initialize','NotYaml => (s1, Ok tt)','NotYaml => (s1, Throw)','C95 not YAML (fix)')
m('lqr_initialize','(VS name)) "save','(VS "")) "save','C95 configuration file')
m('lqr_new','else None','else Some (VI 0)','C95 unwritten members')
m('lqr_set','swrite (lqr_field p) v s','swrite (lqr_field p) v (fun _ => None)','C95 other settings kept')
F='OcpModel.v'
m('vplus_','fst p + snd p','fst p - snd p','C96 sums')
m('vplus_','if (length a =? length b)%nat','if (length a <=? length b)%nat','harmless for operands of equal size')
m('vtimes','x * k','x + k','C96 multiples')
m('control_zero','repeat 0 udim','repeat 0 xdim','C96 dimension of a control')
m('control_zero','repeat (repeat 0 xdim) udim','repeat (repeat 0 udim) xdim','C96 dimension of the feedback')
m('control_plus','OC f (oc_fb b)','OC f (oc_fb a)','C96 feedback of a sum')
m('states_resize','l ++ repeat','repeat','C96 states pile up (fix)')
m('controls_resize','repeat (control_zero xdim udim) (Z.to_nat tdim)','l ++ repeat (control_zero xdim udim) (Z.to_nat tdim)','C96 controls of the last initialize')
m('controls_assign','map snd (combine fresh rhs)','map fst (combine fresh rhs)','C96 assignment')
m('controls_assign','| [] => UB','| [] => Ok []','C96 assignment of an empty sequence (fix)')
m('controls_plus','match b with [] => UB','match b with [] => Ok []','C96 short operand')
m('control_times','OC (vtimes k (oc_ff c)) (oc_fb c)','OC (vtimes k (oc_ff c)) (map (vtimes k) (oc_fb c))','C96 feedback of a multiple')
m('ocp_initialize','(T + 1) nx','T nx','C96 number of states')
F='RtqModel.v'
m('row_value','+ snd r','- snd r','C97 rows')
m('sqsum','a * a + s','a + s','C97 norms')
m('positive_part','if Rle_dec d 0 then 0 else 1','if Rle_dec d 0 then 1 else 0','C97 violated inequalities')
m('checkSolution','(map (row_value x) eqs))) eq_thr','(map (row_value x) eqs))) ineq_thr','C97 thresholds')
m('checkSolution','(map (fun r => positive_part (row_value x r)) ineqs)','(map (row_value x) ineqs)','C97 satisfied inequalities count')
m('nearly_active','- / 100000000','/ 100000000','C97 active inequalities')
m('jacobian','map fst eqs ++ map fst (filter','map fst (filter','C97 equalities')
m('gradient','H i j * x j) + g i','H i j * x j) - g i','C97 gradient')
m('gradient_rest','[] => rsum n (fun i => gradient x i * gradient x i)','[] => 0','C97 unconstrained stationarity')
m('computeOptimalityCondition','Rmax 0 (row_value x r)','Rmin 0 (row_value x r)','C97 feasibility')
m('computeOptimalityCondition','+ sqsum (map (row_value x) eqs))',')','C97 equalities violated')
