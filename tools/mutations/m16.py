M=[]
def m(file,definition,old,new,claim,**k): M.append(dict(file=file,definition=definition,old=old,new=new,claim=claim,**k))
Q='PyqpModel.v'; I='IkModel.v'; T='StgTables.v'; S='StgModel.v'
m(Q,'quadprog_solve_qp','let a := pvneg q in','let a := q in','C41: sign of the linear term')
m(Q,'quadprog_solve_qp','solve_qp P a (Some (pneg (ptr A), pvneg b)) (pr A)','solve_qp P a (Some (pneg (ptr A), pvneg b)) 0','C41: equalities become inequalities')
m(Q,'quadprog_solve_qp','bind (vstack A G)','bind (vstack G A)','C41: equalities stacked last')
m(Q,'quadprog_solve_qp','pvneg (hstack b h)','hstack b h','C41: sign of the right-hand side')
m(Q,'vstack','pa b (i - pr a) j','pa b i j','C41: second block read from the wrong row')
m(Q,'quadprog_solve_qp','solve_qp P a (Some (pneg (ptr G), pvneg h)) 0','solve_qp P a (Some (ptr G, pvneg h)) 0','C41: inequality direction')
m(I,'compute','negb (same_as (k_lq s) (a_q a)) ||','','C57: kinematics not updated for a new configuration')
m(I,'fill_jacobians','dat s (r_Jf rb) (fun _ _ _ => 0) ((i - 6) / 3)%nat','dat s (r_Jf rb) (fun _ _ _ => 0) (i / 3)%nat','C57: Jacobian of another end-effector')
m(I,'fill_vel_des','vget3 (a_com a) i - vget3 (r_com rb (a_q a)) i','vget3 (r_com rb (a_q a)) i - vget3 (a_com a) i','C57: com error sign')
m(I,'gain','if is_init st then 1 else p_track st','p_track st','C57: gain in the initial posture')
m(I,'weight_list','if Req_EM_T c 1 then w_contact st else w_track st','if Req_EM_T c 1 then w_track st else w_contact st','C57: contact and tracking weights swapped')
m(I,'hessian','/ 1000000','0','C57: no regularisation')
m(I,'gradient','- rsum nrows','rsum nrows','C57: sign of the gradient')
m(I,'fill_vel_des','else if (i <? 6)%nat then vget3 (a_amom a) (i - 3) else k_mom s i','else k_mom s i','C57: flight angular momentum stale')
m(I,'fill_vel_des','match a_joint a with Some r => pe r (i - (ne + 2) * 3) | None => 0 end\n      else','match a_joint a with Some r => pe r (i - (ne + 2) * 3) | None => k_vel s i end\n      else','C57: posture reference of an earlier call kept')
m(I,'compute','(Some (PM 6 nv (k_J s3)))','(Some (PM 3 nv (k_J s3)))','C57: only linear momentum constrained in flight')
m(T,'solver_set_SolverIntParam','  | SolverIntParam_WarmStartIters => Some "ipsolver_warm_iters_"\n  | SolverIntParam_SolverMaxIters => Some "ipsolver_max_iters_"\n  | SolverIntParam_NumberRefinementsTrustRegion => Some "num_itrefs_trustregion_"\n  | _ => None\n  end.\nDefinition solver_get_SolverDouble','  | SolverIntParam_WarmStartIters => Some "ipsolver_max_iters_"\n  | SolverIntParam_SolverMaxIters => Some "ipsolver_max_iters_"\n  | SolverIntParam_NumberRefinementsTrustRegion => Some "num_itrefs_trustregion_"\n  | _ => None\n  end.\nDefinition solver_get_SolverDouble','C42: two setters write one member')
m(T,'solver_get_SolverDoubleParam','| SolverDoubleParam_SafeGuard => Some "safeguard_"','| SolverDoubleParam_SafeGuard => Some "min_step_length_"','C42: getter returns another member')
m(T,'solver_get_SolverBoolParam','| SolverBoolParam_Verbose => Some "verbose_"','| SolverBoolParam_Verbose => Some "BnB_verbose_"','C42: verbose getter')
m(T,'solver_file','("dyn_reg_thresh_", "dyn_reg_thresh", Tdouble)','("dyn_reg_thresh_", "dynamic_regularization", Tdouble)','C42: wrong key')
m(T,'solver_file','  ("max_iters_", "max_iters", Tint);\n','','C42: entry not read')
m(T,'planner_file','Read Always Tvector "w_lmom_track" "w_lmom_track_"','Read Always Tvector "w_lmom_track" "w_amom_track_"','C47: value stored in another member')
m(T,'planner_file','Read First Tdouble "reg_orientation"','Read Second Tdouble "reg_orientation"','C47: entry read under the wrong condition')
m(T,'planner_file','  Read Kin Tivector "active_dofs" "active_dofs_";\n  ExtendedDofs;','  ExtendedDofs;\n  Read Kin Tivector "active_dofs" "active_dofs_";','C47: extended dofs computed before the dofs are read')
m(T,'planner_read_PlannerDoubleParam','| PlannerDoubleParam_TimeHorizon => Some "time_horizon_"','| PlannerDoubleParam_TimeHorizon => Some "time_step_"','C47: getter')
m(S,'pderive','getd s1 "robot_mass_" * getd s1 "gravity_"','getd s1 "robot_mass_"','C47: weight')
m(S,'pderive','(- getd s2 "gravity_")%R','(getd s2 "gravity_")%R','C47: gravity upwards')
m(S,'pderive','getd s3 "time_horizon_" / getd s3 "time_step_"','getd s3 "time_horizon_" / getd s3 "time_step_" + 1','C47: one step more')
m(S,'pstep','map (Z.add 6) a','a','C47: joint dofs not shifted by the base')
m(S,'pstep','VB (String.eqb h "LinearCone")','VB (negb (String.eqb h "LinearCone"))','C47: friction cone type')
m(S,'planner_initialize','if ok then pderive s\' else s\'','pderive s\'','C47: derived values from an incomplete file (the refutation no longer holds)')
m(S,'solver_initialize','| NotYaml => (s, Ok tt)','| NotYaml => (s, Throw)','C42: bad file reported (the refutation no longer holds)')
m(S,'vias','(vias y node m (S k))','(vias y node m k)','C47: first via point repeated')
