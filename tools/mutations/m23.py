M=[]
D='NcvxModel.v'
def m(definition,old,new,claim,**k): M.append(dict(file=k.pop('file',D),definition=definition,old=old,new=new,claim=claim,**k))
# re-run of the survivors of m22 after tightening
D='DynModel.v'
T=['C78_passes','C78_one_pass']
m('time_passes',"if po_conv o' then Ok o'","if po_conv o then Ok o'",'C78 stops at the first converged pass',tightened=T)
m('optimize','true false 0 q) (fun o =>','false false 0 q) (fun o =>','C78 the first pass is built as a first pass',tightened=T)
m('optimize','vadd (d_com ini) com_motion','com_motion','C78 goal relative to the start',tightened=T)
m('time_passes','time_passes k pass (S it) o','time_passes k pass it o','C78 passes are numbered',tightened=T)
m('optimize','time_passes (g_maxit g)','time_passes (S (g_maxit g))','C78 at most MaxNumTimeIterations',tightened=T)
m('norm3','sqrt (rsum n (fun t =>','(rsum n (fun t =>','C32 residual is a distance',tightened=['C32_time_optimal_stored'])
m('internalOptimize','Rabs (last_err - err)','Rabs (last_err + err)','C78 settled by small change of the residual',tightened=T)
m('internalOptimize','if first then false else if Rlt_dec (Rabs','if Rlt_dec (Rabs','C78 first pass has no residual before it',tightened=T)
m('internalOptimize','let conv := conv0 || conv1 || conv2 in','let conv := conv1 || conv2 in','C78 flag is kept (as in the code)',tightened=T)
D='NcvxModel.v'
m('dec_lb','if (d =? 1)%Z then -1 else 0','if (d =? 1)%Z then 0 else 0','C70 a decided binary is fixed')
m('dec_ub','if (d =? 0)%Z then 0 else 1','if (d =? 1)%Z then 0 else 1','C70 a decided binary is fixed')
m('dec_ub','if (d =? 0)%Z then 0 else 1','if (d =? 0)%Z then 0 else 2','C70 undecided binaries within [0,1]')
m('dec_lb','if (d =? 1)%Z then -1 else 0','if (d =? 1)%Z then -1 else 1','C70 undecided binaries within [0,1]')
m('decide','(map dec_lb dec) (map dec_ub dec)','(map dec_lb dec) (map dec_ub (repeat (-1)%Z (List.length dec)))','C70 decisions bound the binaries')
m('decide','(p_vars p) (p_bin p) (p_leq p)','(p_vars p) (p_bin p) []','C70 constraints are kept under decisions')
m('scp_ask','(decide dec (fst o)) (snd o)','(fst o) (snd o)','C70 nodes are solved with their decisions')
m('scp_ask','(sc_code s, p_env (sc_p s), cdot','(Optimal, p_env (sc_p s), cdot','C70 code reported is the code of the solver')
m('nx_update','if accepted c then','if true then','C70 failed nodes are discarded')
m('nx_update','ask o1 (rounded ids x)','ask o1 dec','C70 candidate is the rounded point')
m('nx_update','(if optimal c2 then Fin v2 else n_upper nd)','(Fin v2)','C70 only optimal candidates count')
m('nx_update','(if better then last else s_opt s) (s_lb s)','last (s_lb s)','C70 the best candidate is returned')
m('nx_update','(if better then n_upper nd\' else s_ub s)','(s_ub s)','C70 bound follows the best candidate')
m('nx_update','if is_integer S ids x then Ok','if true then Ok','C70 only integral points are accepted')
m('nx_root','(repeat (repeat (-1)%Z (List.length ids)) (b_max S))','(repeat (repeat 0%Z (List.length ids)) (b_max S))','C70 root leaves all binaries free')
m('nx_root','o 0) (fun \'(s, o\')','o 1) (fun \'(s, o\')','C70 root is node 0')
m('nx_body','(s_iter s + 1)%nat','(s_iter s + 2)%nat','C70 new node number')
m('nx_body','nx_update s2 o (s_node s)','nx_update s2 o 0','C70 both branches are solved')
m('nx_body','nx_update s3 o3 (Z.of_nat (s_iter s3))','nx_update s3 o3 (s_node s)','C70 both branches are solved')
m('nx_body','(getProblemLowerBound s4)','(s_lb s4)','C70 lower bound is updated')
m('nx_optimize','Ok (bnb_exitcode S s, s_opt s, o','Ok (Optimal, s_opt s, o','C70 exit code')
m('nx_loop','else Ok (s, o).','else UB.','C70 the search terminates normally')
m('model_run','((0 <? List.length (p_bin p))%nat && has_approx p)%bool','(0 <? List.length (p_bin p))%nat','C70 model chooses the search only for approximated problems')
m('model_run','Ok (c, set_vals x p\')','Ok (c, p\')','C70 values returned are those of the best node')
D='ItpModel.v'
m('times_from','t :: times_from (t + d) r','(t + d) :: times_from (t + d) r','C72 starts at zero')
m('times_from','times_from (t + d) r','times_from d r','C72 time accumulates')
m('create_time_vector','times_from 0 dts','times_from 1 dts','C72 starts at zero')
m('argmin_from','if Rlt_dec x v then','if Rlt_dec v x then','C71 nearest stamp')
m('argmin_from','argmin_from i x (S i) r','argmin_from i v (S i) r','C71 nearest stamp')
m('argmin_from','argmin_from i x (S i) r','argmin_from (S i) x (S i) r','C71 nearest stamp index')
m('bracket','Rabs (x - t)','(x - t)','C71 nearest stamp in both directions')
m('bracket','Ok (c - 1, c)%nat','Ok (c, c + 1)%nat','C71 neighbours of t')
m('bracket','if Rlt_dec t (nth c tv 0)','if Rlt_dec (nth c tv 0) t','C71 neighbours of t')
m('bracket','Nat.min (c + 1) (length tv - 1)','(c + 1)%nat','C71 no state past the last')
m('blend','(t - t1) + fst p','(t - t1) + snd p','C71 linear between the states')
m('blend','(snd p - fst p) / (t2 - t1) * (t - t1)','(snd p - fst p) / (t2 - t1) * (t2 - t)','C71 linear between the states')
m('eval_at','if (i2 <=? 0)%nat then Ok s1','if (i2 <=? 0)%nat then Ok []','C71 constant before the first state')
m('eval_at','if (length tv - 1 <=? i1)%nat then Ok s1','if (length tv <=? i1)%nat then Ok s1','C71 constant after the last state')
m('eff_force_vector','vlist (fst e)) l','vlist (snd e)) l','C71 forces are the forces')
m('centroidal_force','vadd a (vscale w (fst e))','vadd a (fst e)','C71 forces times weight')
m('centroidal_force','(ds_eff d) v0','(tl (ds_eff d)) v0','C71 all feet')
m('centroidal_moment','vcross (vsub (snd e) (ds_com d)) (vscale w (fst e))','vcross (vscale w (fst e)) (vsub (snd e) (ds_com d))','C71 moment is arm times force')
m('centroidal_moment','vsub (snd e) (ds_com d)','(snd e)','C71 moment about the centre of mass')
m('force_gain','Nat.min i (length gains - 1)','i','C71 feedback index is clamped')
m('dselect','DGenVelocity => k ks_gvel','DGenVelocity => k ks_gacc','C71 quantities by name')
m('dselect','DLmom => k ks_lmom','DLmom => k ks_amom','C71 quantities by name')
m('iselect','IPositionAbs => m me_traj ','IPositionAbs => m me_traj_base ','C71 quantities by name')
m('iselect','firstn 4 (skipn 3 (ks_gpos s))','firstn 4 (skipn 4 (ks_gpos s))','C71 quaternion is entries 3..6')
m('iselect','firstn 3 (skipn 3 (ks_gvel s))','firstn 3 (skipn 0 (ks_gvel s))','C71 angular velocity is entries 3..5')
m('iselect','Ok (centroidal_moment w s)','Ok (centroidal_force w s)','C71 quantities by name')
m('desired_state','match sq, fb with None, None => Throw','match sq, fb with None, _ => Throw','C71 feedback alone suffices')
m('interpolate','Ok (eval_at (iselect sp me sq fb dy w) tv)','Ok (eval_at (iselect sp me sq fb dy w) (tl tv))','C71 all stamps used')
m('limit_torque','if Rlt_dec hi y then hi else y','y','C73 torque within the upper limit')
m('limit_torque','if Rlt_dec x lo then lo else x','if Rlt_dec x lo then hi else x','C73 equals the control law within limits, lower limit else')
m('joint_command','P * qerr + D * dqerr +','P * qerr - D * dqerr +','C73 control law')
m('joint_command','(fst (snd p) + snd (snd p))','(fst (snd p) - snd (snd p))','C73 control law force plus correction')
m('pass','if Rlt_dec x (INR k / 1000)','if Rlt_dec x (INR (S k) / 1000)','C73 forces in time')
m('pass','then S time_id else time_id','then S (S time_id) else time_id','C73 forces in time')
m('passes','passes tv n\' (S k) id','passes tv n\' (S k) time_id','C73 index advances')
m('max_num_iterations','4000%nat','3000%nat','C73 four seconds')
m('delta_t','INR k / 1000 - t_vec_last n k old','/ 1000','C73 velocity (the refuted behaviour)')
m('velocity_of','map (fun x => x / dt) diff','map (fun x => x * dt) diff','C73 velocity')
m('t_vec_last','INR (n - 1) / 1000','INR n / 1000','C73 velocity')
