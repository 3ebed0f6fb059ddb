M=[]
D='DatModel.v'
def m(definition,old,new,claim,**k): M.append(dict(file=k.pop('file',D),definition=definition,old=old,new=new,claim=claim,**k))
m('desired_state','match sq, fb with None, None => Throw','match sq, fb with None, _ => Throw','C71 feedback alone suffices',file='ItpModel.v',tightened=['C71_gains_alone'])
m('savetxt','(name, a) :: fs','fs ++ [(name, a)]','C74 the file is replaced')
m('py_round','if Z.even z then z else','if Z.even z then (z - 1)%Z else','C74 nearest millisecond, half to even')
m('py_round','Int_part (x + / 2)','Int_part x','C74 nearest millisecond')
m('last_time','nth (List.length tv - 1) tv 0','nth 0 tv 0','C74 length of the plan')
m('ms','INR i / 1000','INR i / 100','C74 one row per millisecond')
m('dump_rows','(seq 0 n)','(seq 0 (S n))','C74 number of rows')
m('dump_rows','INR i :: map (Rmult scale) v','map (Rmult scale) v','C74 the first entry is the index')
m('dump_rows','INR i :: map (Rmult scale) v','INR i :: v','C74 forces times weight')
m('file_points','py_round (T * 1000)','Int_part (T * 1000)','C74 nearest millisecond')
m('create_file','"quadruped_forces.dat" frc weight fs','"quadruped_forces.dat" frc 1 fs','C74 forces times weight')
m('create_file','"quadruped_lmom_old.dat" lmom 1 fs','"quadruped_lmom_old.dat" amom 1 fs','C74 each file holds its quantity')
m('create_file','"quadruped_positions.dat" pos 1 fs','"quadruped_positions.dat" gpos 1 fs','C74 each file holds its quantity')
m('qp_points','Rlt_dec (/ 1000) (T - IZR k)','Rlt_dec (T - IZR k) (/ 1000)','C75 whole seconds covering the plan')
m('qp_points','(k + 1) * 1000 else k * 1000','(k + 1) * 1000 else (k + 1) * 1000','C75 whole seconds covering the plan')
m('set_row','set_nth a i v','set_nth a 0 v','C75 row i at i milliseconds')
m('set_rows_from','firstn i a ++ repeat v (List.length a - i)','repeat v (List.length a)','C75 row i at i milliseconds')
m('fill','(seq 0 n)','(seq 0 (n - 1))','C75 every row')
m('fill','put c a i (INR i :: v)','put c a i (0 :: v)','C75 index column')
m('zeros','repeat (repeat 0 c) n','repeat (repeat 0 c) (S n)','C75 number of rows')
m('swap_pairs','[0; 4; 5; 6; 1; 2; 3; 10; 11; 12; 7; 8; 9]','[0; 4; 5; 6; 1; 2; 3; 7; 8; 9; 10; 11; 12]','C75 announced order of feet')
m('swap_ends','[0; 10; 11; 12; 7; 8; 9; 4; 5; 6; 1; 2; 3]','[0; 1; 2; 3; 4; 5; 6; 7; 8; 9; 10; 11; 12]','C75 announced order of feet')
m('activation','nth (3 * j + 3) r 0','nth (3 * j + 2) r 0','C75 activation by the upward force')
m('activation','if Rlt_dec 0 (nth','if Rlt_dec 1 (nth','C75 activation by positive force')
m('six','[nth (3 * e + 1) r 0; nth (3 * e + 2) r 0; nth (3 * e + 3) r 0; 0; 0; 0]','[nth (3 * e) r 0; nth (3 * e + 1) r 0; nth (3 * e + 2) r 0; 0; 0; 0]','C75 per foot three entries')
m('divided','x / d','x * d','C75 velocity is momentum over mass')
m('create_qp_files','weight / (981 / 100)','weight','C75 velocity is momentum over mass')
m('create_qp_files','savetxt "quadruped_com.dat" aC fs','savetxt "quadruped_com.dat" aCV fs','C75 each file its quantity')
m('create_qp_files','let aP := map swap_pairs aP in','','C75 announced order of feet')
m('create_qp_files','savetxt "quadruped_velocities.dat" vel6 fs','savetxt "quadruped_velocities.dat" aJV fs','C75 (the defect is modelled)')
m('create_qp_files','(activations aF)','(activations aP)','C75 activation from forces')
m('create_lqr_files','(map swap_ends aPA)','aPA','C75 announced order of feet')
D='RicModel.v'
m('compute_lqr_gains','mscal (-1) (mm n (mm n (mm m S (tr B)) P) A)','mm n (mm n (mm m S (tr B)) P) A','C76 optimal feedback')
m('compute_lqr_gains','mplus (mplus Q (mm m (mm m (tr K) R_) K))','mplus (mplus Q Q)','C76 optimal feedback')
m('compute_lqr_gains','let F := mplus A (mm m B K) in','let F := A in','C76 optimal feedback')
m('compute_lqr_gains','mplus R_ (mm n (mm n (tr B) P) B)','R_','C76 optimal feedback')
m('descretise','(mplus (mscal dt A) ident, mscal dt B)','(mscal dt A, mscal dt B)','C76 discretised dynamics')
m('descretise','mscal dt B)','B)','C76 discretised dynamics')
m('backward_loop','fst KP :: Ks','Ks ++ [fst KP]','C76 gains in the order of time')
m('backward_loop','snd KP)','P)','C76 the recursion goes on with the new P')
m('times_centroidal','rev (seq 1 (h - 2))','rev (seq 0 (h - 1))','C76 (first instant, as in the code)')
m('times_endeff','rev (seq 0 (h - 1))','seq 0 (h - 1)','C76 backward in time')
m('times_endeff','rev (seq 0 (h - 1))','rev (seq 0 h)','C76 one gain per step')
m('omega','[0; x 12%nat; - x 11%nat; x 10%nat]','[0; - x 12%nat; - x 11%nat; x 10%nat]','C77 rate of the orientation')
m('dyn_A','block 0 3 3 3 ident','block 0 3 3 3 (mscal 2 ident)','C77 the velocity is the rate of position')
m('rotation','2 * (x * y - z * w)','2 * (x * y + z * w)','C77 rotated inertia')
m('rotation','mscal (/ n2)','mscal 1','C77 scipy normalises')
m('c_B','mm 3 (mm 3 r inertia) (tr r)','mm 3 (mm 3 (tr r) inertia) r','C77 rotated inertia')
m('c_B','block 3 0 3 3 (mscal (1 / mass) ident)','block 3 0 3 3 ident','C77 force over mass')
m('pd_omega','[x 9%nat; - x 8%nat; - x 7%nat]','[x 9%nat; - x 8%nat; x 7%nat]','C77 (two entries have the wrong sign, as in the code)')
m('pd_omega','[- x 6%nat; - x 7%nat; - x 8%nat]','[x 6%nat; - x 7%nat; - x 8%nat]','C77 Jacobian')
m('lin_A','mscal (/ 2) (pd_omega x)','pd_omega x','C77 Jacobian')
m('lin_B','block 10 3 3 3 I','block 10 0 3 3 I','C77 input Jacobian')
m('r_cross','[p 2%nat - c 2%nat; 0; - (p 0%nat - c 0%nat)]','[p 2%nat - c 2%nat; 0; (p 0%nat - c 0%nat)]','C77 moment is lever arm times force')
m('r_cross','- (p 0%nat - c 0%nat); 0]]','p 0%nat - c 0%nat; 0]]','C77 (wrong sign, as in the code)')
m('e_B','mm 3 (mm 3 (tr r) inertia) r','mm 3 (mm 3 r inertia) (tr r)','C77 (as in the code)')
m('e_B','nth (3 * e + i) fl 0','nth (3 * (3 - e) + i) fl 0','C77 (feet in reverse order, as in the code)')
m('moved','then delta else','then 0 else','C77 step of the difference')
m('bump','upd x i (x i + h)','upd x i h','C77 differences')
m('quotient','(fp r - f0 r) / moved x x1 i','(f0 r - fp r) / moved x x1 i','C77 difference quotient')
m('quotient','/ moved x x1 i))','/ delta))','C77 difference quotient')
m('compute_lin_dyn','(/ 1000) then','(/ 10) then','C77 threshold of the inputs')
m('script_R','then / 10 else 10','then 0 else 10','C76 weights positive definite')
m('script_Q','fun _ _ => 0','ident','C76 (Q is replaced by zeros, as in the code)')
m('state_at','p ++ v ++ q ++ w','p ++ v ++ w ++ q','C77 order of the state')
D='ManModel.v'
m('meps','/ 1000000','/ 1000','C80 step of the differences')
m('mweight','mass * (981 / 100)','981 / 100','C80 weight')
m('switching_dynamics','fold_right Rplus 0 (tl r)','fold_right Rplus 0 r','C79 the time does not count as contact')
m('switching_dynamics','then 1 else 0','then 0 else 1','C79 active')
m('skew3','[- vy v; vx v; 0]','[vy v; vx v; 0]','C79 rotation')
m('quaternion_to_rotation','qw q ^ 2 - Vec3.vdot','qw q ^ 2 + Vec3.vdot','C79 rotation')
m('quaternion_to_rotation','2 * qw q * skew3','qw q * skew3','C79 rotation')
m('exp_quaternion','1 - th ^ 2 / 6','1 - th ^ 2 / 2','C79 small steps')
m('exp_quaternion','(1 - th ^ 2 / 2) else','1 else','C79 length kept')
m('exp_quaternion','(cos th)','(1 - cos th)','C79 integration is a rotation')
m('atan2','atan (y / x) + PI','atan (y / x)','C79 difference of large rotations')
m('log_quaternion','2 / w * (1 - n ^ 2 / (3 * w ^ 2))','2 / w * (1 - n ^ 2 / w ^ 2)','C79 small steps')
m('log_quaternion','2 * atan2 n w / n','atan2 n w / n','C79 difference')
m('log_quaternion','if Req_EM_T w 0 then UB else','if Req_EM_T w 1 then UB else','C79 defined')
m('quaternion_product','vcross (qv a) (qv b)','vcross (qv b) (qv a)','C79 product')
m('integrate_quaternion','quaternion_product (exp_quaternion (vscale (/ 2) w)) q','quaternion_product q (exp_quaternion (vscale (/ 2) w))','C79 rotation on the left')
m('integrate_quaternion','vscale (/ 2) w','w','C79 angle')
m('quaternion_difference','quaternion_product q2 (qconj q1)','quaternion_product (qconj q1) q2','C79 inverse of integration')
m('world_inertia','mm 3 (mm 3 r inertia) (tr r)','mm 3 (mm 3 (tr r) inertia) r','C80 angular momentum')
m('integrate_step','vadd (m_c x) (vscale dt (m_v x))','m_c x','C80 position')
m('integrate_step','vsub (vscale a (t3 u 0)) mweight','vscale a (t3 u 0)','C80 weight')
m('integrate_step','vsub (vscale a (t3 u 0)) mweight','vsub (t3 u 0) mweight','C80 control counts only in contact')
m('integrate_step','vsub (vscale a (t3 u 3)) (vcross','vadd (vscale a (t3 u 3)) (vcross','C80 gyroscopic term')
m('integrate_step','vscale a (t3 u 3)','vscale a (t3 u 0)','C80 moment')
m('trajectory_from','trajectory_from act (S t) x\' r','trajectory_from act t x\' r','C80 time advances')
m('trajectory_from','trajectory_from act (S t) x\' r','trajectory_from act (S t) x r','C80 follows the dynamics')
m('increment_x','vadd (m_v x) (t3 dx 3)','vadd (m_v x) (t3 dx 0)','C80 derivatives')
m('diff_x','vsub (m_c x2) (m_c x1)','vsub (m_c x1) (m_c x2)','C80 derivatives')
m('diff_x','vget3 dq (i - 6)','vget3 dq (i - 5)','C80 derivatives of the orientation')
m('dynamics_derivatives','(increment_x x (unit_step i meps)) u) (fun fp => bind (diff_x fp f0)','(increment_x x (unit_step i meps)) u) (fun fp => bind (diff_x f0 fp)','C80 (sign, as in the code)')
m('cost','if (t =? N)%nat then Ok (vdot 12 (mv 12 (tr (Qw t)) dx) dx)','if (t =? N)%nat then Ok (/ 2 * vdot 12 (mv 12 (tr (Qw t)) dx) dx)','C81 final cost (as in the code)')
m('cost','+ / 2 * vdot 6 (mv 6 (tr (Rw t)) u) u)','+ vdot 6 (mv 6 (tr (Rw t)) u) u)','C81 cost of control')
m('cost_dx','(cp - c0) / meps)))) (fun M => Ok (fun i => M 0%nat i))).\nDefinition cost_du','(c0 - cp) / meps)))) (fun M => Ok (fun i => M 0%nat i))).\nDefinition cost_du','C81 gradient')
m('cost_du','bind (columns_of 6 (fun i => bind (cost t x (vplus u (unit_step i meps))) (fun cp => Ok (fun _ => (cp - c0) / meps))))','bind (columns_of 6 (fun i => bind (cost t x (vplus u (unit_step i meps))) (fun cp => Ok (fun _ => (c0 - cp) / meps))))','C81 gradient by the control')
m('hess_cell','let a3 := add_at a2 col (- meps) in','let a3 := add_at a2 col meps in','C81 (the perturbation is not undone, as in the code)')
m('hess_cell','spp - spm - smp + smm','spp - spm + smp - smm','C81 Hessian')
m('hess_row','add_at d1 row (- meps)','d1','C81 Hessian')
m('cost_dxdx','/ 2 * (c i j / (4 * meps ^ 2) + c j i / (4 * meps ^ 2))','c i j / (4 * meps ^ 2)','C81 Hessian symmetric')
m('cost_dudu','fun i j => / 2 * (Rw t i j + Rw t j i)','Rw t','C81 Hessian by the control')
m('cost_dudu','/ 2 * (Rw t i j + Rw t j i)','(Rw t i j + Rw t j i)','C81 Hessian by the control')
m('compute_Q','mplus cuu (mm n (mm n (tr fu) (v_xx V)) fu)','cuu','C81 optimal')
m('compute_Q','vplus cu (mv n (tr fu) (v_x V))','vplus cu (mv n (tr fx) (v_x V))','C81 optimal')
m('compute_Q','c0 + v_0 V','v_0 V','C81 value')
m('compute_value_function','vscal (-2)','vscal (-1)','C81 value')
m('compute_value_function','mscal (-1) (mm m (q_xu q) kfb)','mm m (q_xu q) kfb','C81 value')
m('compute_value_function','- vdot m kff (q_u q)','+ vdot m kff (q_u q)','C81 value')
m('compute_value_function','mm m inv (tr (q_xu q))','mm m inv (q_xu q)','C81 gain')
m('backward','Ok (kfb :: Ks, V\')','Ok (Ks ++ [kfb], V\')','C81 gains in the order of time')
m('backward','Ok (kfb :: Ks, V\')','Ok (kfb :: Ks, W)','C81 value goes on')
m('compute_gains','(VM c0 cx cxx) 0 N)','(VM c0 cx cxx) 0 (N - 1))','C81 one gain per time')
m('compute_gains','(VM c0 cx cxx) 0 N)','(VM c0 cx (fun _ _ => 0)) 0 N)','C81 final cost')
m('all_derivs','cost_dudu N Rw t, cost_dxdu)','cost_dxdu, cost_dxdu)','C81 cost of control')
M=[x for x in M if x]
