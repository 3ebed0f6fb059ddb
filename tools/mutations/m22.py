M=[]
D='DynModel.v'
def m(definition,old,new,claim,**k): M.append(dict(file=k.pop('file',D),definition=definition,old=old,new=new,claim=claim,**k))
m('rotcol','(2 * x * y + 2 * z * w) (2 * x * z - 2 * y * w)','(2 * x * y - 2 * z * w) (2 * x * z - 2 * y * w)','C32 contact frames are rotations')
m('rotcol','(2 * y * z - 2 * x * w) (1 - (2 * x * x + 2 * y * y))','(2 * y * z + 2 * x * w) (1 - (2 * x * x + 2 * y * y))','C32 contact normal')
m('clamp_mu','if Rle_dec mu (1 / 1000) then 1 / 1000 else mu','if Rle_dec mu (1 / 100) then 1 / 100 else mu','C33 friction coefficient used as given above 1e-3')
m('cone_vec0','(V3 (/ 2 * sqrt 2) (/ 2 * sqrt 2) (- clamp_mu mu))','(V3 (/ 2 * sqrt 2) (/ 2 * sqrt 2) (clamp_mu mu))','C33 friction pyramid opens along the normal')
m('cone_turn','2 * PI / 4 in','2 * PI / 3 in','C33 pyramid has four sides')
m('cone_turn','V3 (cos angle * vx v + - sin angle * vy v)','V3 (cos angle * vx v + sin angle * vy v)','C33 pyramid')
m('is_timeopt','match h with TimeOptimization => true | _ => false end','match h with SoftConstraint => true | _ => false end','C32 time is optimised only with that heuristic')
m('bEff','(if timeopt then 6 else 3) + 5 * e + k','(if timeopt then 6 else 3) + 4 * e + k','C32 every quantity has variables of its own')
m('bEff','(if timeopt then 6 else 3)','(if timeopt then 5 else 3)','C32 every quantity has variables of its own')
m('col','(Z.of_nat r) c)','(Z.of_nat r) (c + 1))','C32 columns')
m('lever','(le_sub (ec (vget3 (c_pos c) i)) (evt bCOM i t))','(le_add (ec (vget3 (c_pos c) i)) (evt bCOM i t))','C32 lever arm is contact minus com plus cop')
m('lever','(le_scale (eff_ev (bCOP e) 1 t e) (vget3 (rotcol (c_ori c) 1) i))','(le_scale (eff_ev (bCOP e) 1 t e) (vget3 (rotcol (c_ori c) 0) i))','C32 cop along the second axis of the contact')
m('negadd','le_add (le_sub (ec 0) a) b','le_sub (le_sub (ec 0) a) b','C33 torque from the difference of the bounds')
m('negsub','le_sub (le_sub (ec 0) a) b','le_add (le_sub (ec 0) a) b','C33')
m('ub_parts','| 1%nat => (le_add (l 2%nat) (f 0%nat), negadd (l 0%nat) (f 2%nat))','| 1%nat => (le_add (l 2%nat) (f 0%nat), negadd (l 0%nat) (f 1%nat))','C33 cross product, y axis')
m('lb_parts','| _ => (negsub (l 1%nat) (f 0%nat), le_sub (l 0%nat) (f 1%nat))','| _ => (negsub (l 1%nat) (f 0%nat), le_sub (l 1%nat) (f 1%nat))','C33 cross product, z axis')
m('ref_at','nth t kin','nth (S t) kin','C68 momenta follow the reference of the same step')
m('is_foot','(e <=? 1)%nat.','(e <=? 2)%nat.','C68 feet are weighted as legs')
m('is_hand','((e =? 2) || (e =? 3))%nat.','((e =? 2) || (e =? 1))%nat.','C68 hands are weighted as arms')
m('via_terms','(trunc (fst v / g_dt g))','(trunc (fst v / g_dt g) + 1)','C68 via points are reached at their time')
m('via_terms','(vget3 (snd v) i)','(vget3 goal i)','C68 via points')
m('mom_terms','if (S t =? g_N g)%nat\n     then','if (t =? g_N g)%nat\n     then','C68 the last step has weights of its own')
m('mom_terms','(vget3 (w_famom g) i, le_sub (evt bAM i t)','(vget3 (w_flmom g) i, le_sub (evt bAM i t)','C68 final angular momentum weight')
m('mom_terms','(vget3 (w_amom g) i, le_sub (evt bAM i t) (ec (vget3 (k_amom','(vget3 (w_amom g) i, le_sub (evt bAM i t) (ec (vget3 (k_lmom','C68 angular momentum follows its reference')
m('mom_terms','++ [(vget3 wtrack i, le_sub (evt bCOM i t) (ec (vget3 (k_com (ref_at t)) i)))]','++ []','C68 center of mass tracks the reference')
m('rate_terms','(prev bAM (vget3 (d_amom ini) i))) (1 / sdt t))]','(prev bAM (vget3 (d_amom ini) i))) (sdt t))]','C68 rates are difference quotients')
m('rate_terms','(vget3 (w_amomd g) i, evt bAMD i t)]','(vget3 (w_amomd g) i, evt bLMD i t)]','C68 rate of angular momentum is penalised')
m('rate_terms','(prev bLM (vget3 (d_lmom ini) i))','(prev bLM (vget3 (d_com ini) i))','C68 the first rate starts at the initial momentum')
m('force_terms','if is_foot e then w_leg g else w_arm g','if is_foot e then w_arm g else w_leg g','C68 force weights')
m('force_terms','if act t e then [(vget3 (if is_foot','if negb (act t e) then [(vget3 (if is_foot','C68 forces of contacts in use are penalised')
m('force_rate_terms','if (S t =? g_N g)%nat then cur','if (S t =? g_N g)%nat then ec 0','C68 no change of force after the last step is penalised')
m('force_rate_terms','S t\' => if act t\' e then force t\' e i else ec 0 end in\n      [(w','S t\' => if act t\' e then force t\' e i else cur end in\n      [(w','C68 a new contact is penalised for the force it starts with')
m('force_rate_terms','[(w, le_sub next cur); (w, le_sub cur prev)]','[(w, le_sub next cur)]','C68 changes to the previous step')
m('torque_terms','if is_foot e then w_legtrq g else w_armtrq g','w_legtrq g','C68 torque weights of hands')
m('time_terms','(ec (g_dt g)))] else []','(ec 0))] else []','C68 durations are regularised to the nominal step')
m('time_terms','[(w_time g, evt bDT 0 t);','[(w_time g, evt bDT 1 t);','C68 durations',optional=True,note='row 1 of a one-row block is clamped to row 0')
m('lin_sq','(le_scale (le_subc e v) 2) v','(le_scale (le_subc e v) 2) 1','C68 linear model of a square')
m('lever_val','- vget3 (d_com (st t)) i +','+ vget3 (d_com (st t)) i +','C68 stored lever arm')
m('lever_val','(rotcol (c_ori c) 1) i * vy (e_cop','(rotcol (c_ori c) 1) i * vx (e_cop','C68 stored lever arm')
m('part_vals','| 1%nat => (l 2%nat + f 0%nat, - l 0%nat + f 2%nat)','| 1%nat => (l 2%nat + f 0%nat, l 0%nat + f 2%nat)','C68 stored values of the squares')
m('soft_term','fst vals ^ 2 + snd vals ^ 2','fst vals ^ 2 - snd vals ^ 2','C68 model of the sum of squares')
m('soft_terms','part_vals (-1) c t e i','part_vals 1 c t e i','C68 lower bound close to its own model')
m('soft_terms','if negb first && timeopt','if timeopt','C68 only later passes have a stored plan')
m('obj_terms','++ torque_terms t ++ time_terms t','++ torque_terms t','C68 durations are penalised')
m('obj_terms','++ force_terms t i ++ force_rate_terms t i','++ force_terms t i','C68 changes of force')
m('q_of','q_addQua o (fst x) (snd x)','q_addQua o 1 (snd x)','C68 weights are used')
m('height_calls','le_sub (evt bCOM 2 t) (ec (vz (c_pos c)))','le_sub (evt bCOM 2 t) (ec (vx (c_pos c)))','C32 height above the first contact')
m('height_calls','">" (ec (g_minh g))','"<" (ec (g_minh g))','C32 minimum height')
m('horizon_calls','INR (g_N g) * g_dt g','INR (g_N g + 1) * g_dt g','C32 fixed horizon')
m('horizon_calls','g_fixed g && timeopt','negb (g_fixed g) && timeopt','C32 fixed horizon')
m('bound_calls','CAddLin (evt bDT 0 t) "<" (ec (g_thi g))','CAddLin (evt bDT 0 t) ">" (ec (g_thi g))','C32 duration limits')
m('bound_calls','(eff_ev (bCOP e) 1 t e) "<" (ec (g_coprange g e 3))','(eff_ev (bCOP e) 1 t e) "<" (ec (g_coprange g e 1))','C32 cop inside the surface')
m('cone_coeff','vz v * vget3 (rotcol (c_ori c) 2) i','vz v * vget3 (rotcol (c_ori c) 1) i','C33 pyramid in the contact frame')
m('lin_friction','axes (ec 0)) "<" (ec 0)','axes (ec 0)) ">" (ec 0)','C33 force inside the pyramid')
m('soc_friction','"<" (le_scale (local_force c t e 2) (g_mu g))','"<" (local_force c t e 2)','C33 friction cone with coefficient')
m('soc_friction','[(1, local_force c t e 0); (1, local_force c t e 1)]','[(1, local_force c t e 0)]','C33 friction cone')
m('friction_calls','| FullContact => Ok []','| FlatContact => Ok []','C33 friction for flat contacts')
m('friction_calls','map (lin_friction c t e) [0; 1; 2; 3]%nat','map (lin_friction c t e) [0; 1; 2]%nat','C33 four sides')
m('before','| S t\' => evt b i t\' end','| S t\' => evt b i t end','C32 dynamics link neighbouring steps')
m('com_call','sdt t / g_mass g','sdt t * g_mass g','C32 velocity is momentum over mass')
m('rate_call','(le_scale (evt bd i t) (sdt t))','(le_scale (evt bd i t) (g_dt g))','C32 first pass uses the durations of the sequence')
m('product_lin','(le_scale (le_add (ec ((dtv - av) ^ 2))','(le_scale (le_add (ec ((dtv + av) ^ 2))','C34 linearised product')
m('product_call','le_sub (before b i t v) (evt b i t)','le_sub (evt b i t) (before b i t v)','C34 linearised dynamics')
m('lmomd_call','le_sub (ec (g_mass g * vget3 (g_grav g) i)) (evt bLMD i t)','le_sub (ec (vget3 (g_grav g) i)) (evt bLMD i t)','C32 weight')
m('amomd_calls','(le_sub (eff_ev (bUB e) i t e) (eff_ev (bLB e) i t e)) (/ 4)','(le_sub (eff_ev (bUB e) i t e) (eff_ev (bLB e) i t e)) (/ 2)','C32 torque is a quarter of the difference of the bounds')
m('lmom_call','if (t =? 0)%nat then le_add l1','if (t =? 1)%nat then le_add l1','C32 external force acts in the first step')
m('lmom_call','(- sdt t * g_mg g)) else l) effs l0','(sdt t * g_mg g)) else l) effs l0','C32 forces accelerate')
m('amom_calls','(- vget3 (rotcol (c_ori c) 2) i * sdt t)','(- vget3 (rotcol (c_ori c) 2) i)','C32 torque acts for the duration of the step')
m('dynamics_calls','product_call bLM bLMD i t (d_lmom ini) (d_lmomd (st t))','product_call bLM bLMD i t (d_lmom ini) (d_lmom (st t))','C34 linearisation at the stored rate')
m('dynamics_calls','if first then map (com_call t) axes','if negb first then map (com_call t) axes','C34 passes')
m('qapprox','TrustRegion => ApproxTrustRegion | SoftConstraint => ApproxSoftConstraint','TrustRegion => ApproxSoftConstraint | SoftConstraint => ApproxTrustRegion','C69 heuristics')
m('qapprox','TimeOptimization => ApproxNone','TimeOptimization => ApproxSoftConstraint','C69 time optimisation is solved once')
m('cone_calls','(ec (g_maxlen g e ^ 2)) ApproxNone','(ec (g_maxlen g e)) ApproxNone','C32 leg length')
m('cone_calls','(eff_ev (bLB e) i t e) qapprox','(eff_ev (bUB e) i t e) qapprox','C32 lower bounds')
m('quad_calls','Ok (cone_calls c t e)) else Ok []','Ok []) else Ok []','C32 bounds hold')
m('var_calls','(Z.of_nat (b_rows b))','(Z.of_nat (b_cols b))','C32 one variable per entry')
m('setup_calls','++ hc ++ horizon_calls ++ bound_calls ++ fc ++ dc','++ hc ++ horizon_calls ++ bound_calls ++ dc','C32 friction')
m('setup_calls','(List.length kin <? g_N g)','(List.length kin <? 0)','C32 missing references are out of range reads',optional=True)
m('problem_calls','Ok (var_calls ++ s)','Ok (s ++ var_calls)','C32 variables are created before use')
m('val3','V3 (val b 0 c) (val b 1 c) (val b 2 c)','V3 (val b 0 c) (val b 1 c) (val b 1 c)','C34 stored plan')
m('frc_val','vscale (g_mg g)','vscale (g_mass g)','C34 forces are in units of the weight')
m('dt_val','val bDT 0 (Z.of_nat t)','val bDT 0 0','C34 durations')
m('lin_step','(vscale (g_mass g) (g_grav g))','(g_grav g)','C34 momentum from forces')
m('com_step','1 / g_mass g * dt_val t','dt_val t','C34 com from momentum')
m('compos','com_step t (compos t\')','com_step t\' (compos t\')','C34 com from momentum')
m('len_val','if timeopt then compos t else val3','if timeopt then val3 bCOM (Z.of_nat t) else val3','C34 lever arm of the recomputed com')
m('trq_val','(c_ori (contact_of_active t e)) 2','(c_ori (contact_of_active t e)) 0','C34 normal torque')
m('ang_step','vcross (len_val t e) (frc_val t e)','vcross (frc_val t e) (len_val t e)','C34 angular momentum from torques')
m('set_lmom','(d_com d) v (d_amom d)','(d_com d) (d_lmom d) (d_amom d)','C35 stored momentum')
m('set_cop','(e_frc e) (e_trq e) v (e_trqc e)','v (e_trq e) v (e_trqc e)','C35 stored cop')
m('set_time','Dyn v (d_com d)','Dyn (d_time d) (d_com d)','C35 stored durations')
m('store_loop','(Z.of_nat t + off)','(Z.of_nat t)','C35 storage')
m('guess_col','(k <? act_steps q e)','(k <=? act_steps q e)','C35 out of range read',optional=True)
m('store_eff_loop','if e_act (d_eff d e)\n      then','if negb (e_act (d_eff d e))\n      then','C35 forces of contacts')
m('trq_contact','vadd (e_trq e) (vcross (e_cop e) fl)','vadd (e_trq e) (vcross fl (e_cop e))','C35 torque at the contact')
m('trq_contact','vscale (g_mg g) (e_frc e)','e_frc e','C35 torque at the contact')
m('storeSolution','set_amom (am t)','set_amom (am 0%nat)','C35 stored angular momentum')
m('storeSolution','set_trq (V3 0 0 (val (bTRQ e) 0 k))','set_trq (V3 0 0 (val (bTRQ e) 0 0))','C35 stored torque')
m('dyn_initialize','map (set_time (g_dt g)) (states','map (set_time 0) (states','C45 initial durations')
m('norm3','vdot d d','vx d * vx d','C34 error measure')
m('internalOptimize','Rmax com_err (Rmax lmom_err amom_err)','Rmax com_err lmom_err','C34 convergence of all three')
m('internalOptimize','conv0 || conv1 || conv2','conv0 || conv2','C34 converged when the error is below the tolerance')
m('internalOptimize','let am := if is_timeopt (g_heur g) then own else ang in','let am := own in','C34 stored angular momentum is the recomputed one')
m('time_passes','if po_conv o\' then Ok o\'','if po_conv o then Ok o\'','C34 stops at the first converged pass')
m('optimize','true false 0 q) (fun o =>','false false 0 q) (fun o =>','C34 first pass')
m('optimize','vadd (d_com ini) com_motion','com_motion','C68 goal relative to the start')
