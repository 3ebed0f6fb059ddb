M=[]
F='ConicModel.v'
def m(d,o,n,c): M.append(dict(file=F,definition=d,old=o,new=n,claim=c))
m('clamp_guess','if Rlt_dec g lb then lb else if Rlt_dec ub g then ub else g','if Rlt_dec g lb then ub else if Rlt_dec ub g then lb else g','C07/C50 initial guess is projected onto the bounds')
m('cp_addVar','if Rlt_dec ub lb then Threw p','if Rlt_dec ub lb then Returned p','C50 inverted bounds are refused')
m('cp_addVar','repeat 0 (List.length (p_bin p) + 1)) (repeat 1 (List.length (p_bin p) + 1)) p','repeat 0 (List.length (p_bin p))) (repeat 1 (List.length (p_bin p) + 1)) p','C04 bounds of binary variables')
m('cp_addVar','(repeat 0 (List.length (p_bin p) + 1)) (repeat 1','(repeat 1 (List.length (p_bin p) + 1)) (repeat 0','C04 bounds of binary variables')
m('cp_addVar','(p_bin p ++ [c])','([c] ++ p_bin p)','C04 order of the binary variables')
m('cp_addQua','match ap with ApproxTrustRegion => true | _ => q_trust q end in','match ap with ApproxSoftConstraint => true | _ => q_trust q end in','C05 trust region flag')
m('cp_addQua','match ap with ApproxSoftConstraint => 1 | _ => 0 end)%nat in','match ap with ApproxTrustRegion => 1 | _ => 0 end)%nat in','C05 slack of the soft constraint')
m('cp_addQua','mkQ (le_sub (q_lexpr q) l) (q_terms q) (q_extra q ++ cs) tr sf in','mkQ (le_add (q_lexpr q) l) (q_terms q) (q_extra q ++ cs) tr sf in','C02 quadratic constraint q <= l')
m('cp_addQua','(p_qineq p1 ++ q\')','(q\' ++ p_qineq p1)','C02 order of constraints')
m('cp_addSoc','mkQ (le_sub (q_lexpr q) l) (q_terms q) (q_extra q ++ cs) false (q_soft q)','mkQ (le_add (q_lexpr q) l) (q_terms q) (q_extra q ++ cs) false (q_soft q)','C03 cone constraint')
m('cp_addSoc','if String.eqb sense "<" then Returned (out [qstg]) else Threw (out []).\n','if String.eqb sense "<" then Threw (out [qstg]) else Returned (out []).\n','C02 sense of constraint')
m('cp_setObj','mkQ (le_add (q_lexpr q) l) (q_terms q) (q_extra (p_obj p) ++ cs)','mkQ (le_sub (q_lexpr q) l) (q_terms q) (q_extra (p_obj p) ++ cs)','C04 objective')
m('cp_setObj','cp_addAuxs (List.length (q_terms q)) p','cp_addAuxs (List.length (q_terms q) - 1) p','C04 objective: one auxiliary per square')
m('addA','Nat.ltb r (s_me s) && Nat.ltb c (s_n s)','Nat.leb r (s_me s) && Nat.ltb c (s_n s)','C06 writes stay inside')
m('addG','Nat.ltb r (s_m s) && Nat.ltb c (s_n s)','Nat.ltb r (s_m s)','C06 writes stay inside')
m('p_env','nth c (map v_val (p_vars p)) 0','nth c (map v_lb (p_vars p)) 0','C05 linearisation at the current values')
m('n_tr','filter q_trust (p_qineq p)','filter q_soft (p_qineq p)','C06 number of rows')
m('n_sc','filter q_soft (p_qineq p)','filter q_trust (p_qineq p)','C06 number of rows')
m('b_mextra','(if warm then 0 else n_sc p)','(if warm then n_sc p else 0)','C06 number of rows')
m('b_nlineq','2 * List.length (p_bin p)','List.length (p_bin p)','C06 number of rows')
m('b_q','map (fun q => List.length (q_terms q) + 1)%nat (p_soc p)','map (fun q => List.length (q_terms q))%nat (p_soc p)','C03 cone sizes')
m('b_q','repeat 3%nat','repeat 2%nat','C03 cone sizes')
m('b_leq','setB i (- le_const e)','setB i (le_const e)','C02 equality constraint right hand side')
m('b_bin','(addG (2 * i + 1) col 1 (addG (2 * i) col (-1) s))','(addG (2 * i + 1) col (-1) (addG (2 * i) col 1 s))','C04 binary bounds')
m('b_bin','setH (2 * i + 1) ub (setH (2 * i) lb','setH (2 * i + 1) lb (setH (2 * i) ub','C04 binary bounds')
m('b_lineq','setH (row + i) (- le_const e)','setH (row + i) (le_const e)','C02 inequality right hand side')
m('b_terms','(f * snd t)','(f + snd t)','C02 coefficients')
m('b_qlin','addG (row + i) c (fst t) s','addG (row + i) c 1 s','C02 weights of the squares')
m('b_qlin','setH (row + i) (- le_const (q_lexpr q)) (b_terms (row + i) 1','setH (row + i) (le_const (q_lexpr q)) (b_terms (row + i) 1','C02 constant of a quadratic constraint')
m('b_objlin','setC (fst t) (snd t) s) (le_terms (q_lexpr (p_obj p)))','setC (fst t) (- snd t) s) (le_terms (q_lexpr (p_obj p)))','C04 objective')
m('b_grad','2 * fst t * le_value (p_env p) (snd t) * snd u','fst t * le_value (p_env p) (snd t) * snd u','C05 gradient of a square')
m('b_grad','s_h s1 r - k * p_env p (fst u)','s_h s1 r + k * p_env p (fst u)','C05 linearisation constant')
m('b_trust','thr ^ iter','thr','C05 trust region shrinks')
m('b_trust','b_terms (row + i) (-1) (le_terms (q_lexpr q)) s1','b_terms (row + i) 1 (le_terms (q_lexpr q)) s1','C05 linearisation')
m('b_soft','setH (r + 1) (-1) (setH r 1 s)','setH (r + 1) 1 (setH r 1 s)','C05 rotated cone of soft constraint')
m('b_soft','setC c w s5','setC c 1 s5','C05 weight of the soft constraint')
m('b_soft','row + 3 * i','row + 2 * i','C05 rows of soft constraint')
m('b_qquad','row + 3 * k','row + k','C02 rows of the squares')
m('b_socquads','(row + (List.length (q_terms q) + 1))','(row + List.length (q_terms q))','C03 rows of the cones')
F='KinModel.v'
m('ks_new','KS v0 qone','KS v0 (V3 0 0 0 , 0)','skip') if False else None
m('k_next','k_nact g + 6','k_nact g + 7','C44/C58 number of degrees of freedom')
m('k_ext','(6 + k_dof g (d - 6))','(6 + d - 6)','C58 active degrees of freedom')
m('k_var_calls','CAddVar Continuous (b_lb b (fst rc) (snd rc)) (b_ub b (fst rc) (snd rc))','CAddVar Continuous (b_ub b (fst rc) (snd rc)) (b_lb b (fst rc) (snd rc))','C44 bounds of variables')
m('k_acc_loop','le_add l (le_of_var (col d) (coeff d))','le_sub l (le_of_var (col d) (coeff d))','C44 sums over the degrees of freedom')
m('kEV','(3 + (2 * e + 1))%nat','(3 + 2 * e)%nat','C44 blocks')
m('kQD','(3 + 2 * k_neff g + 1)%nat','(3 + 2 * k_neff g)%nat','C44 blocks')
m('kcur','rb_update rob (seqk t) (k_step g)','rb_update rob (seqk 0%nat) (k_step g)','C44 model at each time')
m('k_coord','vget3 lo (d - 3)','vget3 lo (d - 2)','C58 coordinates')
m('k_coord','if (d <? 3)%nat then vget3 (ks_base s) d','if (d <? 3)%nat then vget3 lo d','C58 coordinates')
m('k_posture_calls','(le_of_var (col kQD d t) (k_step g))','(le_of_var (col kQD d t) 1)','C44 posture integrates the velocity')
m('k_constraints','flat_map (k_axis_calls t) axes ++ k_floor_calls t ++','flat_map (k_axis_calls t) axes ++','C44 floor constraints')
m('k_constraints','++ k_limit_calls t)','++ [])','C44 limits')
m('k_after','if (t <? k_N g)%nat then k_stored t','if (t <? k_N g - 1)%nat then k_stored t','C59 all steps are stored')
m('post_blocks','[free_block 3 1 (k_inf g); free_block 3 1 (k_inf g); free_block ncon 1 (k_inf g)','[free_block 3 1 (k_inf g); free_block 3 1 (k_inf g); free_block 1 1 (k_inf g)','C59 slack per constraint')
m('des_lmom','vsub (d_lmom des) (ks_lmom cur)','vsub (ks_lmom cur) (d_lmom des)','C59 momentum error')
m('des_amom','vscale (/ k_step g) (vsub (d_amom des)','vscale (k_step g) (vsub (d_amom des)','C59 momentum rate')
m('des_eff','vsub (e_pos (d_eff des e)) (ks_eff cur e)','vsub (e_pos (d_eff des e)) (ks_eff cur 0%nat)','C59 endeffector error')
m('p_com_term','le_of_const (- vget3 des_com i)','le_of_const (vget3 des_com i)','C59 centre of mass term')
m('p_mom_term','(le_of_var (col bTQD d) (rb_dag rob s0 row d))','(le_of_var (col bTQD d) (rb_ag rob s0 row d))','C59 momentum term')
m('p_eff_term','if e_act (d_eff des e) then kw_eff g else kw_neff g','if e_act (d_eff des e) then kw_neff g else kw_eff g','C59 weights of contacts')
m('post_error','vnorm des_com + vnorm des_amom + vnorm des_lmom','vnorm des_com + vnorm des_amom','C59 error')
m('vnorm','sqrt (vdot a a)','vdot a a','C59 error')
m('kin_optimize','match t with O => ini | S t\' => chain t\' end','ini','C59 postures are chained')
m('kin_optimize','if first then (fun t','if negb first then (fun t','C59 first pass')
m('kin_optimize','set_jnt (k_qdef g) ks_new','ks_new','C59 default posture')
M=[x for x in M if x]
