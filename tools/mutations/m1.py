M=[]
def m(file,definition,old,new,claim,**k): M.append(dict(file=file,definition=definition,old=old,new=new,claim=claim,**k))
# Exprs
m('ExprsModel.v','clean_inner','(fst t, snd t + a)','(fst t, a)','C01: merging duplicates overwrites instead of adding')
m('ExprsModel.v','le_sub','le_add e (le_scale rhs (-1))','le_add e rhs','C01: subtraction adds')
m('ExprsModel.v','le_div','le_scale e (1 / a)','le_scale e a','C01: division multiplies')
m('ExprsModel.v','le_scale','mkLE (le_const e * f) (map','mkLE (le_const e) (map','C01: scaling forgets the constant')
m('ExprsModel.v','le_imul','Definition le_imul (e : linexpr) (a : R) : linexpr :=                              (* l.48: operator*= *)\n  mkLE (le_const e * a)','Definition le_imul (e : linexpr) (a : R) : linexpr :=\n  mkLE (le_const e)','C01: *= forgets the constant')
m('ExprsModel.v','clean_step',"if negb set && negb (is_zero (snd t)) then res' ++ [t] else res'","if negb set && is_zero (snd t) then res' ++ [t] else res'",'C01: clean keeps only zero coefficients')
# Conic
m('ConicModel.v','cp_addLin','(p_lineq p ++ [le_sub rhs lhs])','(p_lineq p ++ [le_sub lhs rhs])','C02: > constraint stored with the wrong sign')
m('ConicModel.v','b_rot','setH (r + 2) (2 * le_const l) (setH (r + 1) (-1) (setH r 1 s2))','setH (r + 2) (2 * le_const l) (setH (r + 1) 1 (setH r 1 s2))','C04: rotated cone row with wrong right hand side')
m('ConicModel.v','b_rot','b_terms (r + 2) (-2) (le_terms l) s1','b_terms (r + 2) (-1) (le_terms l) s1','C04: factor 2 of the rotated cone lost')
m('ConicModel.v','b_socquad','setH (row + k + 1) (le_const (snd t))','setH (row + k + 1) (- le_const (snd t))','C03: cone row constant with wrong sign')
m('ConicModel.v','b_qquads','b_qquads (row + 3 * List.length (q_terms q))','b_qquads (row + 2 * List.length (q_terms q))','C06: blocks overlap')
m('ConicModel.v','b_objq','setC c a (b_rot','setC c 1 (b_rot','C04: objective weight of quadratic terms ignored')
m('ConicModel.v','b_soclin','setH (row + i) (- le_const (q_lexpr q)) (b_terms (row + i) 1 (le_terms (q_lexpr q)) s1).\n\n(** l.189','setH (row + i) (le_const (q_lexpr q)) (b_terms (row + i) 1 (le_terms (q_lexpr q)) s1).\n\n(** l.189','C03: cone linear row constant sign')
m('ConicModel.v','cp_build','let row := (row + List.length (p_lineq p))%nat in','let row := (row + List.length (p_leq p))%nat in','C06: row offset of the quadratic constraints wrong')
# OptVar
m('OptVarModel.v','ov_id','(ov_start ov + col_bnd_ind ov col * ov_rows ov + row_bnd_ind ov row)%Z','(ov_start ov + row_bnd_ind ov row * ov_rows ov + col_bnd_ind ov col)%Z','C07: row/column swapped in the index')
m('OptVarModel.v','ov_initialize','(start + Z.of_nat (b_rows b) * Z.of_nat (b_cols b))%Z','(start + Z.of_nat (b_rows b) * Z.of_nat (b_cols b) - 1)%Z','C07: blocks overlap by one')
m('OptVarModel.v','save_solution','vget solution (ov_id ov (fst rc) (snd rc))','vget solution (ov_id ov (snd rc) (fst rc))','C08: solution read back transposed')
m('OptVarModel.v','row_bnd_ind','if (ov_rows ov <=? row)%Z then (ov_rows ov - 1)%Z','if (ov_rows ov <=? row)%Z then (ov_rows ov)%Z','C07: clamp off by one')
# Eq
m('EqModel.v','unequilibrateRowsCols','(r, c, v * (row r * col c))','(r, c, v * row r)','C09: unscaling forgets the column factor')
m('EqModel.v','soc_sum','then s else z j','then z j else z j','C09: cone rows get different factors')
m('EqModel.v','scale_variables','o_s o i * (e_z E i / o_tau o)','o_s o i / (e_z E i * o_tau o)','C09: slack rescaled like a multiplier')
m('EqModel.v','set_equilibration','(fun i => s_h s i / e_z E i)','(fun i => s_h s i / e_y E i)','C09: right hand side scaled with the wrong factors')
m('EqModel.v','eq_factor','then 1 else sqrt e','then 0 else sqrt e','C09: zero scaling factor')
# Cone
m('ConeModel.v','div_blk','factor * u j + safeDivision (w j) (u 0%nat)','factor * u j - safeDivision (w j) (u 0%nat)','C10: sign in the division')
m('ConeModel.v','prod_blk','| _ => u 0%nat * v j + v 0%nat * u j end','| _ => u 0%nat * v j + u 0%nat * u j end','C10: wrong product')
m('ConeModel.v','soc_residual','Rmax (sqrt (tdot n s s) - s 0%nat) 0','Rmax (sqrt (tdot n s s) + s 0%nat) 0','C11: wrong sign of the head: not the smallest move / not interior')
m('ConeModel.v','conicProjection','(lp_residual nl s) + 1) s','(lp_residual nl s)) s','C11: boundary instead of interior')
m('ConeModel.v','lp_residual','then Rmax m (Rabs (s i)) else m','then Rabs (s i) else m','C11: last negative entry instead of the largest')
m('ConeModel.v','scal_blk','| _ => nt_eta b * (z j + factor * w j)','| _ => nt_eta b * (z j + factor * z j)','C12: wrong scaling of the tail')
m('ConeModel.v','nt_point','| _ => normalizer * (sk i - zk i) end','| _ => normalizer * (sk i + zk i) end','C12: wrong scaling point')
m('ConeModel.v','nt_coeffs','let u1 := safeDivision alpha u0 in','let u1 := safeDivision beta u0 in','C12: wrong sparse coefficient')
m('ConeModel.v','updateNTScalings','sqrt (lp2 i)','lp2 i','C12: square root forgotten')
m('ConeModel.v','lp_alpha','if Rlt_dec m 0 then -1 / m else big','if Rlt_dec m 0 then -2 / m else big','C15: step twice too long')
m('ConeModel.v','lp_ratio','(seq 1 (nl - 1))','(seq 1 (nl - 2))','C15: last linear row skipped')
m('ConeModel.v','rho_blk','let factor := (cres + dk 0%nat) / (lkbar 0%nat + 1) in','let factor := cres / (lkbar 0%nat + 1) in','C15: wrong transformed direction')
m('ConeModel.v','soc_alpha','Rmin alpha (1 / m)','Rmax alpha (1 / m)','C15: largest instead of smallest step')
m('ConeModel.v','pos_alpha','(if Rlt_dec (- t / dt) alpha then - t / dt else alpha) else alpha','alpha else alpha','C15: tau/kappa test dropped')
m('ConeModel.v','socs_alpha','(shift lam st) (shift ds st) (shift dz st) alpha)','(shift lam st) (shift ds st) (shift ds st) alpha)','C15: dual direction not tested')
