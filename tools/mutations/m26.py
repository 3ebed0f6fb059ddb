M=[]
F=''
def m(d,o,n,c): M.append(dict(file=F,definition=d,old=o,new=n,claim=c))
F='LdlModel.v'
m('a_walk','(upd (y_lnnz st) row (S (y_lnnz st row)))','(y_lnnz st)','C16 column counts')
m('a_walk','upd (y_parent st) row (Some k)','upd (y_parent st) row (Some row)','C16 elimination tree')
m('a_col','(upd (y_flag st) k k)','(y_flag st)','C16 pattern')
m('analyze','(seq 0 n) st','(seq 1 (n - 1)) st','C16 every column')
m('f_entry','upd (m_Y s) (fst e) (snd e)','upd (m_Y s) (fst e) 1','C16 entries')
m('f_entry','path ++ pat','pat ++ path','C16 order of elimination')
m('f_elim','m_D s k - l_ki * yi','m_D s k - l_ki * l_ki','C16 D')
m('f_elim','let Y := upd (m_Y s) i 0 in','let Y := m_Y s in','C16 work array is cleared')
m('f_elim','yi / m_D s i','yi / m_D s k','C16 L')
m('f_row','dyn_reg (sign k) eps delta (m_D s k)','m_D s k','C16 regularisation')
m('fwd_col','x (m_Li s p) - m_Lx s p * x j','x (m_Li s p) + m_Lx s p * x j','C16 solve')
m('bwd_col','x j - m_Lx s p * x (m_Li s p)','x j - m_Lx s p * x j','C16 solve')
m('ldl_run','factorize n A sign','factorize n A0 sign','C16 numeric values of the second matrix')
F='LinModel.v'
m('extSizeCone','nl + total q + 2 * length q','nl + total q + length q','C17 size')
m('extSizeProb','(d_n d + d_p d + extSizeCone','(d_n d + extSizeCone','C17 size')
m('indexSoc0','nnz_left (d_Gt d) (d_nl d) + d_nl d','nnz_left (d_Gt d) (d_nl d)','C17 positions')
m('prow','Nat.min (inv','Nat.max (inv','C17 upper triangle')
m('outer','Nat.ltb (pcol inv t) c','Nat.leb (pcol inv t) c','C17 column pointers')
m('perm_value','(map t_val T) (fun','(map t_val (rev T)) (fun','C17 values follow their positions')
m('perm_matrix','(outer inv T (S c) - outer inv T c)','(outer inv T (S c))','C17 columns')
m('soc_init_writes','[(perm_indexSoc pK ix m (2 * m - 1), -1)]','[(perm_indexSoc pK ix m (2 * m - 1), 1)]','C53 initial matrix')
m('soc_init_writes','[(perm_indexSoc pK ix m (3 * m), 1)]','[(perm_indexSoc pK ix m (3 * m), -1)]','C53 initial matrix')
m('initializeMatrix','(perm_indexLpc d pK i, -1)','(perm_indexLpc d pK i, 1)','C53 initial matrix')
m('sign_ext','upd f (e + m + 1)%nat 1','upd f (e + m)%nat 1','C17 signs')
m('permdZ','(i + (d_n d + d_p d))','(i + d_n d)','C17 directions')
m('col_dot','snd e * x (fst e)','x (fst e)','C17 residual')
m('scaling2_soc','(e + m + 2) q\' bs\'\n','(e + m) q\' bs\'\n','C13 scaling of the blocks')
m('conicNTScaling2','y i + sc_lp2 W i * x i','y i + sc_lp W i * x i','C13 squared scaling')
m('norm_inf','Rmax m (Rabs (v i))','Rmin m (Rabs (v i))','C17 residual norm')
m('lin_solve','(1 + norm_inf N permB) * acc','norm_inf N permB * acc','C17 refinement threshold')
F='QpModel.v'
m('computeD','J k l * np k','J l k * np k','C49 d = J^T n')
m('updateZ','rsum (n - iq)','rsum n','C49 z')
m('backsub','(d i - rsum iq','(d i + rsum iq','C49 back substitution')
m('trace','M i i)','M i 0%nat)','C55')
m('axpy','x i + t * z i','x i - t * z i','C49 step')
m('head_sub','u i - t * r i','u i + t * r i','C49 multipliers')
m('start','fun i => - rsum n','fun i => rsum n','C49 unconstrained minimum')
m('start','/ 2 * dotn n (q_g P) x0','dotn n (q_g P) x0','C49 objective value')
m('eq_phase','eq_phase P c (S i)','eq_phase P c i','C49 every equality')
m('mark_active','(-1)%Z) else None','0%Z) else None','C49 active set')
m('qstep','L2 => step_l2 P q | L2a => step_l2a P q','L2 => step_l2a P q | L2a => step_l2 P q','C49')
m('ret_value','match e with ExitInfeasible => None','match e with ExitInfeasible => Some (fv q)','C55 infeasible')
m('find_active','if (A i =? l)%Z then Some i','if (A i =? l)%Z then Some 0%nat','C56 dropped constraint')
F='ConeModel.v'
m('tdot','(seq 1 (n - 1))','(seq 1 n)','C10')
m('safeDivision','if Rlt_dec y guard then x / guard','if Rlt_dec y guard then 0','C10 division')
m('conicResidual','u 0%nat * u 0%nat - tdot','u 0%nat - tdot','C10')
m('soc_loop','(st + n) q\' (fun i','(st + n + 1) q\' (fun i','C10 blocks')
m('conicDivision','safeDivision (w i) (u i)','safeDivision (u i) (w i)','C10 division')
m('conicProduct','prod_blk n (shift u st) (shift v st)','prod_blk n (shift u st) (shift u st)','C10')
m('max_soc_residual','if Rlt_dec m r then r else m','if Rlt_dec m r then m else r','C12 shift into the cone')
m('add_identity','match j with O => s st + a','match j with O => s st','C12 identity')
m('nt_block','(safeDivision (sqrt sres) (sqrt zres))','(safeDivision (sqrt zres) (sqrt sres))','C11 scaling')
m('nt_block','if Rle_dec zres 0 then None else','','C11 refuses points outside')
m('conicNTScaling','sc_lp W i * z i','sc_lp2 W i * z i','C11 scaling')
m('lineSearch','Rmax (Rmin a smax) smin','Rmin (Rmax a smin) smax','C15')
m('lineSearch','let a := pos_alpha kappa dkappa a in','','C15 kappa stays positive')
m('ip_update','ip_s p i + step * conicNTScaling nl q W ds i','ip_s p i + step * ds i','C15 update')
m('scal2_blk','nt_u0 b * x 0%nat + nt_u1 b * yaux2 - x (S n)','nt_u0 b * x 0%nat + nt_u1 b * yaux2 + x (S n)','C13')
F='EqModel.v'
m('max_row','Rmax (Rabs v) acc else acc end) (row r) m','Rmax v acc else acc end) (row r) m','C09')
m('max_col','if Nat.eqb c\' c then Rmax (Rabs v) acc else acc','Rmax (Rabs v) acc','C09')
m('equilibrateRowsCols','v / (col c * row r)','v / col c','C09')
m('ruiz_step','e_z E i * fz i)','e_z E i / fz i)','C09')
m('ruiz_step','equilibrateRowsCols fz fx G','equilibrateRowsCols fy fx G','C09')
m('ruiz_step','let tz := soc_sum nl q tz in','','C09 one factor per cone')
m('unset_equilibration','s_h s i * e_z E i','s_h s i * e_x E i','C09')
m('unset_equilibration','s_c s i * e_x E i','s_c s i','C09')
m('sum_block','z (start + k)%nat','z k','C09 cone factor')
m('ruiz_loop','ruiz_loop k nl q (ruiz_step nl q st)','ruiz_loop k nl q st','C09 iterations')
F='ExprsModel.v'
m('le_isClean','(seq 1 (length ts - 1))','(seq 0 (length ts))','C01 isClean as it is')
m('le_add','le_const e + le_const rhs','le_const e','C01')
m('le_self_loop','ts ++ [nth i ts (0%nat, 0)]','ts ++ [nth 0 ts (0%nat, 0)]','C01 self addition')
m('le_subc','(le_of_const (- a))','(le_of_const a)','C01')
m('le_subv','(le_of_var c (-1))','(le_of_var c 1)','C01')
m('le_idiv','mkLE (le_const e / a)','mkLE (le_const e)','C01')
m('le_neg','le_sub (le_of_const 0) e','e','C01')
m('q_addQua','if is_zero a then q','if is_zero a then q_empty','C01')
m('q_value','(le_value env (snd t)) ^ 2','le_value env (snd t)','C01')
m('q_clear','mkQ (le_of_const 0) [] [] (q_trust q)','mkQ (le_of_const 0) (q_terms q) [] (q_trust q)','C01 clear')
F='LqrModel.v'
m('coefficients','/ coeff ^ (i * i)','/ coeff ^ i','C25 step sizes')
m('bump','x i + d','d','C24 finite differences')
m('vquot','(2 * h_devs)','h_devs','C24')
m('schur','A (Datatypes.S i) 0%nat * A (Datatypes.S j) 0%nat / A 0%nat 0%nat','A (Datatypes.S i) 0%nat * A (Datatypes.S j) 0%nat','C23 Cholesky')
m('lsolve','b (Datatypes.S i) - L (Datatypes.S i) 0%nat * y0','b (Datatypes.S i) - y0','C23')
m('ltsolve','L (Datatypes.S j) 0%nat * x j','L 0%nat (Datatypes.S j) * x j','C23')
m('findConstrainedControls','(fun i => s_umin S i - ff un i) (fun i => s_umax S i - ff un i)','(s_umin S) (s_umax S)','C46 limits')
m('findConstrainedControls','then 0 else K i j','then K i j else 0','C46 saturated controls have no feedback')
m('optimizeController','(d_cx (ds (s_tdim S)))','(d_cx (ds 0%nat))','C23 terminal value')
m('gradient_norm','/ (Rabs (ff (u2 t) i) + 1)','','C26')
m('fp_loop','fp_step xn un (fp_loop k\' xn un F) k\'','fp_step xn un (fp_loop k\' xn un F) 0%nat','C25 forward pass')
m('derivatives_at','mkD (fun i j => fxc j i)','mkD (fun i j => fxc i j)','C24 Jacobian')
m('rmin_list','fold_left Rmin l\' a','fold_left Rmax l\' a','C25 best step')
F='LbfgsModel.v'
m('bt_loop','(stp * width)','stp','C21 backtracking')
m('max2','if leb b a then a else b','if leb b a then b else a','C21')
m('cubic_min2','max2 0 (a * a - dus * dvs)','a * a - dus * dvs','C21 no root of a negative number')
m('trial_value','(newt, t_br I, false)','(newt, true, false)','C21')
m('morethuente','if ltb 0 dginit then','if ltb dginit 0 then','C21 refuses ascent')
m('morethuente','(p_ftol P * dginit)','dginit','C21 sufficient decrease')
m('linesearch','MoreThuente => morethuente xp f gp s stp | _ => Ok (backtracking xp f gp s stp)','MoreThuente => Ok (backtracking xp f gp s stp) | _ => morethuente xp f gp s stp','C21')
m('imod','if (m =? 0)%Z then UB','if (m =? 0)%Z then Throw','C20 zero memory')
m('viol_loop','viol_term (v k\') (l k\') (u k\')','viol_term (v k\') (u k\') (l k\')','C52')
m('evaluate','(evaluate_objective_function x\', jac, x\')','(evaluate_objective_function x, jac, x)','C52')
