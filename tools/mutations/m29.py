M=[]
F='PydModel.v'
def m(d,o,n,c,t=None):
    M.append(dict(file=F,definition=d,old=o,new=n,claim=c))
    if t: M[-1]['tightened']=t
m('dapply','| WLmom v => Ok (DState dt c v a ld ad','| WLmom v => Ok (DState dt c l v ld ad','C89 lmom read back')
m('dapply','| WAmomd v => Ok (DState dt c l a ld v','| WAmomd v => Ok (DState dt c l a v v','C89 amomd does not change lmomd')
m('dapply','| WForce i v => bind (put_eff f i v) (fun f\' => Ok (DState dt c l a ld ad act p f\' t cop))','| WForce i v => bind (put_eff f i v) (fun f\' => Ok (DState dt c l a ld ad act f\' f t cop))','C89 force read back')
m('dapply','| WTorque i v => bind (put_eff p i v) (fun p\' => Ok (DState dt c l a ld ad act p\' f t cop))','| WTorque i v => bind (put_eff t i v) (fun t\' => Ok (DState dt c l a ld ad act p f t\' cop))','C89 setEffTorque writes the position (fix)')
m('dapply','| WAct i b => bind (put_eff act i b)','| WAct i b => bind (put_eff act i (negb b))','C89 activation read back')
m('dapply','| WDt x => Ok (DState x c','| WDt x => Ok (DState dt c','C89 dt read back')
m('put_eff','set_nth l (Z.to_nat i) x','set_nth l 0 x','C89 effector number of a write')
m('put_eff','(Z.to_nat i <? length l)%nat','(Z.to_nat i <=? length l)%nat','C89 invalid effector numbers')
m('at_eff','nth_error l (Z.to_nat i)','nth_error l (Z.to_nat i - 1)','C89 effector number of a reading')
m('at_eff','if (i <? 0)%Z then UB else match','if (i <? -1)%Z then UB else match','C89 invalid effector numbers')
m('dstate_new','DState (/ 10)','DState (/ 100)','C89 initial value of dt')
m('n_endeffs',':= 4.',':= 2.','C89 effector numbers 0 to 3')
m('dread','| PTorque i => bind (at_eff (ds_torque s) i)','| PTorque i => bind (at_eff (ds_pos s) i)','C89 torque reading')
m('dread','| PCop i => bind (at_eff (ds_cop s) i)','| PCop i => bind (at_eff (ds_force s) i)','C89 cop reading')
m('drun','bind (dapply w s) (drun r)','bind (drun r s) (dapply w)','C89 last assignment wins')
F='MsgModel.v'
m('find0','if Ascii.eqb x c then Some 0%nat','if Ascii.eqb x c then Some 1%nat','C90 holes')
m('find_from','Some (from + p)%nat','Some p','C90 second hole')
m('substr','(List.length s <? pos)%nat','(List.length s <=? pos)%nat','C90 hole at the end of the text')
m('substr','firstn n (skipn pos s)','firstn (n + 1) (skipn pos s)','C90 text between holes')
m('split_loop','bind (substr s (pos + 1) (Some 1%nat))','bind (substr s (pos + 1) (Some 2%nat))','C90 digit of a hole')
m('split_loop','(pos + 2) q (vs ++ [t])','(pos + 1) q (vs ++ [t])','C90 text after a hole')
m('split_loop','Ok ((vs ++ [t]) ++ [t\'], vp ++ [d])','Ok (vs ++ [t], vp ++ [d])','C90 text after the last hole')
m('split_loop','q (vs ++ [t]) (vp ++ [d])','q (vs ++ [t]) (d :: vp)','C90 precisions in order')
m('split_loop','find_from percent s (pos + 1)','find_from percent s (pos + 2)','C90 two delimiters in a row')
m('split','split_loop (S (List.length s))','split_loop 3','C90 any number of holes')
m('print_loop','if (i <? List.length vals)%nat','if (i <=? List.length vals)%nat','C90 fewer numbers than holes')
m('print_loop','Text t :: num ++ rest','num ++ Text t :: rest','C90 numbers at their places')
m('print_loop','print_loop (S i) r','print_loop i r','C90 numbers in order')
m('print_loop','bind (at_vec sci i)','bind (at_vec sci 0)','C90 notation of each number')
m('msg_success','lit "Iter: %0 cost: %"','lit "Iter: %1 cost: %"','C90 iteration message')
m('success_sci','[false; true; true; true; false]','[false; true; true; true; true]','C90 notation')
m('split','None => Ok ([], [])','None => Ok ([s], [])','C90 text without hole prints nothing (fix)')
F='UtlModel.v'
m('display_loop','Some p => t - p','Some p => t','C91 duration')
m('display_loop','if Rlt_dec d 0 then Throw','if Rlt_dec d (-1) then Throw','C91 raises for descending stamps')
m('display_loop','Ok (clock :: fst x, snd x)','Ok (clock + d :: fst x, snd x)','C91 frames shown one stamp early (fix)')
m('norm_vec','v with [] => Throw','v with [] => Ok 0','C91 empty vector raises')
m('norm_vec','sqrt (sumsq v)','sumsq v','C91 norm')
m('sumsq','x * x + a','x + a','C91 norm')
m('norm_list','Ok (x + y)','Ok (Rmax x y)','C91 sum of norms')
m('weighted','if Rlt_dec (/ 100000) (Rabs w)','if Rlt_dec (/ 100000) w','C91 negative weights count')
m('weighted','then w * x :: l else l','then x :: l else l','C91 weights')
m('weighted','ws with [] => Throw','ws with [] => Ok []','C91 too few weights raise')
m('norm_num','sqrt (x * x)','x','C91 absolute value')
m('quat2mat','2*x*y - 2*z*w','2*x*y + 2*z*w','C91 rotation')
m('quat2mat','(1 - 2*x*x - 2*y*y)','(1 - 2*x*x - 2*z*z)','C91 rotation')
m('patch','- - vdot point n','- vdot point n','C91 patch in the plane')
m('patch','* 1 / vz n','* 1 / vx n','C91 patch in the plane')
m('timesteps','t :: r => t :: steps_loop t r','t :: r => t :: steps_loop 0 r','C91 steps add up')
m('steps_loop','(t - prev) :: steps_loop t r','(t - prev) :: steps_loop prev r','C91 steps add up')
F='IpModel.v'
m('isBetterThan','pos_less (f_pres f) (f_pres g) && pos_less (f_dres f)','pos_less (f_dres f)','C92 primal residual compared')
m('isBetterThan','ltb (f_gap f) (f_gap g) && pos_less (f_pres f)','ltb (f_gap g) (f_gap f) && pos_less (f_pres f)','C92 gap compared')
m('isBetterThan','ltb 1 (f_kot f))%bool then','ltb (f_kot f) 1)%bool then','C92 sign of infeasibility')
m('ip_loop','let best := if better then o else ls_best L in','let best := if better then ls_best L else o in','C92 best iterate kept')
m('ip_loop','let o\' := if keep then o else ls_best L in','let o\' := o in','C92 iteration limit returns the best')
m('ip_loop','(Nat.eqb k 0 || isBetterThan S f (ls_binfo L))%bool','(Nat.eqb k 0 || isBetterThan S (ls_binfo L) f)%bool','C92 later iterates not better')
m('ip_loop','let better := (Nat.eqb k 0 || isBetterThan S f (ls_binfo L))%bool in','let better := Nat.eqb k 0 in','C92 later iterates not better')
F='ConicModel.v'
m('clamp_guess','if Rlt_dec g lb then lb else if Rlt_dec ub g then ub else g','if Rlt_dec g lb then ub else if Rlt_dec ub g then lb else g','C50 initial guess is projected onto the bounds',['C50_add_variable'])
m('cp_addVar','if Rlt_dec ub lb then Threw p','if Rlt_dec ub lb then Returned p','C50 inverted bounds are refused',['C50_add_variable'])
F='RicModel.v'
m('e_B','nth (3 * e + i) fl 0','nth (3 * (3 - e) + i) fl 0','C77 each force acts at its own foot',['C77_end_effector_dynamics'])
m('e_B','(mm 3 (mm 3 (tr r) inertia) r)','(mm 3 (mm 3 r inertia) (tr r))','C77 inertia of the end-effector script')
