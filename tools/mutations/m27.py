M=[]
F='RbsModel.v'
def m(d,o,n,c): M.append(dict(file=F,definition=d,old=o,new=n,claim=c))
m('gen_pos','set_seg g 3 [qx (po_ori p); qy (po_ori p); qz (po_ori p); qw (po_ori p)])).','set_seg g 3 [qw (po_ori p); qx (po_ori p); qy (po_ori p); qz (po_ori p)])).','C84 generalised positions in the order x y z w')
m('py_base_ori','[qx (po_ori p); qy (po_ori p); qz (po_ori p); qw (po_ori p)].\n(** l.45','[qw (po_ori p); qx (po_ori p); qy (po_ori p); qz (po_ori p)].\n(** l.45','C84 orientation read back as assigned')
m('set_base_ori','(Q4 w x y z)','(Q4 x y z w)','C84 orientation read back as assigned')
m('gen_pos','bind (set_tail g (po_n p) (po_jnt p))','bind (set_seg g 6 (po_jnt p))','C84 joints are the last entries')
m('ang_rate','seg (ra_gen r) 3 3','seg (ra_gen r) 0 3','C84 angular velocity is its own variable')
m('jnt_rate','tail (ra_gen r) (ra_n r)','seg (ra_gen r) 3 (ra_n r)','C84 joint velocities are the entries after the base')
m('set_ang_rate','set_seg (ra_gen r) 3 (l3 v)','set_seg (ra_gen r) 0 (l3 v)','C84 assigning the angular velocity leaves the linear one')
m('set_lin_rate','set_seg (ra_gen r) 0 (l3 v)','set_seg (ra_gen r) 1 (l3 v)','C84 assigning the linear velocity')
m('rates_new','zeros (n + 6)','zeros n','C84 a new state has n+6 rates')
m('posture_new','v0 (zeros n) qone','v0 (zeros n) (Q4 0 0 0 0)','C84 a new state has the identity orientation')
m('kstep','| SLmom v => bind (as3 v) (fun a => Ok (up_lmom a s))','| SLmom v => bind (as3 v) (fun a => Ok (up_amom a s))','C84 momenta are separate variables')
m('kstep','| SAcc w => bind (set_rates w (rs_acc s)) (fun r => Ok (up_acc r s))','| SAcc w => bind (set_rates w (rs_vel s)) (fun r => Ok (up_acc r s))','C84 accelerations are separate variables')
m('kstep','| SVelocity r => Ok (up_vel r s)','| SVelocity r => Ok (up_acc r s)','C84 robot_velocity')
m('kstep','(set_nth (rs_effpos s) i a)','(set_nth (rs_effpos s) 0 a)','C84 end-effector positions are separate variables')
m('kstep','if (i <? length (rs_effpos s))%nat then Ok','if (i <=? length (rs_effpos s))%nat then Ok','C84 index out of range is rejected')
m('as3','match l with [a; b; c] => Ok (V3 a b c) | _ => Throw end','match l with a :: b :: c :: _ => Ok (V3 a b c) | _ => Throw end','C84 arrays of the wrong size are rejected')
m('set_tail','&& (length w =? k)%nat','','C84 joint positions of another size')
m('seq_resize','(seq 0 (Z.to_nat nt)) []','(seq 0 (Z.to_nat nt)) old','C84 resize starts afresh')
m('seq_resize','(seq 0 (Z.to_nat nt)) []','(seq 0 (Z.to_nat nt + 1)) []','C84 resize gives exactly the number of states')
m('rstate_new','(repeat qone n_endeffs) (repeat v0 n_endeffs)','(repeat qone n_endeffs) (repeat v0 3)','C84 four end-effectors')
m('up_com','(rs_n s) v (rs_lmom s)','(rs_n s) v v','C84 com and momentum are separate')
F='PkiModel.v'
m('iface_setattr','if name =? "constraints_vector" then','if name =? "constraintsVector" then','C85 the property names (with this change the floor vector would be handed over, the _refuted theorem must fail)')
m('py_call','| _ => PRaise TypeError end.\n\n(** getattr','| _ => PVal v end.\n\n(** getattr','C85 arrays are not callable (the _refuted theorem must fail)')
m('internal_init','(repeat (zero_mat 6) n_endeffs)','[]','C85 updates can store the Jacobians')
m('jlocal','pin_rot P q fr 0 i * pin_jw P q fr 0 d','pin_rot P q fr i 0 * pin_jw P q fr 0 d','C85 local axes')
m('eff_names','["BR"; "BL"; "FR"; "FL"]','["BL"; "BR"; "FR"; "FL"]','C85 order of end-effectors')
m('eff_frame','nth 2 jnt_names','nth 1 jnt_names','C85 end-effector frames are the END frames')
m('upd_state','up_lmom (fst (pin_hg P q dq ddq))','up_lmom (snd (pin_hg P q dq ddq))','C85 linear momentum')
m('con_mat','- con_G q c d * dt','con_G q c d * dt','C85 rows')
m('con_vec','con_h q c - z_floor','z_floor - con_h q c','C85 rows')
m('con_G','jlocal P q (con_frame c) 2 d','jlocal P q (con_frame c) 1 d','C85 rows are those of the height')
m('integrate_body','(skipn 7 q\')','(skipn 6 q\')','C85 integration stores what Pinocchio returns')
m('integrate_body','(nth 3 q\' 0, nth 4 q\' 0, nth 5 q\' 0, nth 6 q\' 0)','(nth 4 q\' 0, nth 5 q\' 0, nth 6 q\' 0, nth 3 q\' 0)','C85 integration stores what Pinocchio returns')
m('differentiate_body','map (fun v => v / dt)','map (fun v => v * dt)','C85 differentiation')
m('differentiate_body','pin_difference P q0 q1','pin_difference P q1 q0','C85 differentiation')
m('update_body','pbind (iface_setattr "center_of_mass_jacobian" (VMat (pin_jcom P q)) f)','pbind (iface_setattr "center_of_mass_jacobian" (VMat (pin_ag P q)) f)','C85 Jacobian of the centre of mass')
