M=[]
F='SimModel.v'
def m(d,o,n,c): M.append(dict(file=F,definition=d,old=o,new=n,claim=c))
m('bu_matrix','(xy - wz)','(xy + wz)','C86 body axes velocities')
m('bu_matrix','let s := 2 /','let s := 1 /','C86 rotation of base velocities')
m('mulT3','V3 (vx a * vx v + vx b * vy v + vx c * vz v)','V3 (vx a * vx v + vy a * vy v + vz a * vz v)','C86 velocities rotated to body axes (transpose dropped)')
m('where_first','if Nat.eqb k i then Some 0%nat','if Nat.eqb k i then Some 1%nat','C86 position of a joint')
m('sim_new','seq 2 (length joints)','seq 1 (length joints)','C86 joints start at id 2')
m('sim_new','Ok (Sim nq nv (length joints) bul pin p2b bef','Ok (Sim nq nv (length joints) pin bul p2b bef','C86 bullet and pinocchio ids swapped')
m('get_state','scatter 5 (fun j => fst','scatter 4 (fun j => fst','C86 joint positions follow the seven base entries')
m('get_state','scatter 4 (fun j => snd','scatter 4 (fun j => fst','C86 joint velocities')
m('get_state','scatter 4 (fun j => snd (bu_joint b j)) (si_pin s) (si_bul s)','scatter 4 (fun j => snd (bu_joint b j)) (si_bul s) (si_pin s)','C86 each joint at its place')
m('get_state','let ang := mulT3 m (bu_ang b)','let ang := bu_ang b','C86 angular velocity in body axes')
m('get_state','let lin := mulT3 m (bu_lin b)','let lin := mul3 m (bu_lin b)','C86 linear velocity in body axes')
m('get_state','qx o; qy o; qz o; qw o]','qw o; qx o; qy o; qz o]','C86 orientation x y z w')
m('reset_state','(mul3 m (V3 (rd dq 3) (rd dq 4) (rd dq 5)))','(V3 (rd dq 3) (rd dq 4) (rd dq 5))','C86 round trip of the angular velocity')
m('reset_state','Q4 (rd q 6) (rd q 3) (rd q 4) (rd q 5)','Q4 (rd q 3) (rd q 4) (rd q 5) (rd q 6)','C86 round trip of the orientation')
m('put_joints','rd dq (4 + p)','rd dq (5 + p)','C86 round trip of joint velocities')
m('put_joints','upd_fun f b (','upd_fun f p (','C86 round trip of joints')
m('put_torques','put_torques bul\' fs (upd_fun f b x)','put_torques bul\' fs (upd_fun f (S b) x)','C86 torques go to listed joints')
m('send_joint_command','Nat.eqb (length tau) (si_nv s - 6)','Nat.leb (length tau) (si_nv s - 6)','C86 commands of the wrong size refused')
m('send_joint_command','map (fun p => rd tau p) (si_p2b s)','tau','C86 torques reach their joints on the shipped robot')
m('send_joint_command','map (fun p => rd tau p) (si_p2b s)','map (fun p => rd tau (p - 2)) (si_pin s)','C86_torques: (this edit repairs the bug) refutation must fail')
m('get_force','nth i (si_pef s) 0%nat, vadd','nth i (si_bef s) 0%nat, vadd','C86 forces with the frame of their foot')
m('get_force','(vscale (co_f2 c) (co_d2 c))','(vscale (co_f1 c) (co_d2 c))','C86 lateral force 2')
m('get_force','| None => get_force s r','| None => []','C86 contacts of other links are skipped')
m('get_force','where_first (si_bef s) (co_link c)','where_first (si_bef s) (co_body c)','C86 link of the contact')
m('jac_configs','(if feedback then q else wq) r','q r','C87 without feedback the wrapper keeps its configuration')
m('jac_configs','in (wq :: l, e)','in (q :: l, e)','C87 Jacobians before the configuration is set')
m('after_run','last qs (snd','hd (snd','C87 next run starts from the last configuration')
m('swing_rec','Nat.eqb (length (last l [])) 2','Nat.eqb (length (last l [])) 1','C87 a new interval starts after a finished one')
m('swing_rec','| [] => [[t]]','| [] => []','C87 first interval')
m('swing_rec','removelast l ++ [last l [] ++ [t]]','l ++ [[t]]','C87 the end closes the interval')
m('swing_rec','| [] => l\n    | _ => if Nat.eqb (length (last l [])) 1','| [] => [[t]]\n    | _ => if Nat.eqb (length (last l [])) 1','C87 no interval without a low reading')
m('abs_sum','Rabs (vx f) + Rabs (vy f)','vx f + vy f','C87 magnitude of the force')
m('swing_contact','upd_fun sw i (swing_rec','upd_fun sw 0 (swing_rec','C87 interval filed under its foot')
m('swing_contact','(/ 1000)','(/ 100)','C87 threshold')
m('swing_run','swing_run s (S k) r','swing_run s k r','C87 time advances')
m('robot_feet','["FR"; "FL"; "HR"; "HL"]','["HL"; "HR"; "FL"; "FR"]','C87_names_refuted (repair)')
m('controlled_joints','["HL_HFE"; "HL_KFE"; "HR_HFE"','["HR_HFE"; "HL_KFE"; "HL_HFE"','C86 shipped list is an involution')
F='RbwModel.v'
m('slice_set','(fst p <? stop)%nat','(fst p <=? stop)%nat','C88 slices')
m('slice_set','(fst p - start) mod step','fst p mod step','C88 slices')
m('init_two','slice_set 0 n 2','slice_set 1 n 2','C88 hip angles')
m('init_two','slice_set 0 n 1 angle (repeat 0 n)','repeat 0 n','C88 knee angles')
m('init_three','slice_set 1 3 1','slice_set 1 n 3','C88_legs_alike_refuted (repair)')
m('set_configuration','Wrap q (w_frames w)','Wrap q (Some q)','C88_stale_placement_refuted (repair)')
m('update_configuration','pi_integrate P (w_q w) d','w_q w','C88 current configuration')
m('world_jacobian','Wrap (w_q w) (Some (w_q w))','w','C88 placements refreshed by Jacobians')
m('world_jacobian','mul3 (pi_rot P (w_q w) name) (snd c)','snd c','C88 world axes')
m('world_jacobian','mul3 (pi_rot P (w_q w) name) (fst c)','mulT3 (pi_rot P (w_q w) name) (fst c)','C88 world axes')
m('known','String.eqb name "universe" || String.eqb name "root_joint"','String.eqb name "universe"','C88 refusals')
m('known','negb (pi_exists P name) && negb','negb (pi_exists P name) || negb','C88 refusals')
m('get_jacobian','is_rotation dofs && String.eqb name "COM"','is_rotation dofs','C88 refusals')
m('get_jacobian','else if String.eqb name "COM" then Throw ','else if String.eqb name "COM" then Ok JComInternal ','C88 Jcom attribute')
m('get_jacobian','else JFrameInternal name (the_part dofs))','else JFrameInternal name All)','C88 slider example')
m('select','JLin (map snd l)','JLin (map fst l)','C88 rotation part')
m('call_jacobian','(JLin (pi_jcom P (w_q w)), w)','(JLin (pi_jcom P arg), w)','C88 argument ignored')
m('call_transformation','PVec (pi_com P (w_q w))','PVec (match w_frames w with Some q => pi_com P q | None => v0 end)','C88 centre of mass current')
m('get_transformation','Ok (if String.eqb name "COM" then TCom else','Ok (if false then TCom else','C88 centre of mass')
m('frame_pos','Some q => pi_pos P q n','Some q => pi_pos P (w_q w) n','C88_stale_placement_refuted (repair)')
m('desired_velocity','(vy goal - vy here) / dt','(vy here - vy goal) / dt','C88 reaches the goal')
