M=[]
def m(file,definition,old,new,claim,**k): M.append(dict(file=file,definition=definition,old=old,new=new,claim=claim,**k))
F='SoModel.v'
m(F,'update_kinematics','r_Ag rb q i j','r_Ag rb dq i j','C63: momentum matrix at the configuration')
m(F,'update_kinematics','(i <? (ne + 2) * 3)%nat then r_Jf','(i <? (ne + 1) * 3)%nat then r_Jf','C63: rows of the last end-effector')
m(F,'update_kinematics','((i - 6) / 3)%nat ((i - 6) mod 3)%nat j','((i - 6) mod 3)%nat ((i - 6) / 3)%nat j','C63: end-effector and coordinate swapped')
m(F,'update_kinematics','(i - (ne + 2) * 3 =? j - 6)%nat then 1 else 0','(i - (ne + 2) * 3 =? j)%nat then 1 else 0','C63: identity block of the joints')
m(F,'update_kinematics','sr_dh rb q dq i else','0 else','C63: momentum drift dropped')
m(F,'update_kinematics','then sr_dv rb q dq','then sr_dv rb dq q','C63: drift arguments')
m(F,'update_des_acc','(length (sa_acc a) <? ne)','(length (sa_acc a) <? 0)','none: only fewer exceptions; statement about success unaffected',optional=True)
m(F,'update_des_acc','sa_dmom a i + sp_mom st i * (sa_mom a i - Jdq s (sa_dq a) i) + sp_com','sa_dmom a i + sp_com','C63: momentum feedback')
m(F,'update_des_acc','vget3 (sa_com a) i - vget3 (r_com rb (sa_q a)) i','vget3 (r_com rb (sa_q a)) i - vget3 (sa_com a) i','C63: sign of the com error')
m(F,'update_des_acc','vget3 (sr_err rb (sa_ori a) (sa_q a)) (i - 3)','vget3 (sr_err rb (sa_ori a) (sa_q a)) i','C63: orientation error component')
m(F,'update_des_acc','- sd_ori st * nth i (sa_dq a) 0','- sd_ori st * nth (i - 3) (sa_dq a) 0','C63: angular velocity of the base')
m(F,'update_des_acc','sd_eff st * (vget3 (nth e (sa_vel a) v0) c - Jdq s (sa_dq a) i)','sp_eff st * (vget3 (nth e (sa_vel a) v0) c - Jdq s (sa_dq a) i)','C63: gain of the velocity error')
m(F,'update_des_acc',' + vget3 (nth e (sa_acc a) v0) c\n','\n','C63: feed-forward acceleration dropped')
m(F,'update_des_acc','nth (7 + j) (sa_q a) 0','nth (6 + j) (sa_q a) 0','C63: joint position index')
m(F,'update_des_acc','- (sd_joint st * nth (6 + j) (sa_dq a) 0)','(sd_joint st * nth (6 + j) (sa_dq a) 0)','C63: damping sign')
m(F,'so_weights','then s_contact st else s_track st','then s_track st else s_contact st','C63: weights of contact and swing')
m(F,'so_weights','repeat (s_lin st) 3 ++ repeat (s_ang st) 3','repeat (s_ang st) 3 ++ repeat (s_lin st) 3','C63: weights of linear and angular momentum')
m(F,'so_weights','(nv - 6).\n  (** Products','(nv - 7).\n  (** Products','C63: succeeds')
m(F,'hier_solve','Nat.min 12 (nrows rb - 6)','Nat.min 9 (nrows rb - 6)','C64: all four end-effectors')
m(F,'hier_solve','so_des s (6 + i)%nat - so_drift s (6 + i)%nat','so_des s (6 + i)%nat','C64: drift of the end-effectors')
m(F,'hier_solve','(if (i =? j)%nat then 1 else 0) - pa (pmul Pf Jf) i j','pa (pmul Pf Jf) i j','C64: null-space projector')
m(F,'hier_solve','let Pr := pinv (pmul Jr Nf) in','let Pr := pinv Jr in','C64: momentum must not disturb the end-effectors')
m(F,'hier_solve',' - papp Jr ddq i) j)',') j)','C64: momentum already produced by the first level')
m(F,'hier_solve','PV nv (fun j => ddq j + papp','PV nv (fun j => papp','C64: first level dropped')
m(F,'so_step','let s1 := update_kinematics s (sa_q a) (sa_dq a) in','let s1 := s in','C63: kinematics not updated')
m(F,'so_step','if s_hier st then','if negb (s_hier st) then','C63/C64: branches swapped')
m(F,'so_step','(fun k => so_des s2 k - so_drift s2 k)','(fun k => so_des s2 k + so_drift s2 k)','C63: sign of the drift')
m(F,'query_at','(f_mom rf t) (f_dmom rf t)','(f_dmom rf t) (f_mom rf t)','C63_motion: momentum and its derivative swapped')
m(F,'query_at','(f_pos rf t) (f_vel rf t)','(f_pos rf t) (f_pos rf t)','C63_motion: velocity reference')
m(F,'add_scaled','nth j dq 0 + pe x j * h','pe x j * h','C63_motion: velocity integrated')
m(F,'inner','(add_scaled (/ 1000)','(add_scaled (/ 100)','C63_motion: 1 ms')
m(F,'inner','integ (v_q v) (map (Rmult (/ 1000)) dq\')','integ (v_q v) (map (Rmult (/ 1000)) (v_dq v))','C63_motion: semi-implicit')
m(F,'inner','(v_t v + / 1000)','(v_t v)','C63_motion: time advances')
m(F,'inner',"(update_kinematics (snd xs) q' dq')","(snd xs)",'C63_motion: recorded velocities at the recorded configuration')
m(F,'so_row','r_Ag rb (v_q v) i j','so_J (v_s v) (S i) j','C63_motion: recorded momentum')
m(F,'so_row','Jdq (v_s v) (v_dq v) (6 + i)','Jdq (v_s v) (v_dq v) (3 + i)','C63_motion: recorded end-effector velocities')
m(F,'inner_steps','Int_part (dt / / 1000)','up (dt / / 1000)','C63_motion: floor')
m(F,'outer','(pyget contacts it)','(pyget contacts (it - 1))','C63_motion: contact of the row')
m(F,'outer','match v_ddq v with None => Throw | Some _ => Ok (v, snd vo ++ [so_row v]) end','Ok (v, snd vo ++ [so_row v])','C63_short_step_refuted')
m(F,'outer','snd vo ++ [so_row v]','so_row v :: snd vo','C63_motion: order of the rows')
m(F,'so_solve','(seq 1 (N - 1))','(seq 1 N)','C63_motion: N rows')
m(F,'so_solve','(v, [so_row v])','(v, [])','C63_motion: first row')
m(F,'refill','forward_robot (fst so) (o_q r) (o_dq r)','forward_robot (fst so) (o_dq r) (o_q r)','none observable: forward_robot only sets caches here',optional=True)
m(F,'refill','result rb s1 (o_q r) (o_dq r)','result rb s1 (o_q r) (o_q r)','C63_stored: velocities')
