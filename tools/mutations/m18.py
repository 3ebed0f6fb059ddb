M=[]
def m(file,definition,old,new,claim,**k): M.append(dict(file=file,definition=definition,old=old,new=new,claim=claim,**k))
F='FlightModel.v'
m(F,'find_make','if negb (on eff a) && on eff b then Ok i','if negb (on eff a) && on eff b then Ok (S i)','C60: flight runs into the contact')
m(F,'find_break','if on eff a && negb (on eff b) then Ok (S i)','if on eff a && negb (on eff b) then Ok i','C60: flight starts in contact')
m(F,'fly_step','bind (map_time l (S t))','bind (map_time l t)','C60: reference of the previous time')
m(F,'fly_step','slerp qini (slerp_time a b t) qend','slerp qend (slerp_time a b t) qini','C60: orientations swapped')
m(F,'slerp_time','Rmin (2 * (INR t - INR a) / (INR b + 1 - INR a)) 1','Rmin (2 * (INR t - INR a) / (INR b - INR a)) 1','C60: speed of turning')
m(F,'slerp_time','Rmin (2 * (INR t','Rmin ((INR t','C60: turning over the whole flight')
m(F,'generateFlightPhase','(seq a (S b - a))','(seq a (b - a))','C60: last step missing')
m(F,'phase','traj_init qr ta p0 tb p1 v','traj_init qr ta p1 tb p0 v','C60: flight backwards')
m(F,'phase','bind (map_time l (S b))','bind (map_time l b)','C60: arrival too early')
m(F,'first_flight','(c_pos c0) (c_ori c0) (-1) l via','(c_pos c0) (c_ori c0) 0 l via','C60: viapoint number of the first flight')
m(F,'mid_flight',"(c_pos c') (c_ori c') (Z.of_nat k) l via","(c_pos c') (c_ori c') (Z.of_nat (S k)) l via",'C60: viapoint number of the next contact')
m(F,'mid_flight',"(c_pos c) (c_ori c) (c_pos c') (c_ori c')","(c_pos c) (c_ori c') (c_pos c') (c_ori c')",'C60: orientation jumps')
m(F,'mid_flight','bind (findBreakContactId l e eff)','bind (findBreakContactId l 0 eff)','C60: always the first gap')
m(F,'mid_flight',"bind (findMakeContactId l a eff)","bind (findMakeContactId l 0 eff)",'C60: make searched from the start')
m(F,'last_flight','phase eff a (N - 1) (c_pos c) (c_ori c) (vadd (e_pos (d_eff ini eff)) com_motion)','phase eff a (N - 1) (c_pos c) (c_ori c) (e_pos (d_eff ini eff))','C60: last flight without the desired motion')
m(F,'last_flight','(Z.of_nat (length (cs eff)) - 1) l via','(Z.of_nat (length (cs eff))) l via','C60: viapoint of the last flight')
m(F,'flight_eff','(seq 0 (length r)) s1','(seq 0 (length r - 1)) s1','C60: a flight missing')
m(F,'flight_eff','(last_flight eff (last r c0))','(last_flight eff c0)','C60: last flight from the first contact')
m(F,'slerp','(if Rlt_dec d 0 then - s1 else s1)','s1','C60: longer arc')
m(F,'slerp','(sin ((1 - t) * th) / sin th, sin (t * th) / sin th)','(sin (t * th) / sin th, sin ((1 - t) * th) / sin th)','C60: slerp backwards')
m(F,'sw_values','vec_of (fun d => snd (u d))','vec_of (fun d => snd (fst (u d)))','C60: velocity as acceleration')
m(F,'vec_of','bind (fin (f 2%nat)) (fun c => Ok (V3 a b c))','bind (fin (f 2%nat)) (fun c => Ok (V3 a c b))','C60: axes swapped')
m(F,'fly','Eff (e_act e) (e_cid e) (e_aid e) p v a o','Eff true (e_cid e) (e_aid e) p v a o','C60: flight marked as contact')
m(F,'find_via','None => old','None => None','C60: no stale viapoint')
m(F,'updateEndeffectorTrajectories','(seq 0 n_endeffs)','(seq 0 (n_endeffs - 1))','C60: last end-effector missing')
m(F,'map_time','Ok (acc + d_time d)','Ok (d_time d)','C60: times not summed')
