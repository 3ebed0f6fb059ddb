M=[]
def m(file,definition,old,new,claim,**k): M.append(dict(file=file,definition=definition,old=old,new=new,claim=claim,**k))
F='MkoModel.v'
m(F,'via_time','Ok (t / dt)','Ok (t * dt)','C62: via time converted to steps')
m(F,'segment','bind (via_get 0 (j + 1)) (fun x => piece 0 t x0 x)','bind (via_get 0 j) (fun x => piece 0 t x0 x)','C62: column of the via point')
m(F,'segment','piece 0 t x0 x)','piece 0 t x x0)','C62: start and end swapped')
m(F,'segment','piece t (INR N) x xe','piece t (INR (N - 1)) x xe','C62: end of the trajectory')
m(F,'segment','if Req_EM_T t (INR N) then Ok [] else ','','C62: succeeds when the last via point is at the end')
m(F,'segment','bind (via_time k) (fun t => bind (via_time i)','bind (via_time i) (fun t => bind (via_time k)','C62: window order')
m(F,'generate_traj','(seq 0 (S n_via)) []','(seq 0 n_via) []','C62: last piece missing')
m(F,'generate_traj','Ok (l ++ s)','Ok (s ++ l)','C62: order of the pieces')
m(F,'interpolated','(seq 0 N)).','(seq 1 N)).','C62: evaluated at step numbers from 0')
m(F,'regularisation','Ok (repeat init N)','Ok (repeat init (N - 1))','C62: constant for all steps')
m(F,'result','KR q dq (r_com rb q)','KR q dq (r_com rb dq)','C61: recorded center of mass')
m(F,'result','r_Ag rb q i j * nth j dq 0','k_J s i j * nth j dq 0','C61: recorded momentum is of the recorded configuration')
m(F,'result','k_J s (6 + i)%nat j','k_J s i j','C61: rows of the end-effectors')
m(F,'start_q','vz com; 0; 0; 0; 1','vz com; 1; 0; 0; 0','C61_initial: neutral orientation')
m(F,'norm_small','(/ 1000)','(/ 100)','C61_initial: tolerance')
m(F,'norm_small','pe x i ^ 2','pe x i','C61_initial: norm')
m(F,'init_arg','vscale (/ 10)','vscale (/ 100)','C61_initial: orientation gain')
m(F,'init_arg','(repeat 1 ne) None','(repeat 0 ne) None','C61_initial: all end-effectors in contact')
m(F,'init_loop','if norm_small (fst xs) then Ok (snd xs, q\', S k)','if norm_small (fst xs) then Ok (snd xs, q, S k)','C61_initial: last step applied')
m(F,'init_loop','init_loop st com effpos dq m\' (S k) (snd xs) q\'','init_loop st com effpos dq m\' (S k) (snd xs) q','C61_initial: configuration updated')
m(F,'optimize_initial_position','(k =? max_iterations)%nat','(S k =? max_iterations)%nat','C61_initial: report')
m(F,'flight_of','negb (mk_act g it e)','mk_act g it e','C61: flight detection')
m(F,'flight_of','forallb','existsb','C61: flight needs all end-effectors in the air')
m(F,'momentum_ref','vz r - mk_weight g * mk_dt g','vz r','C61: gravity in flight')
m(F,'momentum_ref','vz r - mk_weight g * mk_dt g','f 2%nat - mk_weight g * mk_dt g','C61: gravity accumulates')
m(F,'momentum_ref','V3 (f 3%nat) (f 4%nat) (f 5%nat)','mk_amom g it','C61: angular momentum in flight')
m(F,'momentum_ref','Ok (m_lmom m, it,','Ok (m_lmom m, 0%nat,','C61: planned momentum of the step')
m(F,'momentum_ref','vadd (vscale (mk_regori g) (olog b q)) (mk_amom g it)','mk_amom g it','C61: base orientation regularisation')
m(F,'joint_ref_of','nth j jd 0 - nth j c 0','nth j c 0 - nth j jd 0','C61: posture regularisation sign')
m(F,'joint_ref_of','skipn 7 q','skipn 6 q','C61: joints of the configuration')
m(F,'no_init','(p_com st) false','(p_com st) true','C61: gains after initialisation')
m(F,'mko_step','m_out m ++ [result s1 q dq]','m_out m','C61: one record per step')
m(F,'mko_step','let mom := if fl then m_mom m else','let mom := if fl then None else','C61: momentum remembered during the flight')
m(F,'mko_step','let mom := if fl then m_mom m else','let mom :=','C61: momentum of the last contact, not of the flight')
m(F,'mko_step','integ q (map (Rmult (mk_dt g)) (listing (fst xs)))','integ q (listing (fst xs))','C61: integration over dt')
m(F,'mko_step','(Some jr) fl','(Some jr) false','C61: momentum prescribed in flight')
m(F,'mko_step','(mk_com g it) lref am','(mk_com g 0) lref am','C61: com reference of the step')
m(F,'mko_step','(mk_pos g it) (mk_vel g it)','(mk_vel g it) (mk_pos g it)','C61: position and velocity references')
m(F,'mko_start','(seq 0 (mk_N g))','(seq 1 (mk_N g))','C61: planned momenta')
m(F,'optimize_motion','(seq 0 (mk_N g))','(seq 0 (mk_N g - 1))','C61: all steps')
