M=[]
def m(file,definition,old,new,claim,**k): M.append(dict(file=file,definition=definition,old=old,new=new,claim=claim,**k))
F='FbModel.v'; C='CplModel.v'
m(F,'feedforward_of','vget3 (vscale (g_mg g) (e_frc','vget3 ((e_frc','C43: planned forces not scaled back to newton')
m(F,'fb_dynamics','(vscale (dt * g_mass g) (g_grav g))','(vscale dt (g_grav g))','C43: gravity without the mass')
m(F,'fb_dynamics','(vadd (seg3 x 3) dl)','(seg3 x 3)','C43: com moves with the previous momentum')
m(F,'fb_dynamics','(vadd (seg3 x 0) dc)','(seg3 x 0)','C43: lever arm to the previous com')
m(F,'fsum','if fact t e then vadd acc (f e) else acc','vadd acc (f e)','C43: forces of inactive end-effectors counted')
m(F,'setStatesAndControls','vec9 (d_com ini) (d_lmom ini) (d_amom ini) i','vec9 (d_com ini) (d_amom ini) (d_lmom ini) i','C43: initial momenta swapped')
m(F,'setStatesAndControls','if (tdim =? List.length (states q))%nat','if (tdim <=? List.length (states q))%nat','C43: shorter horizon accepted')
m(F,'fb_objective','vsub (seg3 x 6) (d_amom r)','vsub (seg3 x 6) (d_lmom r)','C43: angular momentum tracked against linear')
m(F,'forceGain','(Z.of_nat tdim - 1)','(Z.of_nat tdim)','C43: force gain read past the horizon')
m(C,'plan_step','(start, l ++ [Ph start it (pos it)])','(start, l ++ [Ph start (it + 1) (pos it)])','C40: phase one step too long')
m(C,'plan_step','then ((it + 1)%nat, l)','then (it, l)','C40: phase starts one step early')
m(C,'contact_plan','(0%nat, 1%nat, [])','(0%nat, 0%nat, [])','C40: parity swapped')
m(C,'contact_plan','(seq 0 (N - 1))','(seq 1 (N - 1))','C40: first step skipped')
m(C,'plan_step','(pos it)','(pos start)','C40: position at the start of the phase')
m(C,'gen_traj','(INR (ph_end c)) (INR (ph_start c\'))','(INR (ph_start c)) (INR (ph_start c\'))','C40: swing starts with the contact')
m(C,'gen_traj','(vget3 (ph_pos c\') idx) (via_of','(vget3 (ph_pos c) idx) (via_of','C40: swing goes nowhere')
m(C,'via_of','(idx =? 2)%nat','(idx =? 1)%nat','C40: via point in the wrong axis')
m(C,'ref_vel','Ok (v / dt)','Ok (v * dt)','C40: velocity scaled the wrong way')
