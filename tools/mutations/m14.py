M=[]
def m(file,definition,old,new,claim,**k): M.append(dict(file=file,definition=definition,old=old,new=new,claim=claim,**k))
D='DynModel.v'
m(D,'lmom_call','let l2 := if (t =? 0)%nat then','let l2 := if (t =? 1)%nat then','C32: external force in the second step')
m(D,'lmom_call','(le_scale (force t e i) (- sdt t * g_mg g))','(le_scale (force t e i) (sdt t * g_mg g))','C32: contact forces with the wrong sign')
m(D,'com_call','(le_scale (evt bLM i t) (sdt t / g_mass g))','(le_scale (before bLM i t (d_lmom ini)) (sdt t / g_mass g))','C32: com integrated with the previous momentum')
m(D,'amom_calls','(le_scale (le_sub (eff_ev (bLB e) i t e) (eff_ev (bUB e) i t e)) (/ 4 * sdt t * g_mg g))','(le_scale (le_sub (eff_ev (bUB e) i t e) (eff_ev (bLB e) i t e)) (/ 4 * sdt t * g_mg g))','C32: torque with the wrong sign')
m(D,'ub_parts','| O => (negadd (l 2%nat) (f 1%nat), le_add (l 1%nat) (f 2%nat))','| O => (negadd (l 1%nat) (f 1%nat), le_add (l 1%nat) (f 2%nat))','C33/C32: wrong lever component in the decomposition')
m(D,'cone_vec0','(- clamp_mu mu)','(clamp_mu mu)','C34: friction pyramid upside down')
m(D,'friction_calls','| FullContact => Ok []','| FlatContact => Ok []','C34: friction dropped for flat contacts')
m(D,'soc_friction','(le_scale (local_force c t e 2) (g_mu g))','(local_force c t e 2)','C34: friction coefficient dropped')
m(D,'bound_calls','CAddLin (eff_ev (bCOP e) 1 t e) ">" (ec (g_coprange g e 2))','CAddLin (eff_ev (bCOP e) 0 t e) ">" (ec (g_coprange g e 2))','C32: cop bound on the wrong component')
m(D,'cone_calls','(ec (g_maxlen g e ^ 2)) ApproxNone','(ec (g_maxlen g e)) ApproxNone','C32: length bound not squared')
m(D,'product_lin','(le_sub dt a) (dtv - av)) 2) (dtv - av)','(le_sub dt a) (dtv - av)) 2) (dtv + av)','C45: linearised at the wrong point')
m(D,'dynamics_calls','(d_lmomd (st t)) (/ 4)) axes','(d_lmom (st t)) (/ 4)) axes','C45: linearised at the momentum instead of its rate')
m(D,'horizon_calls','if g_fixed g && timeopt','if timeopt','C32: horizon always fixed')
m(D,'height_calls','(ec (vz (c_pos c)))) ">"','(ec (vx (c_pos c)))) ">"','C32: wrong height reference')
m(D,'trq_contact','vadd (e_trq e) (vcross (e_cop e) fl)','vadd (e_trq e) (vcross fl (e_cop e))','C35: contact torque with swapped cross product')
m(D,'storeSolution','store_loop 1 (fun t => set_amom (am t)) l)','store_loop 0 (fun t => set_amom (am t)) l)','C35: angular momentum stored at another state')
m(D,'storeSolution','(fun k => set_cop (V3 (val (bCOP e) 0 k) (val (bCOP e) 1 k) 0))','(fun k => set_cop (V3 (val (bCOP e) 1 k) (val (bCOP e) 0 k) 0))','C35: cop components swapped')
m(D,'ang_step','vadd (vcross (len_val t e) (frc_val t e)) (trq_val t e)','vadd (vcross (len_val t e) (frc_val t e)) v0','C32: normal torque dropped in the stored angular momentum')
m(D,'lin_step','(vscale (dt_val t) (vscale (g_mass g) (g_grav g)))','(vscale (sdt t) (vscale (g_mass g) (g_grav g)))','C32: gravity integrated with the old duration')
m(D,'before','| S t\' => evt b i t\' end.','| S t\' => evt b i 0 end.','C32: previous step replaced by the first step')
