M=[]
def m(file,definition,old,new,claim,**k): M.append(dict(file=file,definition=definition,old=old,new=new,claim=claim,**k))
H='HierModel.v'
m(H,'clip','if Rle_dec (- relax) v then - relax else v','if Rle_dec relax v then relax else v','C28: clip relaxes the bound to +relax instead of -relax (drift accumulates)')
m(H,'h_task','let K := if (nr B =? 0)%nat then h_K s else nullmap B in','let K := h_K s in','C28: the null-space map is not updated')
m(H,'h_task','bind (m_mul (t_E t) N) (fun B => bind','bind (m_mul (t_E t) (h_N s)) (fun B => bind','C28: the projected equality uses the basis before the last update')
m(H,'h_task','bind (m_vec N z) (fun Nz => bind (v_add (h_x s) Nz)','bind (m_vec (m_id n) z) (fun Nz => bind (v_add (h_x s) Nz)','C28: the step is not projected on the null space')
m(H,'h_task','bind (m_mul (t_C t) N) (fun CN => m_append capA A1 CN)','bind (m_mul (t_C t) N) (fun CN => m_append capA CN A1)','C28: carried rows and new rows swapped')
m(H,'h_task','bind (timesK (h_A s) (h_K s)) (fun A1 =>','bind (Ok (h_A s)) (fun A1 =>','C28: carried constraint matrix not projected')
m(H,'upd_ahat','(bind (m_vec (h_A s) (h_z s)) (fun Az => bind (v_add (h_a s) Az) (fun a1 =>','(bind (m_vec (h_A s) (h_z s)) (fun Az => bind (v_add (h_a s) (h_a s)) (fun a1 =>','C28: carried bounds not shifted by the step')
m(H,'upd_ahat','else va a2 i + va (h_w s) (i - (vn a2 - vn (h_w s)))%nat','else va a2 i - va (h_w s) (i - (vn a2 - vn (h_w s)))%nat','C28: slack subtracted')
m(H,'cost_g','rsum (nr b) (fun k => ma b k i * va r k)','- rsum (nr b) (fun k => ma b k i * va r k)','C28: sign of the linear term')
m(H,'cost_H','(if slack then 1 else 0)','(if slack then 0 else 0)','C28: slack block of the cost missing')
m(H,'con_A','(i - (nr A - dw) =? j - dz)','(i =? j - dz)','C28: slacks attached to the wrong rows')
m(H,'h_task','else if ((nc (h_K s) =? 0) && (nr (t_C t) =? 0))%nat then Ok (s, true) ','else if (nc (h_K s) =? 0)%nat then Ok (s, true) ','C28: inequalities skipped when no freedom is left')
m(H,'h_reset','(m_id n) (m_id n) (m_empty n)','(m_id n) (m_empty n) (m_empty n)','C28: reset does not set the null-space basis')
m(H,'h_task','bind (m_vec (t_C t) (h_x s)) (fun Cx => bind (v_add Cx (t_c t)) (fun r => v_append capA a1 r))','v_append capA a1 (t_c t)','C28: new inequality not shifted by the current solution')
m(H,'h_task','Vec dw (fun i => va v (dz + i)%nat)','Vec dw (fun i => va v i)','C28: slacks read from the wrong segment')
R='RtMatModel.v'
m(R,'a_substitute','bind (v_add a As) (fun a\' => bind (m_mul A S)','bind (v_add a As) (fun a\' => bind (m_mul S A)','C48: product order')
m(R,'q_substitute','bind (v_add g Qs) (fun g1 => bind (m_vec (m_tr S) g1)','bind (v_add g Qs) (fun g1 => bind (m_vec (m_tr S) g)','C48: shift of the linear term dropped')
m(R,'q_addNorm','bind (m_vec (m_tr A) a) (fun Aa','bind (m_vec (m_tr A) g) (fun Aa','C48: wrong vector')
m(R,'q_addWeighted','bind (m_vec AW a) (fun AWa','bind (m_vec (m_tr A) a) (fun AWa','C48: weight dropped in the linear term')
m(R,'m_append','else ma S (i - nr A)%nat j','else ma S i j','C48: append reads shifted rows')
m(R,'m_appendAt','ma S (i - nr A)%nat (j - c)%nat','ma S (i - nr A)%nat j','C48: column offset ignored')
m(R,'m_appendAt','(c <=? j) && (j <? c + nc S)','(c <=? j)','C48: columns after the block not zeroed')
m(R,'compact_loop','(first + (fin - start))%nat fin','(first + (fin - start))%nat (fin + 1)','C48: compaction skips an element between runs',optional=True)
m(R,'compact_loop','find_from e n l (start + 1)%nat','find_from e n l start','C48: run end search starts at run start',optional=True)
m(R,'compact_loop','(blit l first start (fin - start)%nat)','(blit l (first + 1) start (fin - start)%nat)','C48: run copied one row too far')
m(R,'removeZeroRows','(fun x => if Rlt_dec length_thresh (row_abs nc (fst x)) then true else false)','(fun x => if Rlt_dec length_thresh (Rabs (snd x)) then true else false)','C48: rows judged by their right-hand side')
