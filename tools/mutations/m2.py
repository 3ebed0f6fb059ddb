M=[]
def m(f,d,o,n,c): M.append(dict(file=f,definition=d,old=o,new=n,claim=c))
m('LdlModel.v','dyn_reg','sign * delta else d','delta else d','C16: regularised pivot gets the wrong sign')
m('LdlModel.v','dyn_reg','if Rle_dec (sign * d) eps then','if Rle_dec d eps then','C16: sign of the pivot ignored')
m('LdlModel.v','ldl_solve','(fun x j => upd x j (x j / m_D s j)) (seq 0 n) x','(fun x j => upd x j (x j / m_D s j)) (seq 1 n) x','C16: first pivot not divided')
m('LdlModel.v','ldl_solve','(rev (seq 0 n)) x','(seq 0 n) x','C16: back substitution in the wrong order')
m('LdlModel.v','ldl_solve','fold_left (fwd_col s Lp) (seq 0 n) b','b','C16: forward substitution dropped')
m('LdlModel.v','Lp_of','nsum j lnnz','nsum (S j) lnnz','C16: column pointers shifted')
m('LinModel.v','kkt_socs','(e + m + 1)%nat, (e + m + 1)%nat, 1)]','(e + m + 1)%nat, (e + m + 1)%nat, -1)]','C53? initial sign of the second extra row: overwritten by updateMatrix')
m('LinModel.v','kkt_socs','let e := (b + st + 2 * l)%nat in','let e := (b + st + l)%nat in','C53: blocks overlap (two extra rows per block miscounted)')
m('LinModel.v','kkt_triplets','((n + id)%nat, (n + id)%nat, - reg)','((n + id)%nat, (n + id)%nat, reg)','C53: wrong sign of the dual regularisation')
m('LinModel.v','indexLpc','nnz_left (d_Gt d) (S id) + id','nnz_left (d_Gt d) id + id','C53: index of the linear scalings off by a column')
m('LinModel.v','soc_diag','(k + nsum id (fun j => length (Gt (st + j)%nat) + 1) + length (Gt (st + id)%nat))%nat','(k + nsum id (fun j => length (Gt (st + j)%nat) + 1))%nat','C53: block scaling written over an entry of G')
m('LinModel.v','indexSocs','+ (2 * m + 1))%nat','+ (2 * m))%nat','C53: second block indices off by one')
m('LinModel.v','perm_indexSoc','(k - m + 1)','(k - m)','C53: off-diagonal scalings shifted')
m('LinModel.v','soc_writes','(perm_indexSoc pK ix m 0, - e2 * nt_d1 b - reg)','(perm_indexSoc pK ix m 0, - e2 * nt_d1 b)','C53: regularisation of the block head dropped')
m('LinModel.v','soc_writes','- e2 * nt_v1 b * nt_wbar b (k + 1)%nat','- e2 * nt_v1 b * nt_wbar b k','C53: scaling point shifted')
m('LinModel.v','soc_writes','- e2 * nt_u1 b * nt_wbar b (k + 1)%nat','- e2 * nt_v1 b * nt_wbar b (k + 1)%nat','C53: u and v confused')
m('LinModel.v','soc_writes','e2 + reg)]','e2 - reg)]','C53: sign of the regularisation')
m('LinModel.v','updateMatrix','- sc_lp2 W i - reg','- sc_lp W i - reg','C53: scaling not squared')
m('LinModel.v','positions','(S (index (pcol inv t)))','(index (pcol inv t))','C53: counting sort does not advance')
m('LinModel.v','pcol','Nat.max (inv (t_row t)) (inv (t_col t))','inv (t_col t)','C53: entry lands below the diagonal')
m('LinModel.v','unperm_soc','(k + m + 2) (j + m)','(k + m) (j + m)','C13: extra rows not skipped')
m('LinModel.v','unpermute','Px (inv (i + d_n d)%nat)','Px (i + d_n d)%nat','C13: y part left permuted')
m('LinModel.v','sign','1 else -1','-1 else 1','C13? signs swapped: pivots regularised')
m('LinModel.v','refine','Ok ((fun i => X i - dX i), (k - 1)%nat)','Ok (X, (k - 1)%nat)','C17: bad correction kept')
m('LinModel.v','refine','if (Nat.eqb k limit || ','if (Nat.eqb k (S limit) || ','C17: one correction too many')
m('LinModel.v','refine','(S k) (fun i => X i + dX\' i) dX\' cur','(S k) (fun i => X i + dX\' i) dX\' prev','C17: compared with a stale norm')
m('LinModel.v','perm_scatter','scatter (map inv (seq 0 N)) (map err (seq 0 N)) Pe','scatter (seq 0 N) (map err (seq 0 N)) Pe','C17: error not permuted')
m('LinModel.v','lin_error','+ reg * dy D (i - n)%nat','- reg * dy D (i - n)%nat','C17: sign in the y error')
m('LinModel.v','errz_soc','ez i - (Gdx (st + m - 1)%nat + reg * z (st + m - 1)%nat)','ez i - (Gdx (st + m - 1)%nat - reg * z (st + m - 1)%nat)','C17: the refuted bug fixed (the refutation must fail)')
