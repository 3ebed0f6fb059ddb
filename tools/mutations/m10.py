M=[]
def m(file,definition,old,new,claim,**k): M.append(dict(file=file,definition=definition,old=old,new=new,claim=claim,**k))
H='RtmModel.v'
m(H,'active','(0 <=? f)%Z','(0 <? f)%Z','C29: variable with index 0 dropped')
m(H,'rc_loop','(first + (fin - start))%nat fin','(first + (fin - start) - 1)%nat fin','C29: runs overlap by one column')
m(H,'rc_loop','find_from inactive n flags (start + 1)%nat','find_from active n flags (start + 1)%nat','C29: end of run searched with the wrong test')
m(H,'addLinConstr','(lineq c ++ [(rank, le_sub rhs lhs)])','(lineq c ++ [(rank, le_sub lhs rhs)])','C29: > treated as <')
m(H,'addLinConstr','Ok (mkC (leq c ++ [(rank, le_sub lhs rhs)]) (lineq c))','Ok (mkC ([(rank, le_sub lhs rhs)]) (lineq c))','C29: a new equality replaces the old ones')
m(H,'higher_left','existsb (fun x => rank <? fst x)%Z (leq c) || existsb (fun x => rank <? fst x)%Z (lineq c)','existsb (fun x => rank <? fst x)%Z (leq c)','C29: ranks with only inequalities not visited')
m(H,'higher_left','existsb (fun x => rank <? fst x)%Z (lineq c)','existsb (fun x => rank + 1 <? fst x)%Z (lineq c)','C29: last rank skipped')
m(H,'build_row','Ok (r, le_const e)','Ok (r, - le_const e)','C29: sign of the constant')
m(H,'build_row','(Ok (upd r (fst t) (snd t)))','(Ok (upd r (fst t) (r (fst t) - snd t)))','C29: sign of the coefficients')
m(H,'add_costs','fst x =? rank','fst x <=? rank','C29: earlier constraints passed again')
m(H,'add_costs','(Ok (rows ++ new))','(Ok new)','C29: rows of the composers lost',optional=True)
m(H,'inequalitySlack','if Rle_dec (va d i) 0 then va d i * 0 else va d i * 1','if Rle_dec 0 (va d i) then va d i * 0 else va d i * 1','C29: norm of the negative part')
m(H,'append_rows_of_rank','fst (snd x) (j - col)%nat','fst (snd x) j','C29: starting column ignored')
m(H,'solve_loop','let s := if (rank =? 0)%Z then h_reset nopt else s in','let s := h_reset nopt in','C29: solver reset at every rank')
m(H,'solve_loop','solve_loop fuel\' c (rank + 1) slack s\'','solve_loop fuel\' c (rank + 2) slack s\'','C29: every second rank skipped')
m(H,'solve_loop','let solved := if ok then S solved else solved in','let solved := S solved in','C29: unsolved rank counted')
m(H,'solve_loop','negb (nc (h_K s\') =? 0)%nat && ok','negb (nc (h_K s\') =? 0)%nat','C29: continues after an unsolved rank')
m(H,'build_task','(to_mat (fst mi) inr) (to_vec inr) slack','(to_mat (fst mi) inr) (to_vec eqr) slack','C29: wrong vector for the inequalities')
m(H,'reduce_rows','nth (fst ir) (nth j cols []) 0','nth j (nth (fst ir) cols []) 0','C29: transposed access')
