M=[]
def m(file,definition,old,new,claim,**k): M.append(dict(file=file,definition=definition,old=old,new=new,claim=claim,**k))
L='LbfgsModel.v'
T=dict(tightened=['C21_delta_test'],note='survived m5; new theorem')
m(L,'stop_tests','(p_maxit P <? l_k S + 1))%Z%bool','(p_maxit P <? l_k S))%Z%bool','C21: iteration limit off by one')
m(L,'stop_tests','Ok (ltb rate (p_delta P))','Ok (ltb (p_delta P) rate)','C21: stops when progress is large',**T)
m(L,'stop_tests','bind (vset (l_pf S) i fx) (fun pf => Ok (inr pf))','Ok (inr (l_pf S))','C21: past values never stored',**T)
m(L,'stop_tests','(p_past P <=? l_k S)%Z','(p_past P <? l_k S)%Z','C21: test starts one iteration late',**T)
