M=[]
def m(file,definition,old,new,claim,**k): M.append(dict(file=file,definition=definition,old=old,new=new,claim=claim,**k))
H='HqpModel.v'
m(H,'worker_step','if (negb (stop s) && computed s)%bool then','if computed s then','C27: worker waits without testing the stop flag (stop never ends it)')
m(H,'worker_step','| W_bcast => Some (set_wp W_unlock (wake_main s))','| W_bcast => Some (set_wp W_unlock s)','C27: worker does not notify (lost wakeup)')
m(H,'main_step','| T_bcast e nb => Some (set_mp (T_unlock1 e nb) (wake_worker s))','| T_bcast e nb => Some (set_mp (T_unlock1 e nb) s)','C27: job not notified (lost wakeup)')
m(H,'main_step','| S_bcast f => Some (set_mp (S_unlock f) (wake_worker s))','| S_bcast f => Some (set_mp (S_unlock f) s)','C27: stop not notified')
m(H,'main_step','(if computed s then set_mp (T_unlock2 e nb) s else set_mp (T_wait e nb) (set_mu None s))','(set_mp (T_unlock2 e nb) s)','C27: main does not wait for the result')
m(H,'main_step','| T_relock e nb => match mu s with None => Some (set_mp (T_check e nb)','| T_relock e nb => match mu s with None => Some (set_mp (T_unlock2 e nb)','C27: if instead of while: a spurious wakeup lets the main thread go on')
m(H,'worker_step','| W_relock => match mu s with None => Some (set_wp W_check','| W_relock => match mu s with None => Some (set_wp W_svd','C27: worker: if instead of while')
m(H,'main_step','| T_unlock1 e nb => Some (set_mp (T_lock2 e nb) (set_mu None s))','| T_unlock1 e nb => Some (set_mp (T_lock2 e nb) s)','C27: mutex not released')
m(H,'main_step','| T_early e nb => Some (finish (Solve e nb) (set_mu None s))','| T_early e nb => Some (finish (Solve e nb) s)','C27: early return keeps the mutex')
m(H,'worker_step','| W_break => Some (set_wp W_end (set_mu None s))','| W_break => Some (set_wp W_end s)','C27: worker breaks with the mutex held')
m(H,'worker_step','| W_rank => Some (set_wp W_flag (set_rank (rank s + 1) s))','| W_rank => Some (set_wp W_flag s)','C27: rank counter not advanced')
m(H,'main_step','(set_computed true (set_rank 0 s))','(set_computed true s)','C27: reset does not clear the rank counter')
m(H,'main_step','| I_spawn => Some (finish Init (set_wp W_head (set_stop false s)))','| I_spawn => Some (finish Init (set_wp W_head s))','C27: stop flag not cleared at start (garbage or previous stop)')
m(H,'main_step','| T_lock e nb => match mu s with None => Some (set_mp (T_read e nb) (set_mu (Some Main) s)) | Some _ => None end','| T_lock e nb => Some (set_mp (T_read e nb) s)','C27: matrices used without the mutex')
m(H,'max_ranks','max_ranks : nat := 7','max_ranks : nat := 6','C27: array too short for seven tasks')
