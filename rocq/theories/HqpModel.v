(** * Model of the two threads of the hierarchical real-time solver
    Source: solver/include/solver/rt_optimizer/{RtHQPSolver.h,RtHQPSolver.hpp,RtMutex.hpp}.
    Every access to the mutex, the condition variables, the two flags and the shared matrices is one atomic step; the two threads interleave
    arbitrarily.  pthread_cond_wait releases the mutex and blocks in one step and may wake up spuriously; pthread_mutex_lock blocks while the
    mutex is held.  Sequentially consistent memory.  The matrices B_Nprev_, K_ are abstract values; the quadratic program solved between the
    two critical sections touches none of the shared data and is not a step. *)
From Coq Require Import List Arith Bool.
Import ListNotations.

(** RtHQPSolver.hpp l.23: size of prev_K_. *)
Definition max_ranks : nat := 7.

Section Hqp.
Variable M : Type.
(** B_Nprev_.rows() != 0, and the null-space map of B_Nprev_ (SVD; RtMatrix.hpp l.288-313). *)
Variable has_rows : M -> bool.
Variable nullmap : M -> M.

(** What the user's thread does: initialize(); reset(n) with the new B_Nprev_ and K_; solveNextTask with the test of l.124 for an early return
    (a function of K_) and the new B_Nprev_ (if the task has equalities, l.173; a function of all the K_ seen so far, since Nprev_ is their product);
    nullspaceDimension().  A call of solveNextTask without any row returns at once (l.117) and is left out. *)
Inductive call := Init | ResetTo (b k : M) | Solve (early : M -> bool) (newB : list M -> option M) | NullDim.

(** Program counters of the user's thread. *)
Inductive mpc :=
  | Next                                          (* between two calls *)
  | I_flag | I_prevK | I_spawn                    (* initialize l.43-51 *)
  | S_lock (fin : bool) | S_set (fin : bool) | S_bcast (fin : bool) | S_unlock (fin : bool) | S_join (fin : bool)   (* stopSVD2ProblemConverter l.81-91 *)
  | R_lock (b k : M) | R_body (b k : M) | R_unlock (b k : M)                     (* reset l.98-102 *)
  | T_lock (e : M -> bool) (nb : list M -> option M)   (* solveNextTask l.121 *)
  | T_read (e : M -> bool) (nb : list M -> option M)   (* l.124-127 *)
  | T_early (e : M -> bool) (nb : list M -> option M)  (* unlock and return, l.124 *)
  | T_write (e : M -> bool) (nb : list M -> option M)  (* l.173 *)
  | T_post (e : M -> bool) (nb : list M -> option M)   (* is_svd_computed_ = false, l.180 *)
  | T_bcast (e : M -> bool) (nb : list M -> option M) | T_unlock1 (e : M -> bool) (nb : list M -> option M)   (* l.181-182 *)
  | T_lock2 (e : M -> bool) (nb : list M -> option M) | T_check (e : M -> bool) (nb : list M -> option M)      (* l.223-224 *)
  | T_wait (e : M -> bool) (nb : list M -> option M) | T_relock (e : M -> bool) (nb : list M -> option M)      (* inside wait, l.224 *)
  | T_unlock2 (e : M -> bool) (nb : list M -> option M)                                                       (* l.225 *)
  | Done.
(** Program counters of the SVD thread, doSVDComputations l.56-78. *)
Inductive wpc := W_none | W_head | W_lock | W_check | W_wait | W_relock | W_svd | W_rank | W_flag | W_bcast | W_unlock | W_break | W_end.
Inductive tid := Main | Worker.

Record st := mk { mu : option tid; computed : bool; stop : bool; B : M; K : M; rank : nat; ub : bool; mp : mpc; wp : wpc; prog : list call; obs : list M; past : list call }.
Definition set_mu v s := mk v (computed s) (stop s) (B s) (K s) (rank s) (ub s) (mp s) (wp s) (prog s) (obs s) (past s).
Definition set_computed v s := mk (mu s) v (stop s) (B s) (K s) (rank s) (ub s) (mp s) (wp s) (prog s) (obs s) (past s).
Definition set_stop v s := mk (mu s) (computed s) v (B s) (K s) (rank s) (ub s) (mp s) (wp s) (prog s) (obs s) (past s).
Definition set_B v s := mk (mu s) (computed s) (stop s) v (K s) (rank s) (ub s) (mp s) (wp s) (prog s) (obs s) (past s).
Definition set_K v s := mk (mu s) (computed s) (stop s) (B s) v (rank s) (ub s) (mp s) (wp s) (prog s) (obs s) (past s).
Definition set_rank v s := mk (mu s) (computed s) (stop s) (B s) (K s) v (ub s) (mp s) (wp s) (prog s) (obs s) (past s).
Definition set_ub v s := mk (mu s) (computed s) (stop s) (B s) (K s) (rank s) v (mp s) (wp s) (prog s) (obs s) (past s).
Definition set_mp v s := mk (mu s) (computed s) (stop s) (B s) (K s) (rank s) (ub s) v (wp s) (prog s) (obs s) (past s).
Definition set_wp v s := mk (mu s) (computed s) (stop s) (B s) (K s) (rank s) (ub s) (mp s) v (prog s) (obs s) (past s).
Definition see v s := mk (mu s) (computed s) (stop s) (B s) (K s) (rank s) (ub s) (mp s) (wp s) (prog s) (obs s ++ [v]) (past s).
(** Ghost: the call [c] is finished. *)
Definition finish c s := mk (mu s) (computed s) (stop s) (B s) (K s) (rank s) (ub s) Next (wp s) (prog s) (obs s) (past s ++ [c]).
Definition pop s := mk (mu s) (computed s) (stop s) (B s) (K s) (rank s) (ub s) (mp s) (wp s) (tl (prog s)) (obs s) (past s).
(** Broadcast on problem2svd_converter_ and on svd2problem_converter_. *)
Definition wake_worker s := match wp s with W_wait => set_wp W_relock s | _ => s end.
Definition wake_main s := match mp s with T_wait e nb => set_mp (T_relock e nb) s | _ => s end.

(** One step of the user's thread; [None]: blocked or finished.  At the end of the program the solver is destroyed. *)
Definition main_step (s : st) : option st :=
  match mp s with
  | Next =>
    match prog s with
    | [] => Some (set_mp (match wp s with W_none => Done | _ => S_lock true end) s)
    | Init :: _ => Some (set_mp I_flag (pop s))
    | ResetTo b k :: _ => Some (set_mp (R_lock b k) (pop s))
    | Solve e nb :: _ => Some (set_mp (T_lock e nb) (pop s))
    | NullDim :: _ => Some (finish NullDim (see (K s) (pop s)))
    end
  | I_flag => Some (set_mp I_prevK (set_computed true s))
  | I_prevK => Some (set_mp (match wp s with W_none => I_spawn | _ => S_lock false end) s)
  | I_spawn => Some (finish Init (set_wp W_head (set_stop false s)))
  | S_lock f => match mu s with None => Some (set_mp (S_set f) (set_mu (Some Main) s)) | Some _ => None end
  | S_set f => Some (set_mp (S_bcast f) (set_stop true s))
  | S_bcast f => Some (set_mp (S_unlock f) (wake_worker s))
  | S_unlock f => Some (set_mp (S_join f) (set_mu None s))
  | S_join f => match wp s with W_end => Some (set_mp (if f then Done else I_spawn) s) | _ => None end
  | R_lock b k => match mu s with None => Some (set_mp (R_body b k) (set_mu (Some Main) s)) | Some _ => None end
  | R_body b k => Some (set_mp (R_unlock b k) (set_B b (set_K k (set_computed true (set_rank 0 s)))))
  | R_unlock b k => Some (finish (ResetTo b k) (set_mu None s))
  | T_lock e nb => match mu s with None => Some (set_mp (T_read e nb) (set_mu (Some Main) s)) | Some _ => None end
  | T_read e nb => Some (set_mp (if e (K s) then T_early e nb else T_write e nb) (see (K s) s))
  | T_early e nb => Some (finish (Solve e nb) (set_mu None s))
  | T_write e nb => Some (set_mp (T_post e nb) (match nb (obs s) with Some b => set_B b s | None => s end))
  | T_post e nb => Some (set_mp (T_bcast e nb) (set_computed false s))
  | T_bcast e nb => Some (set_mp (T_unlock1 e nb) (wake_worker s))
  | T_unlock1 e nb => Some (set_mp (T_lock2 e nb) (set_mu None s))
  | T_lock2 e nb => match mu s with None => Some (set_mp (T_check e nb) (set_mu (Some Main) s)) | Some _ => None end
  | T_check e nb => Some (if computed s then set_mp (T_unlock2 e nb) s else set_mp (T_wait e nb) (set_mu None s))
  | T_wait _ _ => None
  | T_relock e nb => match mu s with None => Some (set_mp (T_check e nb) (set_mu (Some Main) s)) | Some _ => None end
  | T_unlock2 e nb => Some (finish (Solve e nb) (set_mu None s))
  | Done => None
  end.
(** One step of the SVD thread. *)
Definition worker_step (s : st) : option st :=
  match wp s with
  | W_none => None
  | W_head => Some (set_wp (if stop s then W_end else W_lock) s)                                              (* l.57 *)
  | W_lock => match mu s with None => Some (set_wp W_check (set_mu (Some Worker) s)) | Some _ => None end     (* l.59 *)
  | W_check => Some (if (negb (stop s) && computed s)%bool then set_wp W_wait (set_mu None s)                 (* l.60 *)
                     else if stop s then set_wp W_break s else set_wp W_svd s)                                (* l.61 *)
  | W_wait => None
  | W_relock => match mu s with None => Some (set_wp W_check (set_mu (Some Worker) s)) | Some _ => None end
  | W_svd => Some (if has_rows (B s)                                                                          (* l.63-67 *)
                   then if rank s <? max_ranks then set_wp W_rank (set_K (nullmap (B s)) s) else set_ub true s
                   else set_wp W_rank s)
  | W_rank => Some (set_wp W_flag (set_rank (rank s + 1) s))                                                  (* l.68 *)
  | W_flag => Some (set_wp W_bcast (set_computed true s))                                                     (* l.71 *)
  | W_bcast => Some (set_wp W_unlock (wake_main s))                                                           (* l.72 *)
  | W_unlock => Some (set_wp W_head (set_mu None s))                                                          (* l.73 *)
  | W_break => Some (set_wp W_end (set_mu None s))                                                            (* l.61 *)
  | W_end => None
  end.
Inductive label := ByMain | ByWorker | Spurious.
Inductive step : label -> st -> st -> Prop :=
  | st_main : forall s s', ub s = false -> main_step s = Some s' -> step ByMain s s'
  | st_worker : forall s s', ub s = false -> worker_step s = Some s' -> step ByWorker s s'
  | sp_main : forall s e nb, ub s = false -> mp s = T_wait e nb -> step Spurious s (set_mp (T_relock e nb) s)
  | sp_worker : forall s, ub s = false -> wp s = W_wait -> step Spurious s (set_wp W_relock s).
(** The constructor leaves B_Nprev_ = b0, K_ = k0 (it calls reset) and no thread; the flag stop_svd2problem_converter_ is uninitialised. *)
Definition init (b0 k0 : M) (garbage : bool) (p : list call) : st := mk None true garbage b0 k0 0 false Next W_none p [] [].
Inductive steps : list label -> st -> st -> Prop :=
  | steps_nil : forall s, steps [] s s
  | steps_snoc : forall l a s s' s'', steps l s s' -> step a s' s'' -> steps (l ++ [a]) s s''.

(** Who touches the shared matrices, the rank counter and prev_K_ in its next step. *)
Definition main_touches (p : mpc) (next : list call) : Prop :=
  match p with
  | I_prevK | R_body _ _ | T_read _ _ | T_write _ _ => True
  | Next => match next with NullDim :: _ => True | _ => False end
  | _ => False
  end.
Definition worker_touches (p : wpc) : Prop := match p with W_svd | W_rank => True | _ => False end.
End Hqp.
