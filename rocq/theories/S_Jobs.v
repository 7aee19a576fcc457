(** What several jobs on the workers of one manager should do. *)
From Verif Require Import Base M_Bits S_Bits M_Kron S_Kron M_Feed S_Feed M_Measure S_Measure M_Pool S_Pool M_Net S_Net M_Worker S_Worker M_Jobs.

Section S_Jobs.
  Context {K : Type} {OK : OrdRing K}.
  Variables (rsqrt : K -> K) (capd capu : Z -> option nat) (capw : nat -> wid -> wid -> option nat) (jobs : nat -> job K).

  (** the connections of job j *)
  Definition job_cap (j : nat) (a b : pid) : option nat :=
    match a, b with
    | Mgr, Wk w => capd (j_at (jobs j) w)
    | Wk w, Mgr => capu (j_at (jobs j) w)
    | Wk w, Wk v => capw j w v
    | Mgr, Mgr => None
    end.
  (** the thread has come to an end *)
  Definition ended {A} (p : proc pid (msg K) A) : Prop := match p with Ret _ | Fail _ => True | _ => False end.
  (** by itself, with workers that serve it alone, the job always comes to an end; then every worker has left the job and
      every message between the manager and the workers has been read *)
  Definition clean (j : nat) : Prop :=
    always_ends pid_eqb (job_cap j) (j_net rsqrt (jobs j)) (fun s =>
      ended (procs s Mgr) /\
      forall w, In w (j_ws (jobs j)) -> (exists b, procs s (Wk w) = Ret (EWorker b)) /\ chans s Mgr (Wk w) = [] /\ chans s (Wk w) Mgr = []).
  (** no process is two workers of a job *)
  Definition placed (j : nat) : Prop :=
    NoDup (j_ws (jobs j)) /\ forall w v, In w (j_ws (jobs j)) -> In v (j_ws (jobs j)) -> j_at (jobs j) w = j_at (jobs j) v -> w = v.
  (** an execution of job j by itself that comes to [s] *)
  Definition alone (j : nat) (s : net pid (msg K) (ending K)) : Prop :=
    exists sched, runs pid_eqb (job_cap j) (j_net rsqrt (jobs j)) sched = Some s.
  (** nothing is left to do for the clients that have come: their threads have ended, every worker is free and waits for the
      next job, and nothing is in transit between the manager and the workers *)
  Definition settled (W : world K) : Prop :=
    (forall j, match threads W j with None | Some (Returned _) => True | _ => False end) /\
    forall i, free W i = true /\ workers W i = WIdle /\ downs W i = [] /\ ups W i = [].

  (** the job is one of kronprods and measurements on a connected pool whose workers hold their parts of the state of a
      local backend; [results]: the outcomes on the local backend (the hypotheses of C49_job_partial) *)
  Definition job_of_local (j : nat) (results : list (mresult K)) : Prop :=
    let x := jobs j in let n := j_n x in
    exists job room bq pool draws lops (local final : backend K),
      j_ws x = map fst pool /\ j_ops x = map (fun o => (wop_of (fst o), snd o)) lops /\
      0 <= bq <= n /\ tiles (2 ^ n) pool /\ blocks (2 ^ bq) pool /\
      configured job (map fst pool) (j_cfg x) /\ connected (map fst pool) (j_cfg x) /\
      capacities (job_cap j) (map fst pool) room /\ (length lops * Z.to_nat (2 ^ bq) + 1 <= room)%nat /\
      local_job rsqrt (map fst pool) draws local lops results final /\
      bk_n local = n /\ zlen (bk_state local) = 2 ^ n /\ zlen (bk_arena local) = 2 ^ n /\
      (forall w : wid, In w (map fst pool) -> holds n (bk_state local) w (j_bs x w)) /\
      (forall o, In o lops -> lop_ok n (fst o)) /\
      (forall w : wid, In w (map fst pool) ->
         scheduled (2 ^ bq) (used_all (is_diagonal w) (map fst lops)) (j_envs x w) /\ forall e, In e (j_envs x w) -> e_acc0 e = 0%r) /\
      (forall a : range, In (a, a) (map fst pool) -> draws a = map e_rand (j_envs x (a, a))).
End S_Jobs.
