(** Jobs of different clients on one manager: C101. *)
From Coq Require Import String.
From Verif Require Import Base M_Bits S_Bits M_Kron S_Kron M_Feed S_Feed M_Measure S_Measure M_Pool S_Pool M_Net S_Net M_Worker S_Worker M_Jobs S_Jobs L_Jobs5 L_Jobs6 L_Jobs7 P_Pool P_Worker P_Measured.
Local Open Scope Z_scope.

(** Any number of clients, in any order and at any speed; their jobs take workers from the free ones and give them back, so
    that a worker may serve one job after another, with the messages of several jobs in its connection to the manager at the
    same time. If each job by itself always comes to an end with its messages read ([clean]), then every state that is
    reached shows of each job a state of an execution of this job by itself: of its thread, of its workers and of their
    connections. No worker ends with an exception. *)
Theorem C101_alone : forall {K} {OK : OrdRing K} (rsqrt : K -> K) capd capu capw jobs,
  (forall j, placed jobs j) -> (forall j, clean rsqrt capd capu capw jobs j) ->
  forall acts W, wruns rsqrt capd capu capw jobs world0 acts = Some W ->
    (forall i e, workers W i <> WStopped e) /\
    forall j, exists s, alone rsqrt capd capu capw jobs j s /\
      (forall p, threads W j = Some (Serving p) \/ threads W j = Some (Returned p) -> procs s Mgr = p) /\
      (forall p, threads W j = Some (Returned p) -> ended p) /\
      (forall i w p, workers W i = WJob j w p -> procs s (Wk w) = p) /\
      forall w v, data W j w v = chans s (Wk w) (Wk v).
Proof. exact (@jobs_alone). Qed.
Print Assumptions C101_alone.

(** No deadlock: when no thread and no worker can go on, all threads have ended and all workers are free. *)
Theorem C101_no_deadlock : forall {K} {OK : OrdRing K} (rsqrt : K -> K) capd capu capw jobs,
  (forall j, placed jobs j) -> (forall j, clean rsqrt capd capu capw jobs j) -> (forall i, fits (capd i) 1) ->
  forall acts W, wruns rsqrt capd capu capw jobs world0 acts = Some W ->
    (forall j, wexec rsqrt capd capu capw jobs W (AThread j) = None) -> (forall i, wexec rsqrt capd capu capw jobs W (AWorker i) = None) ->
    settled W.
Proof. exact (@jobs_settled). Qed.
Print Assumptions C101_no_deadlock.

(** No livelock: the executions with clients 0 .. M-1 have a common bound. *)
Theorem C101_terminates : forall {K} {OK : OrdRing K} (rsqrt : K -> K) capd capu capw jobs,
  (forall j, placed jobs j) -> (forall j, clean rsqrt capd capu capw jobs j) ->
  forall M, exists bound, forall acts W, (forall j, In (AStart j) acts -> (j < M)%nat) ->
    wruns rsqrt capd capu capw jobs world0 acts = Some W -> (List.length acts <= bound)%nat.
Proof. exact (@jobs_finite). Qed.
Print Assumptions C101_terminates.

(** Jobs of kronprods and measurements: every client gets the results of its own job on one computer. Missing: the jobs are
    those of C49_job_partial, without soft_measure and reduce_measure. *)
Theorem C101_results_partial : forall {K} {OK : OrdRing K} (rsqrt : K -> K) capd capu capw jobs (results : nat -> list (mresult K)),
  (forall i, fits (capd i) 1) ->
  (forall j w v, In w (j_ws (jobs j)) -> In v (j_ws (jobs j)) -> j_at (jobs j) w = j_at (jobs j) v -> w = v) ->
  (forall j, job_of_local rsqrt capd capu capw jobs j (results j)) ->
  (forall acts W, wruns rsqrt capd capu capw jobs world0 acts = Some W ->
     (forall i e, workers W i <> WStopped e) /\
     (forall j p, threads W j = Some (Returned p) -> p = Ret (EManager (results j) (j_ws (jobs j)))) /\
     ((forall j, wexec rsqrt capd capu capw jobs W (AThread j) = None) -> (forall i, wexec rsqrt capd capu capw jobs W (AWorker i) = None) -> settled W)) /\
  forall M, exists bound, forall acts W, (forall j, In (AStart j) acts -> (j < M)%nat) ->
    wruns rsqrt capd capu capw jobs world0 acts = Some W -> (List.length acts <= bound)%nat.
Proof. exact (@local_jobs). Qed.
Print Assumptions C101_results_partial.

(** Two jobs: one on the processes 0-3, all others on the processes 2-5. *)
Definition exj_at (first : Z) (w : wid) : Z := first + fst (fst w) + fst (snd w) / 2.
Definition exj_cfg (j : nat) (w : wid) : worker_cfg := mkCfg (Z.of_nat j) w (filter (partner w) exw_ws) 1 2.
Definition exj_lops : list (lop Z * Z) := [(LMeasure [0], 1)].
Definition exj_jobs (j : nat) : job Z :=
  mkJob 2 exw_ws (exj_at (match j with O => 0 | _ => 2 end)) (map (fun o => (wop_of (fst o), snd o)) (match j with O => exm_lops | _ => exj_lops end))
    (exj_cfg j) exm_envs exm_bs.
Definition exj_results (j : nat) : list (mresult Z) := match j with O => exm_results | _ => [Some (inl (0, 1))] end.
Definition exj_capd (i : Z) : option nat := Some 7%nat.
Definition exj_capw (j : nat) (w v : wid) : option nat := Some 7%nat.
Example C101_placed : forall j, placed exj_jobs j.
Proof.
  assert (E : exw_ws = [((0, 2), (0, 2)); ((0, 2), (2, 4)); ((2, 4), (0, 2)); ((2, 4), (2, 4))]) by (vm_compute; reflexivity).
  intros j. split; cbn [exj_jobs j_ws j_at]; rewrite E.
  - repeat constructor; cbn; intuition discriminate.
  - intros w v Hw Hv. unfold exj_at. destruct Hw as [<-|[<-|[<-|[<-|[]]]]]; destruct Hv as [<-|[<-|[<-|[<-|[]]]]]; destruct j; vm_compute; congruence.
Qed.
Example C101_hypotheses : forall j, job_of_local (fun r => r) exj_capd exj_capd exj_capw exj_jobs j (exj_results j).
Proof.
  destruct C49_hypotheses as (final & H1 & H2 & _ & _ & _ & H6 & _ & H8 & H9 & H10).
  assert (Hc : forall j, configured (Z.of_nat j) exw_ws (exj_cfg j)) by (intros j w _; repeat split; cbn; lia).
  assert (Hn : forall j, connected exw_ws (exj_cfg j)) by (intros j w _; apply Permutation_refl).
  assert (Hp : forall j, capacities (job_cap exj_capd exj_capd exj_capw exj_jobs j) exw_ws 7) by (intros j w w' _ _; cbn; lia).
  intros [|j].
  - exists 0, 7%nat, 1, exw_pool, (fun _ => repeat 1 10), exm_lops, exm_local, final.
    split; [reflexivity|]. split; [reflexivity|]. split; [cbn; lia|]. split; [exact H1|]. split; [exact H2|]. split; [apply (Hc O)|]. split; [apply (Hn O)|]. split; [apply (Hp O)|].
    split; [vm_compute; lia|]. split; [exact H6|]. split; [reflexivity|]. split; [reflexivity|]. split; [reflexivity|]. split; [exact H8|]. split; [exact H9|]. split; [exact H10|]. reflexivity.
  - eexists (Z.of_nat (S j)), 7%nat, 1, exw_pool, (fun _ => repeat 1 10), exj_lops, exm_local, _.
    split; [reflexivity|]. split; [reflexivity|]. split; [cbn; lia|]. split; [exact H1|]. split; [exact H2|]. split; [apply Hc|]. split; [apply Hn|]. split; [apply Hp|].
    split; [vm_compute; lia|]. split.
    { eapply (lj_measure _ _ _ _ _ _ _ _ _ _ (0, 2) 1 0).
      - vm_compute. auto.
      - reflexivity.
      - vm_compute. repeat split; congruence.
      - vm_compute. reflexivity.
      - reflexivity.
      - apply lj_end. }
    split; [reflexivity|]. split; [reflexivity|]. split; [reflexivity|]. split; [exact H8|]. split.
    { intros o [<-|[]]. cbn [fst lop_ok]. split; [apply NoDup_cons; [intros []|apply NoDup_nil]|intros q [<-|[]]; cbn; lia]. }
    split; [|reflexivity]. intros w Hw. split; [split|]; [vm_compute in Hw; destruct Hw as [<-|[<-|[<-|[<-|[]]]]]; cbn; lia| |]; apply (proj2 (H10 w Hw)) || apply (H10 w Hw).
Qed.
Example C101_clean : forall j, clean (fun r => r) exj_capd exj_capd exj_capw exj_jobs j.
Proof. intros j. exact (local_clean _ _ _ _ _ j _ (C101_hypotheses j)). Qed.
(** an execution of both jobs: those who can go on do so in turn *)
Fixpoint exj_first (W : world Z) (l done : list act) : option (act * world Z * list act) :=
  match l with
  | [] => None
  | a :: l => match wexec (fun r => r) exj_capd exj_capd exj_capw exj_jobs W a with Some W' => Some (a, W', l ++ done ++ [a]) | None => exj_first W l (done ++ [a]) end
  end.
Fixpoint exj_drive (fuel : nat) (W : world Z) (l : list act) : list act :=
  match fuel with O => [] | S fuel => match exj_first W l [] with Some (a, W', l') => a :: exj_drive fuel W' l' | None => [] end end.
Definition exj_acts : list act := exj_drive 2000 world0 (map AStart [0; 1; 2]%nat ++ map AThread [0; 1; 2]%nat ++ map AWorker (zrange 0 6)).
Example C101_run :
  option_map (fun W => map (fun j => match threads W j with Some (Returned (Ret (EManager results _))) => results | _ => [] end) [0; 1; 2; 3]%nat)
    (wruns (fun r => r) exj_capd exj_capd exj_capw exj_jobs world0 exj_acts)
  = Some [exm_results; [Some (inl (0, 1))]; [Some (inl (0, 1))]; []].
Proof. vm_compute. reflexivity. Qed.

(** A worker does not survive any command but setup: [runner_branch] asks for a field "close" that the message does not
    have. A worker that is told to shut down ends with a ValueError instead of returning. *)
Theorem C101_shutdown_refuted : forall {K} {OK : OrdRing K} (rsqrt : K -> K) (jobs : nat -> job K) capu capw (W : world K) i rest,
  workers W i = WIdle -> downs W i = DShutdown :: rest ->
  (exists W', worker_step rsqrt capu capw jobs W i = Some W' /\ workers W' i = WStopped ValueError /\
     worker_step rsqrt capu capw jobs W' i = None) /\
  forall set, set <> Some "setup"%string -> runner_branch set = Raise ValueError.
Proof. exact (@shutdown). Qed.
Print Assumptions C101_shutdown_refuted.
Example C101_shutdown_case : exists W : world Z, workers W 3 = WIdle /\ downs W 3 = [DShutdown] /\ runner_branch (Some "setup"%string) = Ok DoSetup.
Proof. exists (mkWorld (fun _ => true) (fun _ => None) (fun _ => WIdle) (fun _ => [DShutdown]) (fun _ => []) (fun _ _ _ => [])). auto. Qed.
