(** The shutdown of the manager: C85. *)
From Verif Require Import Base M_Pool M_Manager S_Manager M_Close S_Close L_Close.

(** ** C85 *)
(** whenever a call of close ends, whatever the client threads do in the meantime: every registered worker has been
    disconnected, or is held by a thread whose pool was not in job_pools, or is on its way from a pool to the free workers *)
Theorem C85_partial : forall es s0 es' s1, srun site_init es = Some s0 -> srun s0 (CloseBegin :: es' ++ [CloseSockets]) = Some s1 -> no_call es' ->
  forall w, In w (site_registered es) -> In w (st_closed s1) \/
    exists j x, nth_error (mg_jobs (st_manager s1)) j = Some x /\ ((~ In j (st_listed s0) /\ In w (held x)) \/ In w (jb_returned x)).
Proof. exact close_all. Qed.
Print Assumptions C85_partial.
(** so a call that nobody disturbs, with no job being set up or closed, disconnects everybody *)
Theorem C85_quiet_partial : forall es s, srun site_init es = Some s -> st_closing s = Idle ->
  (forall j x, nth_error (mg_jobs (st_manager s)) j = Some x -> (In j (st_listed s) /\ jb_returned x = []) \/ held x = []) ->
  exists s', srun s (CloseBegin :: repeat (ClosePools true) (S (length (st_listed s))) ++ [CloseSockets]) = Some s' /\
    forall w, In w (site_registered es) -> In w (st_closed s').
Proof. exact close_quiet. Qed.
Print Assumptions C85_quiet_partial.
(** The property is false: a worker held by a client thread when the connections are closed is not disconnected, then or later,
    unless close is called again *)
Theorem C85_busy_refuted : forall es s j x w, srun site_init es = Some s -> NoDup (site_registered es) -> st_closing s = Sockets ->
  nth_error (mg_jobs (st_manager s)) j = Some x -> In w (held x) -> ~ In w (st_closed s) ->
  forall es' s', no_call es' -> srun s (CloseSockets :: es') = Some s' -> ~ In w (st_closed s').
Proof. exact left_open. Qed.
Print Assumptions C85_busy_refuted.
(** and when a worker in the pool of a job cannot be reached any more, nobody is disconnected any more, however often close is called *)
Theorem C85_lost_refuted : forall es s w j, srun site_init es = Some s -> st_closing s = Idle -> In j (st_listed s) -> in_pool w (st_manager s) j ->
  forall es' s', unreachable w s es' -> srun s es' = Some s' -> st_closed s' = st_closed s.
Proof. exact lost_blocks. Qed.
Print Assumptions C85_lost_refuted.

(** five workers and two one-worker jobs: one is served, one is being set up *)
Definition exc_ws : list sevent := map (fun i => Thread (AddWorker (mkWorker i 2))) (zrange 0 5).
Definition exc_one : list sevent := exc_ws ++ map Thread [MakeState 2; Allocate 0 true; Reply 0 true].
Definition exc_two : list sevent := exc_one ++ [Thread (MakeState 2)].
Definition exc_view (s : site) := (map wk_id (st_closed s), st_listed s, map (fun x => (jb_status x, map wk_id (held x))) (mg_jobs (st_manager s))).
Example C85_quiet_ex : option_map exc_view (srun site_init (exc_one ++ [CloseBegin; ClosePools true; ClosePools true; CloseSockets])) = Some ([0; 1; 2; 3; 4], [0%nat], [(Serving, [])]) /\
  option_map (fun s => (exc_view s, st_closing s)) (srun site_init exc_one) = Some ([], [0%nat], [(Serving, [4])], Idle).
Proof. split; vm_compute; reflexivity. Qed.
(** the second client thread goes on with its worker when the manager has been closed *)
Example C85_busy_ex : option_map exc_view (srun site_init (exc_two ++ [CloseBegin; ClosePools true; ClosePools true; CloseSockets; Thread (Allocate 1 true)]))
    = Some ([0; 1; 2; 4], [0%nat; 1%nat], [(Serving, []); (Allocated, [3])]) /\
  option_map (fun s => (exc_view s, st_closing s)) (srun site_init (exc_two ++ [CloseBegin; ClosePools true; ClosePools true])) = Some ([], [0%nat], [(Serving, []); (Drawn, [3])], Sockets) /\
  NoDup (site_registered (exc_two ++ [CloseBegin; ClosePools true; ClosePools true])).
Proof. split; [vm_compute; reflexivity|]. split; [vm_compute; reflexivity|]. vm_compute. repeat constructor; cbn; intuition discriminate. Qed.
(** the worker of the first job is lost: closing fails twice, and the thread of the client fails as well *)
Definition exc_fail : list sevent := [CloseBegin; ClosePools false; Thread (Operation 0 OpFails); Thread (ClosePool 0 false); CloseBegin; ClosePools false].
Example C85_lost_ex : option_map (fun s => (exc_view s, st_closing s)) (srun site_init (exc_one ++ exc_fail)) = Some ([], [0%nat], [(Dead, [4])], Idle) /\
  exists s, srun site_init exc_one = Some s /\ in_pool (mkWorker 4 2) (st_manager s) 0 /\ unreachable (mkWorker 4 2) s exc_fail.
Proof.
  split; [vm_compute; reflexivity|]. eexists. split; [vm_compute; reflexivity|]. split; [eexists; split; [reflexivity|left; reflexivity]|].
  cbn [unreachable exc_fail]. repeat (split; [intros []|intros ? _]). exact I.
Qed.
