(** Connections between workers: C75, C76, C77. *)
From Verif Require Import Base M_Kron M_Feed M_Measure M_Pool S_Pool M_Net S_Net M_Worker S_Worker M_Connect S_Connect L_Connect3 L_Connect5 P_Worker.

(** the history of the examples: every worker of the pool makes its connections, and registers and accepts them *)
Definition exn_ids : list Z := map (fun e => wk_id (en_worker e)) exw_pool.
Definition exn_evs : list event :=
  EConnect 9 6 ((0, 1), (1, 2)) ((0, 1), (0, 1), mkWorker 0 1) :: all_connects 7 exw_pool ++ [EAccept 0] ++ concat (map (fun p => [ENote p; EAccept p; EAccept p; ENote p]) exn_ids).
Definition exn_at (i : nat) : entry := nth i exw_pool ((0, 0), (0, 0), mkWorker 0 0).

(** ** C75 *)
(** A pool made by the manager; a history of connections, acceptances and closings of this and other jobs in which the
    workers of the pool have made their connections for the job (once each, in any order) and nothing of the job waits or
    has been closed. Then every worker has registered exactly its partners; each connection is registered at both ends,
    under the ranges of the worker at the other end; the lists by input range and by output range contain exactly the
    workers with the range, with their sockets. *)
Theorem C75_connected : forall n workers pool msgs rest, make_pool n workers = Ok (pool, msgs, rest) -> NoDup (map wk_id workers) ->
  forall job evs, Permutation (filter (of_job job) evs) (all_connects job pool) -> settled job (happen empty_cluster evs) ->
  forall e, In e pool -> let sv := cl_srv (happen empty_cluster evs) (wk_id (en_worker e)) in
    Permutation (registered sv job) (filter (partner (fst e)) (map fst pool)) /\
    (forall e', In e' pool -> partner (fst e) (fst e') = true ->
      exists c b, socket_to sv job (fst e') = Some (c, b) /\ socket_to (cl_srv (happen empty_cluster evs) (wk_id (en_worker e'))) job (fst e) = Some (c, negb b)) /\
    (forall r, map (fun x => (r, snd x)) (to_inputs sv job r) = input_workers (registered sv job) r) /\
    (forall r, map (fun x => (snd x, r)) (to_outputs sv job r) = output_workers (registered sv job) r) /\
    (forall r s o, In (s, o) (to_inputs sv job r) -> socket_to sv job (r, o) = Some s) /\
    (forall r s i, In (s, i) (to_outputs sv job r) -> socket_to sv job (i, r) = Some s).
Proof. exact made_connected. Qed.
Print Assumptions C75_connected.
(** so the workers meet the condition under which C46 and the later claims about distributed jobs are proved *)
Theorem C75_ready : forall n workers pool msgs rest, make_pool n workers = Ok (pool, msgs, rest) -> NoDup (map wk_id workers) ->
  forall job evs cfg, Permutation (filter (of_job job) evs) (all_connects job pool) -> settled job (happen empty_cluster evs) ->
  (forall e, In e pool -> c_reg (cfg (fst e)) = registered (cl_srv (happen empty_cluster evs) (wk_id (en_worker e))) job) ->
  connected (map fst pool) cfg.
Proof. exact made_cfg. Qed.
Print Assumptions C75_ready.
(** in every history: a connection is used for one job only, and each end by one worker only *)
Theorem C75_one_job : forall evs p q j j' c b b',
  uses (cl_srv (happen empty_cluster evs) p) j (c, b) -> uses (cl_srv (happen empty_cluster evs) q) j' (c, b') ->
  j = j' /\ (b = b' -> p = q).
Proof. exact one_job. Qed.
Print Assumptions C75_one_job.
Example C75_hypotheses : (exists msgs rest, make_pool 2 exw_workers = Ok (exw_pool, msgs, rest)) /\ NoDup (map wk_id exw_workers) /\
  length (all_connects 7 exw_pool) = 4%nat /\ Permutation (filter (of_job 7) exn_evs) (all_connects 7 exw_pool) /\ settled 7 (happen empty_cluster exn_evs) /\
  map (fun e => registered (cl_srv (happen empty_cluster exn_evs) (wk_id (en_worker e))) 7) exw_pool = map (fun e => filter (partner (fst e)) exw_ws) exw_pool.
Proof.
  split; [eexists; eexists; vm_compute; reflexivity|]. split; [change (map wk_id exw_workers) with [0; 1; 2; 3]; repeat constructor; cbn [In]; intuition discriminate|]. split; [vm_compute; reflexivity|]. split; [vm_compute; apply Permutation_refl|]. split; [|vm_compute; reflexivity].
  intros p c w. destruct (in_dec Z.eq_dec p [0; 1; 2; 3; 9]) as [H|H].
  - cbn [In] in H. destruct H as [<-|[<-|[<-|[<-|[<-|[]]]]]]; vm_compute; split; intros X; repeat (destruct X as [X|X]; [discriminate X|]); exact X.
  - destruct (quiet p exn_evs empty_cluster) as [E1 E2]; [|reflexivity|reflexivity|rewrite E1, E2; split; intros []].
    intros me j mine e X. assert (Y : In me [0; 1; 2; 3; 9] /\ In (wk_id (en_worker e)) [0; 1; 2; 3; 9]) by (vm_compute in X; repeat (destruct X as [X|X]; [try discriminate X; injection X as <- <- <- <-; vm_compute; tauto|]); destruct X).
    split; intros ->; tauto.
Qed.

(** ** C76 *)
(** The claim is false. The manager does not wait for the connections: as long as a diagonal worker has not accepted the
    connection of one of its partners (which has made it), a matrix product that begins never ends, under any schedule and
    whatever the operation. *)
Theorem C76_refuted : forall n workers pool msgs rest, make_pool n workers = Ok (pool, msgs, rest) ->
  forall {K} {OK : OrdRing K} cap (rsqrt : K -> K) job evs cfg e d mats r ops envs b,
  configured job (map fst pool) cfg ->
  (forall x, In x pool -> c_reg (cfg (fst x)) = registered (cl_srv (happen empty_cluster evs) (wk_id (en_worker x))) job) ->
  In e pool -> In d pool -> en_in e <> en_out e -> en_in d = en_out e -> en_out d = en_out e ->
  In (fst d) (registered (cl_srv (happen empty_cluster evs) (wk_id (en_worker e))) job) ->
  ~ In (fst e) (registered (cl_srv (happen empty_cluster evs) (wk_id (en_worker d))) job) ->
  forall sched s', runs pid_eqb cap (job_net rsqrt n (map fst pool) ((OKron mats, r) :: ops) cfg envs b) sched = Some s' ->
    (forall x, procs s' Mgr <> Ret x) /\ (forall x, procs s' Mgr <> Fail x).
Proof. exact (@made_race). Qed.
Print Assumptions C76_refuted.
(** all connections are made, none is accepted *)
Definition exn_early : list event := all_connects 7 exw_pool ++ concat (map (fun p => [ENote p; ENote p]) exn_ids).
Definition exn_cfg (w : wid) : worker_cfg :=
  mkCfg 7 w (match find (fun e => wid_eqb (fst e) w) exw_pool with Some e => registered (cl_srv (happen empty_cluster exn_early) (wk_id (en_worker e))) 7 | None => [] end) 1 2.
Example C76_hypotheses : configured 7 exw_ws exn_cfg /\
  (forall x, In x exw_pool -> c_reg (exn_cfg (fst x)) = registered (cl_srv (happen empty_cluster exn_early) (wk_id (en_worker x))) 7) /\
  exists e d, In e exw_pool /\ In d exw_pool /\ en_in e <> en_out e /\ en_in d = en_out e /\ en_out d = en_out e /\
  In (fst d) (registered (cl_srv (happen empty_cluster exn_early) (wk_id (en_worker e))) 7) /\
  ~ In (fst e) (registered (cl_srv (happen empty_cluster exn_early) (wk_id (en_worker d))) 7).
Proof.
  split; [intros w Hw; repeat split; cbn [exn_cfg c_chunk c_window]; lia|]. split; [intros x Hx; vm_compute in Hx; repeat (destruct Hx as [<-|Hx]; [vm_compute; reflexivity|]); destruct Hx|].
  exists (exn_at 1), (exn_at 3). vm_compute. repeat split; auto 10; try discriminate; try reflexivity.
Qed.
(** the workers are blocked: one of them waits for an answer of the worker that does not know it *)
Definition exn_net : net pid (msg Z) (ending Z) := job_net (fun r => r) 2 exw_ws exw_jops exn_cfg exw_envs exw_bs.
Example C76_run :
  option_map (fun s' => (match procs s' Mgr with Recv _ _ => true | _ => false end, exw_first (fun _ _ => None) s' (Mgr :: map Wk exw_ws),
                         match procs s' (Wk (fst (exn_at 1))) with Recv p _ => Some p | _ => None end))
    (runs pid_eqb (fun _ _ => None) exn_net (exw_drive (fun _ _ => None) 500 exn_net (Mgr :: map Wk exw_ws)))
  = Some (true, None, Some (Wk (fst (exn_at 3)))).
Proof. vm_compute. reflexivity. Qed.

(** ** C77 *)
(** A job whose connections have all been accepted and registered is closed at a worker: from then on, whatever happens,
    the worker has nothing registered for it (as long as nobody connects for the same job again). *)
Theorem C77_closed_partial : forall evs evs' p job, settled job (happen empty_cluster evs) -> (forall ev, In ev evs' -> no_connect job ev) ->
  let sv := cl_srv (happen empty_cluster (evs ++ EClose p job :: evs')) p in registered sv job = [] /\ forall s, ~ uses sv job s.
Proof. exact closed_job. Qed.
Print Assumptions C77_closed_partial.
(** the connections of other jobs are not touched *)
Theorem C77_others : forall sv job j, job <> j -> registered (close_connections sv job) j = registered sv j /\
  (forall w, socket_to (close_connections sv job) j w = socket_to sv j w) /\
  (forall r, to_inputs (close_connections sv job) j r = to_inputs sv j r /\ to_outputs (close_connections sv job) j r = to_outputs sv j r).
Proof. exact registered_other. Qed.
Print Assumptions C77_others.
(** The claim is false in general: a connection that is accepted after the worker has closed the job is registered, and
    stays registered until the process ends (or the same job is closed again). *)
Theorem C77_late_refuted : forall evs evs' p job c w q,
  cl_queue (happen empty_cluster evs) p = (c, (job, w)) :: q -> (forall ev, In ev evs' -> no_close p job ev) ->
  In w (registered (cl_srv (happen empty_cluster (evs ++ EClose p job :: EAccept p :: evs')) p) job).
Proof. exact late_accept. Qed.
Print Assumptions C77_late_refuted.
Example C77_hypotheses : settled 7 (happen empty_cluster exn_evs) /\
  length (registered (cl_srv (happen empty_cluster exn_evs) 0) 7) = 2%nat /\
  (exists c w q, cl_queue (happen empty_cluster exn_early) 0 = (c, (7, w)) :: q) /\
  length (registered (cl_srv (happen empty_cluster (exn_early ++ map (fun p => EClose p 7) exn_ids ++ concat (map (fun p => [EAccept p; EAccept p]) exn_ids))) 0) 7) = 2%nat.
Proof. split; [exact (proj1 (proj2 (proj2 (proj2 (proj2 C75_hypotheses)))))|]. split; [vm_compute; reflexivity|]. split; [eexists; eexists; eexists; vm_compute; reflexivity|vm_compute; reflexivity]. Qed.
