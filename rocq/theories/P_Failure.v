(** Jobs after a failed job: C84. *)
From Verif Require Import Base M_Bits S_Bits M_Kron S_Kron M_Feed S_Feed M_Measure S_Measure M_Pool S_Pool M_Net S_Net M_Worker S_Worker M_Failure L_Failure1 L_Failure2 P_Pool P_Worker P_Measured.

(** After a job of kronprods and measurements without failures every message between the manager and the workers of the
    pool has been read, so that the next job of these workers begins as [job_net] does. The hypotheses are those of
    C49_job_partial. *)
Theorem C84_partial : forall {K} {OK : OrdRing K} cap (rsqrt : K -> K) cfg job room n bq pool draws lops results envs bs (local final : backend K),
  0 <= bq <= n -> tiles (2 ^ n) pool -> blocks (2 ^ bq) pool ->
  configured job (map fst pool) cfg -> connected (map fst pool) cfg -> capacities cap (map fst pool) room ->
  (length lops * Z.to_nat (2 ^ bq) + 1 <= room)%nat ->
  local_job rsqrt (map fst pool) draws local lops results final ->
  bk_n local = n -> zlen (bk_state local) = 2 ^ n -> zlen (bk_arena local) = 2 ^ n ->
  (forall w : wid, In w (map fst pool) -> holds n (bk_state local) w (bs w)) ->
  (forall o, In o lops -> lop_ok n (fst o)) ->
  (forall w : wid, In w (map fst pool) ->
     scheduled (2 ^ bq) (used_all (is_diagonal w) (map fst lops)) (envs w) /\ forall e, In e (envs w) -> e_acc0 e = 0%r) ->
  (forall a : range, In (a, a) (map fst pool) -> draws a = map e_rand (envs (a, a))) ->
  always_ends pid_eqb cap (job_net rsqrt n (map fst pool) (map (fun o => (wop_of (fst o), snd o)) lops) cfg envs bs) (fun s' =>
    procs s' Mgr = Ret (EManager results (map fst pool)) /\
    forall w : wid, In w (map fst pool) -> (exists b, procs s' (Wk w) = Ret (EWorker b)) /\ chans s' Mgr (Wk w) = [] /\ chans s' (Wk w) Mgr = []).
Proof. exact (@mixed_clean). Qed.
Print Assumptions C84_partial.
Example C84_partial_hypotheses : exists final,
  tiles (2 ^ 2) exw_pool /\ blocks (2 ^ 1) exw_pool /\ configured 7 exw_ws exw_cfg /\ connected exw_ws exw_cfg /\
  capacities (fun _ _ => Some 7%nat) exw_ws 7 /\
  local_job (fun r => r) exw_ws (fun _ => repeat 1 10) exm_local exm_lops exm_results final.
Proof. destruct C49_hypotheses as (final & H1 & H2 & H3 & H4 & H5 & H6 & _). exists final. auto 10. Qed.

(** A worker is lost before it confirms a kronprod that all others carry out. Every execution then comes to an end with the
    manager's exception, the other workers are released, and of these the ones that come later in the pool have a
    confirmation that the manager has not read. *)
Theorem C84_unread : forall {K} {OK : OrdRing K} cap (rsqrt : K -> K) n pre (e : wid) post mats r rest cfg envs (b : wid -> backend K) read,
  let ws := pre ++ e :: post in NoDup ws ->
  (forall w, In w ws -> fits (cap Mgr (Wk w)) 2 /\ fits (cap (Wk w) Mgr) 1) ->
  (forall w, In w ws -> w <> e -> exists ev es b', envs w = ev :: es /\
     bk_kronselect_dot (e_sched ev) (b w) mats (fst (fst (c_id (cfg w)))) (fst (snd (c_id (cfg w)))) = Ok b') ->
  always_ends pid_eqb cap (failing_net rsqrt n ws ((OKron mats, r) :: rest) cfg envs b e read) (fun s' =>
    procs s' Mgr = Fail GenericException /\
    (forall w, In w ws -> w <> e -> exists b', procs s' (Wk w) = Ret (EWorker b')) /\
    (forall w, In w pre -> chans s' (Wk w) Mgr = []) /\
    (forall w, In w post -> chans s' (Wk w) Mgr = [MConf CDone])).
Proof. exact (fun K OK cap => unread cap). Qed.
Print Assumptions C84_unread.
Definition exf_pre : list wid := [((0, 2), (0, 2))].
Definition exf_lost : wid := ((0, 2), (2, 4)).
Definition exf_post : list wid := [((2, 4), (0, 2)); ((2, 4), (2, 4))].
Example C84_unread_hypotheses : exf_pre ++ exf_lost :: exf_post = exw_ws /\ NoDup exw_ws /\
  forall w, In w exw_ws -> w <> exf_lost -> exists ev es b', exw_envs w = ev :: es /\
    bk_kronselect_dot (e_sched ev) (exw_bs w) [(KInt 0, exw_X)] (fst (fst (c_id (exw_cfg w)))) (fst (snd (c_id (exw_cfg w)))) = Ok b'.
Proof.
  split; [vm_compute; reflexivity|]. split; [vm_compute; repeat constructor; cbn; intuition congruence|].
  intros w Hw _. vm_compute in Hw. destruct Hw as [<-|[<-|[<-|[<-|[]]]]]; (eexists; eexists; eexists; split; [vm_compute; reflexivity|vm_compute; reflexivity]).
Qed.

(** Released workers are appended to the free workers; if none of those is larger, the last of them is the worker that
    the next job gets, when one worker suffices for it. *)
Theorem C84_drawn_again : forall n l w, 0 <= n <= 62 -> n <= wk_n w -> (forall x, In x l -> wk_n x <= wk_n w) ->
  exists msgs, make_pool n (l ++ [w]) = Ok ([((0, 2 ^ n), (0, 2 ^ n), w)], msgs, sort_n l).
Proof. exact drawn_again. Qed.
Print Assumptions C84_drawn_again.
Example C84_drawn_again_case : make_pool 1 (map en_worker exw_pool) = Ok ([((0, 2), (0, 2), mkWorker 3 1)], [(mkWorker 3 1, mkSetup (0, 2) (0, 2) [((0, 2), (0, 2), mkWorker 3 1)])], map (fun i => mkWorker i 1) [0; 1; 2]).
Proof. vm_compute. reflexivity. Qed.

(** A job of kronprods and a measurement whose diagonal workers each have one confirmation from an earlier job that has not
    been read: whatever the states, the draw r > 0, the workers and the schedule, the measurement has no result. The
    manager can only end with an exception; without the unread confirmations the job has a result (C49_job_partial). *)
Theorem C84_refuted : forall {K} {OK : OrdRing K} cap (rsqrt : K -> K) n ws krons indices result r rest cfg envs (b : wid -> backend K) left sched s' (e : wid),
  NoDup ws -> In e ws -> fst e = snd e -> rlt 0%r r -> (forall w, In w ws -> fst w = snd w -> left w = [CDone]) ->
  runs pid_eqb cap (next_net rsqrt n ws (map (fun o => (OKron (fst o), snd o)) krons ++ (OMeasure (mkMeasure indices result false false 0), r) :: rest) cfg envs b left) sched = Some s' ->
  (forall x, procs s' Mgr <> Ret x) /\ (forall x, procs s' Mgr = Fail x -> x = AttributeError).
Proof. exact (@next_job). Qed.
Print Assumptions C84_refuted.
(** one worker, a not gate and a measurement, with the connection as it should be and as the failed job leaves it *)
Definition exf_w : wid := ((0, 2), (0, 2)).
Definition exf_next (left : list (conf Z)) : net pid (msg Z) (ending Z) :=
  next_net (fun r => r) 1 [exf_w] ([(OKron [(KInt 0, exw_X)], 0)] ++ [(OMeasure (mkMeasure [0] None false false 0), 1)])
    (fun w => mkCfg 8 w [] 1 2) (fun _ => repeat (mkEnv 1 0 [0; 1]) 9) (fun _ => mkBackend 1 [(1, 0); (0, 0)] [(0, 0); (0, 0)]) (fun _ => left).
Definition exf_end (left : list (conf Z)) : option (proc pid (msg Z) (ending Z)) :=
  let cap := fun _ _ => Some 8%nat in
  match runs pid_eqb cap (exf_next left) (exw_drive cap 99 (exf_next left) [Mgr; Wk exf_w]) with Some s => Some (procs s Mgr) | None => None end.
Example C84_run : exf_end [] = Some (Ret (EManager [None; Some (inl (1, 1))] [exf_w])) /\ exf_end [CDone] = Some (Fail AttributeError).
Proof. vm_compute. auto. Qed.
