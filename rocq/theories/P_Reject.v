(** Operations the backend rejects: C78. *)
From Verif Require Import Base M_Bits M_Kron S_Kron M_Feed M_Measure M_Pool S_Pool M_Net S_Net M_Worker S_Worker M_Client S_Client L_Reject L_Reject2 P_Pool P_Worker.

(** ** C78 *)
(** The property is false: when a client asks for kronselect_dot with matrices for which the local backend raises an
    exception, the exception ends the worker and nobody tells the manager. Whatever the order of events, the manager
    neither answers the client nor fails: the client waits for ever. (When the local backend does not raise, the call is
    answered: C46.) *)
Theorem C78_refuted (K : Type) (OK : OrdRing K) cap (rsqrt : K -> K) cfg job n bq pool mats r calls envs bs (local : backend K) sched x :
  0 <= bq <= n -> tiles (2 ^ n) pool -> blocks (2 ^ bq) pool -> configured job (map fst pool) cfg ->
  bk_n local = n -> zlen (bk_state local) = 2 ^ n -> zlen (bk_arena local) = 2 ^ n ->
  (forall w : wid, In w (map fst pool) -> holds n (bk_state local) w (bs w)) ->
  (forall w : wid, In w (map fst pool) -> scheduled (2 ^ bq) 1 (envs w)) ->
  mats_wf n mats -> Permutation sched (zrange 0 (2 ^ n)) -> bk_kronselect_dot sched local mats 0 0 = Raise x ->
  forall sched' s', runs pid_eqb cap (client_net rsqrt n (map fst pool) ((CKronselectDot mats, r) :: calls) cfg envs bs) sched' = Some s' ->
  (forall y, procs s' Mgr <> Ret y) /\ (forall y, procs s' Mgr <> Fail y).
Proof. exact (rejected_call cap rsqrt cfg job n bq pool mats r calls envs bs local sched x). Qed.
Print Assumptions C78_refuted.
(** a two-qubit matrix applied to one qubit: the local backend raises, and four workers and the manager wait *)
Definition exr_mats : mats_arg Z := [(KInt 0, MNum 4 4 (repeat (1, 0) 16))].
Definition exr_net : net pid (msg Z) (ending Z) :=
  client_net (fun r => r) 2 exw_ws [(CKronselectDot exr_mats, 0)] exw_cfg exw_envs exw_bs.
Example C78_hypotheses :
  tiles (2 ^ 2) exw_pool /\ blocks (2 ^ 1) exw_pool /\ configured 7 exw_ws exw_cfg /\
  bk_n exw_start = 2 /\ zlen (bk_state exw_start) = 2 ^ 2 /\ zlen (bk_arena exw_start) = 2 ^ 2 /\
  (forall w, In w exw_ws -> holds 2 (bk_state exw_start) w (exw_bs w)) /\
  (forall w, In w exw_ws -> scheduled (2 ^ 1) 1 (exw_envs w)) /\
  mats_wf 2 exr_mats /\ exists x, bk_kronselect_dot (zrange 0 4) exw_start exr_mats 0 0 = Raise x.
Proof.
  destruct C46_hypotheses as ((msgs & rest & Ep) & Hc & _). destruct (C42_tiles _ _ _ _ _ Ep) as (_ & Ht & _).
  split; [exact Ht|]. split; [intros e He; vm_compute in He; destruct He as [<-|[<-|[<-|[<-|[]]]]]; [exists 0, 0|exists 0, 1|exists 1, 0|exists 1, 1]; split; reflexivity|].
  split; [exact Hc|]. split; [reflexivity|]. split; [reflexivity|]. split; [reflexivity|].
  split; [intros w Hw; vm_compute in Hw; destruct Hw as [<-|[<-|[<-|[<-|[]]]]]; vm_compute; auto|].
  split; [intros w _; split; [cbn; lia|]; intros e He; apply repeat_spec in He; subst; apply Permutation_refl|].
  split; [|vm_compute; eexists; reflexivity].
  split; [split; [intros k m [E|[]]; inversion E; discriminate|cbn; apply NoDup_cons; [intros []|apply NoDup_nil]]|]. intros k m [E|[]]; inversion E; subst; (split; [intros q [<-|[]]; lia|repeat split; vm_compute; congruence]).
Qed.
Example C78_run :
  option_map (fun s' => map (fun p => match procs s' p with Ret _ => 0 | Fail _ => 1 | Send _ _ _ => 2 | Recv _ _ => 3 end) (Mgr :: map Wk exw_ws))
    (runs pid_eqb (fun _ _ => None) exr_net (exw_drive (fun _ _ => None) 500 exr_net (Mgr :: map Wk exw_ws)))
  = Some [3; 1; 1; 1; 1].
Proof. vm_compute. reflexivity. Qed.

(** The same after any other calls but reduce_measure: the job never ends with answers, and when they are calls of
    kronselect_dot it does not fail either. Nothing is assumed about the states at that time. *)
Theorem C78_later_refuted (K : Type) (OK : OrdRing K) cap (rsqrt : K -> K) cfg job n bq pool before mats r calls envs bs (local : backend K) sched x :
  0 <= bq <= n -> tiles (2 ^ n) pool -> blocks (2 ^ bq) pool -> configured job (map fst pool) cfg ->
  (forall w : wid, In w (map fst pool) -> bk_n (bs w) = n) ->
  bk_n local = n -> zlen (bk_state local) = 2 ^ n -> zlen (bk_arena local) = 2 ^ n ->
  mats_wf n mats -> Permutation sched (zrange 0 (2 ^ n)) -> bk_kronselect_dot sched local mats 0 0 = Raise x ->
  Forall (fun c => no_reduce (fst c)) before ->
  forall sched' s', runs pid_eqb cap (client_net rsqrt n (map fst pool) (before ++ (CKronselectDot mats, r) :: calls) cfg envs bs) sched' = Some s' ->
  (forall y, procs s' Mgr <> Ret y) /\ (Forall (fun c => is_kron (fst c)) before -> forall y, procs s' Mgr <> Fail y).
Proof. exact (rejected_later cap rsqrt cfg job n bq pool before mats r calls envs bs local sched x). Qed.
Print Assumptions C78_later_refuted.
(** And for measure_probabilities with a negative top_k, for which the local backend raises ValueError. *)
Theorem C78_top_refuted (K : Type) (OK : OrdRing K) cap (rsqrt : K -> K) cfg n bq pool before indices top_k r calls envs bs :
  0 <= bq <= n -> tiles (2 ^ n) pool -> blocks (2 ^ bq) pool ->
  (forall w : wid, In w (map fst pool) -> bk_n (bs w) = n) ->
  - 2 ^ 31 <= top_k < 0 -> Forall (fun c => no_reduce (fst c)) before ->
  (forall local : backend K, bk_measure_probabilities local indices top_k = Raise ValueError) /\
  forall sched' s', runs pid_eqb cap (client_net rsqrt n (map fst pool) (before ++ (CMeasureProbabilities indices top_k, r) :: calls) cfg envs bs) sched' = Some s' ->
  (forall y, procs s' Mgr <> Ret y) /\ (Forall (fun c => is_kron (fst c)) before -> forall y, procs s' Mgr <> Fail y).
Proof. exact (rejected_top cap rsqrt cfg n bq pool before indices top_k r calls envs bs). Qed.
Print Assumptions C78_top_refuted.
(** two accepted calls, then the rejected one *)
Definition exr_first : list (call Z * Z) := [(CKronselectDot [(KInt 1, MNum 2 2 [(0, 0); (1, 0); (1, 0); (0, 0)])], 0); (CMeasure [0] None None, 0)].
Definition exr_envs (w : wid) : list (env Z) := repeat (mkEnv 0 0 (zrange 0 2)) 9.
Definition exr_bs (w : wid) : backend Z := mkBackend 2 (if fst (fst w) =? 0 then [(1, 0); (0, 0)] else [(0, 0); (0, 0)]) [(0, 0); (0, 0)].
Definition exr_net2 : net pid (msg Z) (ending Z) := client_net (fun r => r) 2 exw_ws (exr_first ++ [(CKronselectDot exr_mats, 0)]) exw_cfg exr_envs exr_bs.
Definition exr_net3 : net pid (msg Z) (ending Z) := client_net (fun r => r) 2 exw_ws (exr_first ++ [(CMeasureProbabilities [0] (-1), 0)]) exw_cfg exr_envs exr_bs.
Example C78_later_hypotheses : Forall (fun c => no_reduce (fst c)) exr_first /\ (forall w, In w exw_ws -> bk_n (exr_bs w) = 2).
Proof. split; [repeat constructor|]. intros w Hw; vm_compute in Hw; destruct Hw as [<-|[<-|[<-|[<-|[]]]]]; reflexivity. Qed.
Example C78_later_run :
  map (fun net => option_map (fun s' => map (fun p => match procs s' p with Ret _ => 0 | Fail _ => 1 | Send _ _ _ => 2 | Recv _ _ => 3 end) (Mgr :: map Wk exw_ws))
    (runs pid_eqb (fun _ _ => None) net (exw_drive (fun _ _ => None) 900 net (Mgr :: map Wk exw_ws)))) [exr_net2; exr_net3]
  = [Some [3; 1; 1; 1; 1]; Some [3; 1; 3; 3; 1]].
Proof. vm_compute. reflexivity. Qed.
