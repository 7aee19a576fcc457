(** The calls of a distributed client: C60, C61. *)
From Verif Require Import Base M_Bits S_Bits M_Kron S_Kron M_Feed S_Feed M_Measure S_Measure M_Pool S_Pool M_Top S_Top M_Net S_Net M_Worker S_Worker L_Worker2 L_Worker5 M_Client S_Client L_Client P_Pool P_Worker P_Measured.

(** ** C60 *)
(** The claim is false. When the state is split into blocks, every worker that is asked runs out of the bounds of its part
    of the state; the model stops there. No answer is ever sent and the manager waits for it in every execution. The local
    backend answers. *)
Theorem C60_out_of_bounds_refuted : forall {K} {OK : OrdRing K} cap (rsqrt : K -> K) cfg n bq pool indices top_k r calls envs bs local,
  0 <= bq < n -> tiles (2 ^ n) pool -> blocks (2 ^ bq) pool -> capacities cap (map fst pool) 1 ->
  full_backend local -> bk_n local = n -> qubits_ok n indices ->
  (forall w : wid, In w (map fst pool) -> holds n (bk_state local) w (bs w)) -> (forall w : wid, In w (map fst pool) -> envs w <> []) ->
  1 <= asked_for indices top_k <= 2048 ->
  (exists probs, bk_measure_probabilities local indices 0 = Ok (inl probs)) /\
  always_ends pid_eqb cap (client_net rsqrt n (map fst pool) ((CMeasureProbabilities indices top_k, r) :: calls) cfg envs bs) (fun s' =>
    (exists w k, procs s' Mgr = Recv (Wk w) k /\ chans s' (Wk w) Mgr = []) /\
    forall w : wid, In w (map fst pool) -> fst w = snd w -> procs s' (Wk w) = Fail OOB).
Proof. exact (@probs_blocks). Qed.
Print Assumptions C60_out_of_bounds_refuted.
Example C60_hypotheses : tiles (2 ^ 2) exw_pool /\ blocks (2 ^ 1) exw_pool /\ full_backend exm_local /\ qubits_ok 2 [1; 0] /\
  (forall w, In w exw_ws -> holds 2 (bk_state exm_local) w (exm_bs w)) /\ asked_for [1; 0] 0 = 4.
Proof.
  split; [apply (C42_tiles 2 exw_workers exw_pool (match make_pool 2 exw_workers with Ok (_, m, _) => m | _ => [] end) []); vm_compute; reflexivity|].
  split; [intros e He; vm_compute in He; destruct He as [<-|[<-|[<-|[<-|[]]]]]; [exists 0, 0|exists 0, 1|exists 1, 0|exists 1, 1]; split; reflexivity|].
  split; [repeat split; vm_compute; congruence|]. split; [split; [apply NoDup_cons; [intros [E|[]]; discriminate|]; repeat constructor; intros []|intros q [<-|[<-|[]]]; lia]|].
  split; [|reflexivity]. intros w Hw. vm_compute in Hw. destruct Hw as [<-|[<-|[<-|[<-|[]]]]]; repeat split; reflexivity.
Qed.
Example C60_run :
  option_map (fun s' => map (fun p => match procs s' p with Fail OOB => true | _ => false end) (Mgr :: map Wk exw_ws))
    (runs pid_eqb (fun _ _ => None) (client_net (fun r => r) 2 exw_ws [(CMeasureProbabilities [1; 0] 0, 1)] exw_cfg exm_envs exm_bs)
      (exw_drive (fun _ _ => None) 500 (client_net (fun r => r) 2 exw_ws [(CMeasureProbabilities [1; 0] 0, 1)] exw_cfg exm_envs exm_bs) (Mgr :: map Wk exw_ws)))
  = Some (false :: map is_diagonal exw_ws).
Proof. vm_compute. reflexivity. Qed.

(** More than 2048 outcomes are refused: by default, from 12 qubits on. The manager closes the pool (the states are lost)
    and its thread ends with an exception. *)
Theorem C60_many_refuted : forall {K} {OK : OrdRing K} cap (rsqrt : K -> K) cfg n bq pool indices top_k r calls envs bs local,
  0 <= bq <= n -> tiles (2 ^ n) pool -> blocks (2 ^ bq) pool -> capacities cap (map fst pool) 1 ->
  full_backend local -> bk_n local = n -> qubits_ok n indices ->
  (forall w : wid, In w (map fst pool) -> holds n (bk_state local) w (bs w)) ->
  2048 < asked_for indices top_k ->
  (exists probs, bk_measure_probabilities local indices 0 = Ok (inl probs)) /\
  always_ends pid_eqb cap (client_net rsqrt n (map fst pool) ((CMeasureProbabilities indices top_k, r) :: calls) cfg envs bs) (fun s' =>
    procs s' Mgr = Fail GenericException /\ forall w : wid, In w (map fst pool) -> procs s' (Wk w) = Ret (EWorker (bs w))).
Proof. exact (@probs_many). Qed.
Print Assumptions C60_many_refuted.
Example C60_many_hypotheses : 2048 < asked_for (zrange 0 12) 0 /\ 2048 < asked_for [1; 0] 3000.
Proof. split; reflexivity. Qed.

(** What holds: with a single worker, and when all outcomes are asked for (at most 2048), the client gets the outcomes with
    their probabilities, most likely first, and the state is not changed. Missing: several workers, fewer outcomes than
    there are. *)
Theorem C60_single_partial : forall {K} {OK : OrdRing K} cap (rsqrt : K -> K) cfg n pool indices top_k r envs bs local,
  0 <= n -> tiles (2 ^ n) pool -> blocks (2 ^ n) pool -> capacities cap (map fst pool) 1 ->
  full_backend local -> bk_n local = n -> qubits_ok n indices ->
  (forall w : wid, In w (map fst pool) -> holds n (bk_state local) w (bs w)) -> (forall w : wid, In w (map fst pool) -> envs w <> []) ->
  2 ^ zlen indices <= asked_for indices top_k <= 2048 ->
  exists l, Permutation l (map (fun m => (m, marginal n (measured_order n indices) (amp_at 0 (bk_state local)) m)) (zrange 0 (2 ^ zlen indices))) /\
    decreasing (map snd l) /\
  always_ends pid_eqb cap (client_net rsqrt n (map fst pool) [(CMeasureProbabilities indices top_k, r)] cfg envs bs) (fun s' =>
    (exists reply, procs s' Mgr = Ret (EManager [reply] (map fst pool)) /\ response (CMeasureProbabilities indices top_k) reply = VProbs (map fst l) (map snd l)) /\
    forall w : wid, In w (map fst pool) -> procs s' (Wk w) = Ret (EWorker (bs w))).
Proof. exact (@probs_single). Qed.
Print Assumptions C60_single_partial.
Definition exc_pool : list entry := match make_pool 2 [mkWorker 0 2] with Ok (p, _, _) => p | _ => [] end.
Definition exc_ws : list wid := map fst exc_pool.
Definition exc_cfg (w : wid) : worker_cfg := mkCfg 7 w [] 1 2.
Definition exc_vec : list (Cx Z) := [(1, 0); (2, 0); (0, 0); (0, 3)].
Definition exc_local : backend Z := mkBackend 2 exc_vec (repeat (9, 9) 4).
Example C60_single_hypotheses : tiles (2 ^ 2) exc_pool /\ blocks (2 ^ 2) exc_pool /\ full_backend exc_local /\
  (forall w, In w exc_ws -> holds 2 (bk_state exc_local) w exc_local) /\ 2 ^ zlen [1] <= asked_for [1] 0 <= 2048.
Proof.
  split; [apply (C42_tiles 2 [mkWorker 0 2] exc_pool (match make_pool 2 [mkWorker 0 2] with Ok (_, m, _) => m | _ => [] end) []); vm_compute; reflexivity|].
  split; [intros e He; vm_compute in He; destruct He as [<-|[]]; exists 0, 0; split; reflexivity|].
  split; [repeat split; vm_compute; congruence|]. split; [|vm_compute; split; congruence].
  intros w Hw. vm_compute in Hw. destruct Hw as [<-|[]]; repeat split; reflexivity.
Qed.
Example C60_single_run :
  option_map (fun s' => match procs s' Mgr with Ret (EManager [reply] _) => Some (response (CMeasureProbabilities [1] 0) reply) | _ => None end)
    (runs pid_eqb (fun _ _ => None) (client_net (fun r => r) 2 exc_ws [(CMeasureProbabilities [1] 0, 1)] exc_cfg exm_envs (fun _ => exc_local))
      (exw_drive (fun _ _ => None) 500 (client_net (fun r => r) 2 exc_ws [(CMeasureProbabilities [1] 0, 1)] exc_cfg exm_envs (fun _ => exc_local)) (Mgr :: map Wk exc_ws)))
  = Some (Some (VProbs [1; 0] [13; 1])).
Proof. vm_compute. reflexivity. Qed.

(** ** C61 *)
(** A client makes calls of kronselect_dot and measure; the measurements may come with forced outcomes and probabilities.
    The hypotheses are those of C49. Whatever outcomes and probabilities are forced, the client gets those the draws
    determine, and the states are those after the drawn outcomes. *)
Theorem C61_forced_refuted : forall {K} {OK : OrdRing K} cap (rsqrt : K -> K) cfg job room n bq pool draws calls lops results envs bs local final,
  0 <= bq <= n -> tiles (2 ^ n) pool -> blocks (2 ^ bq) pool ->
  configured job (map fst pool) cfg -> connected (map fst pool) cfg -> capacities cap (map fst pool) room ->
  (length lops * Z.to_nat (2 ^ bq) + 1 <= room)%nat ->
  Forall2 (fun c o => asks (fst c) (fst o) /\ snd c = snd o) calls lops ->
  local_job rsqrt (map fst pool) draws local lops results final ->
  bk_n local = n -> zlen (bk_state local) = 2 ^ n -> zlen (bk_arena local) = 2 ^ n ->
  (forall w : wid, In w (map fst pool) -> holds n (bk_state local) w (bs w)) ->
  (forall o, In o lops -> lop_ok n (fst o)) ->
  (forall w : wid, In w (map fst pool) ->
     scheduled (2 ^ bq) (used_all (is_diagonal w) (map fst lops)) (envs w) /\ forall e, In e (envs w) -> e_acc0 e = 0%r) ->
  (forall a : range, In (a, a) (map fst pool) -> draws a = map e_rand (envs (a, a))) ->
  always_ends pid_eqb cap (client_net rsqrt n (map fst pool) calls cfg envs bs) (fun s' =>
    exists replies, procs s' Mgr = Ret (EManager replies (map fst pool)) /\
      map (fun cr => response (fst (fst cr)) (snd cr)) (combine calls replies) = map answer results /\
    forall w : wid, In w (map fst pool) -> exists b, procs s' (Wk w) = Ret (EWorker b) /\ holds n (bk_state final) w b).
Proof. exact (@forced_ignored). Qed.
Print Assumptions C61_forced_refuted.
(** the job of C49, the outcome 0 is forced in both measurements (which is possible before the first): the rest of the
    hypotheses is C49_hypotheses *)
Definition exc_calls : list (call Z * Z) :=
  [(CKronselectDot [(KInt 0, exw_X)], 0); (CMeasure [1] (Some 0) None, 1); (CMeasure [0; 1] (Some 0) (Some 1), 1)].
Example C61_hypotheses : Forall2 (fun c o => asks (fst c) (fst o) /\ snd c = snd o) exc_calls exm_lops /\
  map answer exm_results = [VNone; VOutcome 1 1; VOutcome 3 1].
Proof.
  split; [|reflexivity]. apply Forall2_cons; [split; reflexivity|]. apply Forall2_cons; [split; [do 2 eexists|]; reflexivity|].
  apply Forall2_cons; [split; [do 2 eexists|]; reflexivity|]. apply Forall2_nil.
Qed.
Example C61_run :
  option_map (fun s' => match procs s' Mgr with Ret (EManager replies _) => map (fun cr => response (fst (fst cr)) (snd cr)) (combine exc_calls replies) | _ => [] end)
    (runs pid_eqb (fun _ _ => None) (client_net (fun r => r) 2 exw_ws exc_calls exw_cfg exm_envs exm_bs)
      (exw_drive (fun _ _ => None) 500 (client_net (fun r => r) 2 exw_ws exc_calls exw_cfg exm_envs exm_bs) (Mgr :: map Wk exw_ws)))
  = Some [VNone; VOutcome 1 1; VOutcome 3 1].
Proof. vm_compute. reflexivity. Qed.
