(** reduce_measure and the missing operations of a distributed client: C73, C74. *)
From Verif Require Import Base M_Bits S_Bits M_Kron S_Kron M_Feed M_Func S_Func L_Func2 M_Measure S_Measure L_Measure6 M_Pool S_Pool M_Net S_Net M_Worker S_Worker M_Client S_Client S_Reduce L_Reduce6 P_Pool P_Worker P_Measured P_Client.

(** ** C73 *)
(** The claim is false. The workers hold the parts of a state in blocks of 2^bq amplitudes and are asked for a
    reduce_measure; the draws determine the outcome m. If a basis state of the second half of the state or beyond (outside
    the first block) has this outcome, then some worker writes out of the bounds of its part; the model stops there. The
    manager waits for its answer in every execution. The local backend answers. *)
Theorem C73_outside_refuted : forall {K} {OK : OrdRing K} cap (rsqrt : K -> K) cfg job n bq pool indices measured prob r calls envs bs local m,
  0 <= bq <= n -> tiles (2 ^ n) pool -> blocks (2 ^ bq) pool -> configured job (map fst pool) cfg ->
  full_backend local -> bk_n local = n -> qubits_ok n indices ->
  (forall w : wid, In w (map fst pool) -> holds n (bk_state local) w (bs w)) -> four_asked (map fst pool) envs ->
  reduce_drawn n indices (map fst pool) envs (bk_state local) r m -> rle (outcome local indices m) 1%r ->
  capacities cap (map fst pool) 1 ->
  (exists x, 0 <= x < 2 ^ n /\ reg n (measured_order n indices) x = m /\ 2 ^ bq <= x) ->
  (forall rand acc0, exists final, bk_reduce_measure rsqrt rand acc0 local indices (Some m) None 0 0 = Ok ((m, outcome local indices m), final)) /\
  always_ends pid_eqb cap (client_net rsqrt n (map fst pool) ((CReduceMeasure indices measured prob, r) :: calls) cfg envs bs) (fun s' =>
    exists w k, In w (map fst pool) /\ procs s' Mgr = Recv (Wk w) k /\ chans s' (Wk w) Mgr = [] /\ procs s' (Wk w) = Fail OOB).
Proof. exact (@outside_case). Qed.
Print Assumptions C73_outside_refuted.

(** In particular this happens for every outcome when one of the first n - bq qubits is not measured: these are the qubits
    that number the blocks. *)
Theorem C73_unmeasured_refuted : forall {K} {OK : OrdRing K} cap (rsqrt : K -> K) cfg job n bq pool indices measured prob r calls envs bs local m,
  0 <= bq <= n -> tiles (2 ^ n) pool -> blocks (2 ^ bq) pool -> configured job (map fst pool) cfg ->
  full_backend local -> bk_n local = n -> qubits_ok n indices ->
  (forall w : wid, In w (map fst pool) -> holds n (bk_state local) w (bs w)) -> four_asked (map fst pool) envs ->
  reduce_drawn n indices (map fst pool) envs (bk_state local) r m -> rle (outcome local indices m) 1%r ->
  forall q, capacities cap (map fst pool) 1 -> 0 <= q < n - bq -> ~ In q indices ->
  (forall rand acc0, exists final, bk_reduce_measure rsqrt rand acc0 local indices (Some m) None 0 0 = Ok ((m, outcome local indices m), final)) /\
  always_ends pid_eqb cap (client_net rsqrt n (map fst pool) ((CReduceMeasure indices measured prob, r) :: calls) cfg envs bs) (fun s' =>
    exists w k, In w (map fst pool) /\ procs s' Mgr = Recv (Wk w) k /\ chans s' (Wk w) Mgr = [] /\ procs s' (Wk w) = Fail OOB).
Proof. exact (@unmeasured_case). Qed.
Print Assumptions C73_unmeasured_refuted.
(** the state |01> on four workers, in two blocks: r = 1 and the draws 1 *)
Lemma exr_asked : four_asked exw_ws exm_envs.
Proof. intros w _. split; [cbn; lia|]. intros e He. apply repeat_spec in He. subst e. reflexivity. Qed.
Example C73_unmeasured_hypotheses : configured 7 exw_ws exw_cfg /\ four_asked exw_ws exm_envs /\
  reduce_drawn 2 [1] exw_ws exm_envs (bk_state exm_local) 1 1 /\ outcome exm_local [1] 1 = 1 /\ qubits_ok 2 [1] /\ 0 <= 0 < 2 - 1 /\ ~ In 0 [1].
Proof.
  split; [intros w _; repeat split; cbn; lia|]. split; [exact exr_asked|].
  split; [exists (0, 2), ((0, 2), (0, 2)), 1; split; [vm_compute; auto|]; split; [reflexivity|]; split; [reflexivity|]; vm_compute; repeat split; congruence|].
  split; [reflexivity|]. split; [split; [repeat constructor; intros []|intros q [<-|[]]; lia]|]. split; [lia|]. intros [E|[]]; discriminate E.
Qed.
Example C73_outside_hypotheses : exists x, 0 <= x < 2 ^ 2 /\ reg 2 (measured_order 2 [1]) x = 1 /\ 2 ^ 1 <= x.
Proof. exists 3. repeat split; vm_compute; congruence. Qed.
Definition exr_net (calls : list (call Z * Z)) : net pid (msg Z) (ending Z) := client_net (fun r => r) 2 exw_ws calls exw_cfg exm_envs exm_bs.
Definition exr_end (calls : list (call Z * Z)) : option (net pid (msg Z) (ending Z)) :=
  runs pid_eqb (fun _ _ => None) (exr_net calls) (exw_drive (fun _ _ => None) 500 (exr_net calls) (Mgr :: map Wk exw_ws)).
Example C73_unmeasured_run :
  option_map (fun s' => (match procs s' Mgr with Recv _ _ => true | _ => false end, map (fun w => match procs s' (Wk w) with Fail OOB => true | _ => false end) exw_ws))
    (exr_end [(CReduceMeasure [1] None None, 1)])
  = Some (true, [true; true; false; false]).
Proof. vm_compute. reflexivity. Qed.

(** If all basis states with the outcome are in the first block, and as many qubits are measured as number the blocks (the
    measured qubits are then just these), the job ends in a deadlock: the manager waits for the worker with the second block
    as input and output; this worker waits for the one with the second block as input and the first as output, which waits
    for the next operation. *)
Theorem C73_deadlock_refuted : forall {K} {OK : OrdRing K} cap (rsqrt : K -> K) cfg job n bq pool indices measured prob r calls envs bs local m,
  0 <= bq <= n -> tiles (2 ^ n) pool -> blocks (2 ^ bq) pool -> configured job (map fst pool) cfg ->
  full_backend local -> bk_n local = n -> qubits_ok n indices ->
  (forall w : wid, In w (map fst pool) -> holds n (bk_state local) w (bs w)) -> four_asked (map fst pool) envs ->
  reduce_drawn n indices (map fst pool) envs (bk_state local) r m -> rle (outcome local indices m) 1%r ->
  connected (map fst pool) cfg -> capacities cap (map fst pool) (Z.to_nat (2 ^ bq) + 1) ->
  (forall x, 0 <= x < 2 ^ n -> reg n (measured_order n indices) x = m -> x < 2 ^ bq) ->
  n - bq = zlen indices -> bq < n ->
  (forall rand acc0, exists final, bk_reduce_measure rsqrt rand acc0 local indices (Some m) None 0 0 = Ok ((m, outcome local indices m), final)) /\
  always_ends pid_eqb cap (client_net rsqrt n (map fst pool) ((CReduceMeasure indices measured prob, r) :: calls) cfg envs bs) (fun s' =>
    exists b1 b2 k k' k'', In (b1, b1) (map fst pool) /\ In (b1, b2) (map fst pool) /\ b1 <> b2 /\
      procs s' Mgr = Recv (Wk (b1, b1)) k /\ chans s' (Wk (b1, b1)) Mgr = [] /\
      procs s' (Wk (b1, b1)) = Recv (Wk (b1, b2)) k' /\ chans s' (Wk (b1, b2)) (Wk (b1, b1)) = [] /\
      procs s' (Wk (b1, b2)) = Recv Mgr k'' /\ chans s' Mgr (Wk (b1, b2)) = []).
Proof. exact (@deadlock_case). Qed.
Print Assumptions C73_deadlock_refuted.
Example C73_deadlock_hypotheses : connected exw_ws exw_cfg /\ capacities (fun _ _ => Some 3%nat) exw_ws 3 /\
  reduce_drawn 2 [0] exw_ws exm_envs (bk_state exm_local) 1 0 /\ outcome exm_local [0] 0 = 1 /\ qubits_ok 2 [0] /\
  (forall x, 0 <= x < 2 ^ 2 -> reg 2 (measured_order 2 [0]) x = 0 -> x < 2 ^ 1) /\ 2 - 1 = zlen [0].
Proof.
  split; [intros w _; apply Permutation_refl|]. split; [intros w w' _ _; cbn; lia|].
  split; [exists (0, 2), ((0, 2), (0, 2)), 1; split; [vm_compute; auto|]; split; [reflexivity|]; split; [reflexivity|]; vm_compute; repeat split; congruence|].
  split; [reflexivity|]. split; [split; [repeat constructor; intros []|intros q [<-|[]]; lia]|]. split; [|reflexivity].
  intros x Hx E. assert (x = 0 \/ x = 1 \/ x = 2 \/ x = 3) as [-> |[-> |[-> | ->]]] by lia; first [lia|discriminate E].
Qed.
Example C73_deadlock_run :
  option_map (fun s' => map (fun p => match procs s' p with Recv _ _ => true | _ => false end) (Mgr :: map Wk exw_ws))
    (exr_end [(CReduceMeasure [0] None None, 1)])
  = Some [true; true; true; true; true].
Proof. vm_compute. reflexivity. Qed.

(** What holds: if all basis states with the outcome are in the first block and more qubits are measured than number the
    blocks, the client gets the outcome with its probability, and the worker with the first block as input and output holds
    the first block of the state the local backend has afterwards. Missing: all other cases, and that the client can go on. *)
Theorem C73_partial : forall {K} {OK : OrdRing K} cap (rsqrt : K -> K) cfg job n bq pool indices measured prob r calls envs bs local m,
  0 <= bq <= n -> tiles (2 ^ n) pool -> blocks (2 ^ bq) pool -> configured job (map fst pool) cfg ->
  full_backend local -> bk_n local = n -> qubits_ok n indices ->
  (forall w : wid, In w (map fst pool) -> holds n (bk_state local) w (bs w)) -> four_asked (map fst pool) envs ->
  reduce_drawn n indices (map fst pool) envs (bk_state local) r m -> rle (outcome local indices m) 1%r ->
  connected (map fst pool) cfg -> capacities cap (map fst pool) (Z.to_nat (2 ^ bq) + 1) ->
  (forall x, 0 <= x < 2 ^ n -> reg n (measured_order n indices) x = m -> x < 2 ^ bq) ->
  calls = [] -> n - bq < zlen indices ->
  exists final, (forall rand acc0, bk_reduce_measure rsqrt rand acc0 local indices (Some m) None 0 0 = Ok ((m, outcome local indices m), final)) /\
  always_ends pid_eqb cap (client_net rsqrt n (map fst pool) ((CReduceMeasure indices measured prob, r) :: calls) cfg envs bs) (fun s' =>
    (exists reply, procs s' Mgr = Ret (EManager [reply] (map fst pool)) /\
       response (CReduceMeasure indices measured prob) reply = VOutcome m (outcome local indices m)) /\
    (forall w : wid, In w (map fst pool) -> exists b, procs s' (Wk w) = Ret (EWorker b) /\
       (w = ((0, 2 ^ bq), (0, 2 ^ bq)) -> bk_state b = slice (0, 2 ^ bq) (bk_state final)))).
Proof. exact (@inside_alone). Qed.
Print Assumptions C73_partial.
Example C73_hypotheses : reduce_drawn 2 [0; 1] exw_ws exm_envs (bk_state exm_local) 1 1 /\ outcome exm_local [0; 1] 1 = 1 /\ qubits_ok 2 [0; 1] /\
  (forall x, 0 <= x < 2 ^ 2 -> reg 2 (measured_order 2 [0; 1]) x = 1 -> x < 2 ^ 1) /\ 2 - 1 < zlen [0; 1].
Proof.
  split; [exists (0, 2), ((0, 2), (0, 2)), 1; split; [vm_compute; auto|]; split; [reflexivity|]; split; [reflexivity|]; vm_compute; repeat split; congruence|].
  split; [reflexivity|]. split; [split; [apply NoDup_cons; [intros [E|[]]; discriminate|]; repeat constructor; intros []|intros q [<-|[<-|[]]]; lia]|]. split; [|reflexivity].
  intros x Hx E. assert (x = 0 \/ x = 1 \/ x = 2 \/ x = 3) as [-> |[-> |[-> | ->]]] by lia; first [lia|discriminate E].
Qed.
Example C73_run :
  option_map (fun s' => (match procs s' Mgr with Ret (EManager replies _) => replies | _ => [] end,
                         match procs s' (Wk ((0, 2), (0, 2))) with Ret (EWorker b) => bk_state b | _ => [] end))
    (exr_end [(CReduceMeasure [0; 1] None None, 1)])
  = Some ([Some (inl (1, 1))], [(1, 0); (1, 0)]).
Proof. vm_compute. reflexivity. Qed.

(** Even then the workers are gone: with a measurement as the next call, the thread of the manager ends with an exception,
    and the workers have left the job. *)
Theorem C73_after_refuted : forall {K} {OK : OrdRing K} cap (rsqrt : K -> K) cfg job n bq pool indices measured prob r calls envs bs local m,
  0 <= bq <= n -> tiles (2 ^ n) pool -> blocks (2 ^ bq) pool -> configured job (map fst pool) cfg ->
  full_backend local -> bk_n local = n -> qubits_ok n indices ->
  (forall w : wid, In w (map fst pool) -> holds n (bk_state local) w (bs w)) -> four_asked (map fst pool) envs ->
  reduce_drawn n indices (map fst pool) envs (bk_state local) r m -> rle (outcome local indices m) 1%r ->
  connected (map fst pool) cfg -> capacities cap (map fst pool) (Z.to_nat (2 ^ bq) + 1) ->
  (forall x, 0 <= x < 2 ^ n -> reg n (measured_order n indices) x = m -> x < 2 ^ bq) ->
  forall indices' measured' prob' r' calls', calls = (CMeasure indices' measured' prob', r') :: calls' -> n - bq < zlen indices ->
  always_ends pid_eqb cap (client_net rsqrt n (map fst pool) ((CReduceMeasure indices measured prob, r) :: calls) cfg envs bs) (fun s' =>
    procs s' Mgr = Fail AttributeError /\ forall w : wid, In w (map fst pool) -> exists b, procs s' (Wk w) = Ret (EWorker b)).
Proof. exact (@inside_then). Qed.
Print Assumptions C73_after_refuted.
Example C73_after_run :
  option_map (fun s' => (match procs s' Mgr with Fail AttributeError => true | _ => false end, map (fun w => match procs s' (Wk w) with Ret (EWorker _) => true | _ => false end) exw_ws))
    (exr_end [(CReduceMeasure [0; 1] None None, 1); (CMeasure [0] None None, 1)])
  = Some (true, [true; true; true; true]).
Proof. vm_compute. reflexivity. Qed.

(** ** C74 *)
(** The claim is false. func_apply and soft_measure raise TypeError in a distributed client (and nothing is sent: the rest
    of the program runs as if the call were not there), while the local backend carries them out. *)
Theorem C74_soft_measure_refuted : forall {K} {OK : OrdRing K} (local : backend K) rand indices measured,
  full_backend local -> qubits_ok (bk_n local) indices -> draw_ok rand (tprob (bk_state local)) ->
  (exists m p, bk_soft_measure rand 0%r local indices None 0 = Ok (m, p)) /\
  request (CSoftMeasure indices measured) = Raise TypeError :> res (wop K) /\
  forall rsqrt n workers r calls1 calls2 cfg envs (bs : wid -> backend K),
    client_net rsqrt n workers (calls1 ++ (CSoftMeasure indices measured, r) :: calls2) cfg envs bs = client_net rsqrt n workers (calls1 ++ calls2) cfg envs bs.
Proof. exact (@no_soft_measure). Qed.
Print Assumptions C74_soft_measure_refuted.
Theorem C74_func_apply_refuted : forall {K} {OK : OrdRing K} m sched (local : backend K) reg1 reg2 f func io oo,
  full_backend local -> qubits_ok (bk_n local) (reg1 ++ reg2) -> zlen (others (bk_n local) reg1 reg2) = zlen reg2 ->
  Permutation sched (zrange 0 (2 ^ zlen reg1)) -> (forall x, 0 <= x < 2 ^ zlen reg1 -> func x = Ok (f x)) ->
  (exists b', bk_func_apply m sched local reg1 reg2 func io oo = Ok b' /\
    forall x, 0 <= x < 2 ^ bk_n local -> amp_at 0 (bk_state b') (fxor (bk_n local) reg1 reg2 f x) = amp_at 0 (bk_state local) x) /\
  request (CFuncApply reg1 reg2 func) = Raise TypeError :> res (wop K) /\
  forall rsqrt n workers r calls1 calls2 cfg envs (bs : wid -> backend K),
    client_net rsqrt n workers (calls1 ++ (CFuncApply reg1 reg2 func, r) :: calls2) cfg envs bs = client_net rsqrt n workers (calls1 ++ calls2) cfg envs bs.
Proof. exact (@no_func_apply). Qed.
Print Assumptions C74_func_apply_refuted.
Example C74_hypotheses : full_backend exm_local /\ qubits_ok 2 [1] /\ draw_ok 1 (tprob (bk_state exm_local)) /\
  client_net (fun r => r) 2 exw_ws [(CKronselectDot [(KInt 0, exw_X)], 0); (CSoftMeasure [1] None, 1); (CFuncApply [0] [1] (fun x => Ok x), 1); (CMeasure [1] None None, 1)] exw_cfg exm_envs exm_bs
  = client_net (fun r => r) 2 exw_ws [(CKronselectDot [(KInt 0, exw_X)], 0); (CMeasure [1] None None, 1)] exw_cfg exm_envs exm_bs.
Proof.
  split; [repeat split; vm_compute; congruence|]. split; [split; [repeat constructor; intros []|intros q [<-|[]]; lia]|]. split; [split; reflexivity|reflexivity].
Qed.
