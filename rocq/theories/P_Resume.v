(** Continuing from the state of an earlier run: C65. *)
From Coq Require Import Sorted.
From Verif Require Import Base S_Bits M_Kron S_Kron M_Ops S_Ops M_Feed S_Feed M_Func M_Measure S_Measure M_Graph S_Graph L_Graph8 L_Graph11 L_Resume P_Graph.
Open Scope Z_scope.

(** The state that run returned cannot be passed on: on every circuit with a qubit, the second run raises ValueError. *)
Theorem C65_refuted : forall {K} {OK : OrdRing K} (h : heap K) vis c l args1 args2 srcs,
  session h vis c l -> splits_in_range h vis -> no_swap_dagger h vis -> incl args1 vis -> incl args2 vis ->
  (forall a, In a l -> same_qubits h args1 a) -> sources h args1 srcs -> sources h args2 srcs ->
  let n := widths h srcs in circuit_ok h args1 srcs n -> 1 <= n ->
  forall ev1 ev2 feed1 feed2 strict1 strict2 state1 init c1 st1 cm1, enum_ok ev1 -> scheds_ok ev1 h n -> enum_ok ev2 ->
  initial h srcs n feed1 state1 init -> NoDup (map (fun kv => key_nodes (fst kv)) feed2) -> incl (fed_nodes feed2) srcs ->
  run ev1 c h args1 feed1 strict1 state1 = (c1, Ok (st1, cm1)) ->
  run ev2 c1 h args2 feed2 strict2 (SArray st1) = (c1, Raise ValueError).
Proof. exact @resume_array. Qed.
Print Assumptions C65_refuted.

(** As a list it can: the second run returns unless a measurement fails, and the two runs together are one evolution from
    the first initial state through the nodes of the first circuit and then those of the second. Missing: the array. *)
Theorem C65_list_partial : forall {K} {OK : OrdRing K} (h : heap K) vis c l args1 args2 srcs,
  session h vis c l -> splits_in_range h vis -> no_swap_dagger h vis -> incl args1 vis -> incl args2 vis ->
  (forall a, In a l -> same_qubits h args1 a) -> (forall a, In a (args1 :: l) -> same_qubits h args2 a) ->
  sources h args1 srcs -> sources h args2 srcs ->
  let n := widths h srcs in circuit_ok h args1 srcs n -> circuit_ok h args2 srcs n -> 1 <= n ->
  forall ev1 ev2 feed1 feed2 strict1 strict2 state1 init c1 st1 cm1,
  enum_ok ev1 -> scheds_ok ev1 h n -> enum_ok ev2 -> scheds_ok ev2 h n -> e_rsqrt ev1 = e_rsqrt ev2 ->
  initial h srcs n feed1 state1 init -> NoDup (map (fun kv => key_nodes (fst kv)) feed2) -> incl (fed_nodes feed2) srcs ->
  run ev1 c h args1 feed1 strict1 state1 = (c1, Ok (st1, cm1)) ->
  (no_measure h args2 -> (strict2 = true -> incl srcs (fed_nodes feed2)) ->
     exists c2 r, run ev2 c1 h args2 feed2 strict2 (SList st1) = (c2, Ok r)) /\
  forall c2 st2 cm2, run ev2 c1 h args2 feed2 strict2 (SList st1) = (c2, Ok (st2, cm2)) ->
    zlen st2 = 2 ^ n /\ (forall i, In i (map fst cm1) <-> ancestor h args1 i) /\ (forall i, In i (map fst cm2) <-> ancestor h args2 i) /\
    evolves (e_rsqrt ev1) h srcs n (cm1 ++ cm2) (amp (map (fed_amp n init) (zrange 0 (2 ^ n)))) (amp st2).
Proof. exact @resume_list. Qed.
Print Assumptions C65_list_partial.

(** the circuit of C33, run twice *)
Definition exr_c : cache Z := fst (run exg_ev cache0 exg_h exg_args exg_feed false SNone).
Definition exr_state : list (Cx Z) := [(0, 0); (0, 0); (0, 0); (0, 0); (1, 0); (0, 0); (2, 0); (0, 0)].
Example C65_ex : session exg_h exg_vis cache0 [] /\ splits_in_range exg_h exg_vis /\ no_swap_dagger exg_h exg_vis /\
  incl exg_args exg_vis /\ same_qubits exg_h exg_args exg_args /\ sources exg_h exg_args exg_srcs /\ circuit_ok exg_h exg_args exg_srcs 3 /\
  enum_ok exg_ev /\ scheds_ok exg_ev exg_h 3 /\ initial exg_h exg_srcs 3 exg_feed SNone exg_init /\
  option_map fst (match snd (run exg_ev cache0 exg_h exg_args exg_feed false SNone) with Ok x => Some x | Raise _ => None end) = Some exr_state /\
  snd (run exg_ev exr_c exg_h exg_args [] false (SArray exr_state)) = Raise ValueError /\
  option_map fst (match snd (run exg_ev exr_c exg_h exg_args [] false (SList exr_state)) with Ok x => Some x | Raise _ => None end) =
    Some [(0, 0); (0, 0); (0, 0); (0, 0); (0, 0); (1, 0); (0, 0); (0, -2)].
Proof.
  split; [exact exg_session|]. split; [exact exg_splits|]. split; [exact exg_noswap|]. split; [exact exg_incl|].
  split; [apply (same_qubits_refl exg_h exg_vis); [exact (session_wf _ _ _ _ exg_session)|exact exg_incl|exact exg_splits]|].
  split; [exact exg_sources|]. split; [exact exg_ok|]. split; [apply exg_env|]. split; [apply exg_env|]. split; [exact exg_initial|].
  split; [|split]; vm_compute; reflexivity.
Qed.
