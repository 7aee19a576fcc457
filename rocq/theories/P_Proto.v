(** Properties C40 and C41: the wire format and the ops of the distributed backend. *)
From Verif Require Import Base S_Bits M_Kron S_Kron M_Ops S_Ops M_Feed M_Proto S_Proto L_Proto.

Theorem C40_matop : forall {K} {OK : OrdRing K} (m : mat K) indices, (forall i, In i indices -> is_int32 i) -> wire_mat (zlen indices) m ->
  exists o, matop_to_pbmatop indices m = Ok o /\ pbmatop_to_matop o = Ok (indices, m).
Proof. exact @matop_ok. Qed.
Print Assumptions C40_matop.
Theorem C40_vector : forall {K} {OK : OrdRing K} (v : list (Cx K)), pbvec_to_vec (vec_to_pbvec v) = Ok v.
Proof. exact @vec_ok. Qed.
Print Assumptions C40_vector.
(** a whole dictionary: the worker gets the dictionary of the client, keys in the same order *)
Theorem C40_kronprod : forall {K} {OK : OrdRing K} (mats : mats_arg K),
  (forall k m, In (k, m) mats -> exists l, k = KTuple l /\ (forall i, In i l -> is_int32 i) /\ wire_mat (zlen l) m) -> NoDup (map fst mats) ->
  exists msg, encode_kronprod mats = Ok msg /\ decode_kronprod msg = Ok mats.
Proof. exact @kronprod_ok. Qed.
Print Assumptions C40_kronprod.
(** the initial states *)
Theorem C40_states : forall {K} {OK : OrdRing K} index_groups (feed_list : list (feed_t K)), length index_groups = length feed_list ->
  (forall g i, In g index_groups -> In i g -> is_int32 i) -> (forall f, In f feed_list -> wire_feed f) ->
  exists msg, encode_states index_groups feed_list = Ok msg /\ decode_states msg = Ok (index_groups, feed_list).
Proof. exact @states_ok. Qed.
Print Assumptions C40_states.
(** a doubly controlled swap and a controlled non-square array *)
Example C40_ex : let mats : mats_arg Z := [(KTuple [4; 0; 2; 1], MC (MC (MSwap 1))); (KTuple [3; 5], MC (MNum 1 2 [(1, 2); (3, -4)]))] in
  (forall k m, In (k, m) mats -> exists l, k = KTuple l /\ (forall i, In i l -> is_int32 i) /\ wire_mat (zlen l) m) /\ NoDup (map fst mats) /\
  exists msg, encode_kronprod mats = Ok msg /\ decode_kronprod msg = Ok mats.
Proof.
  cbv zeta. split; [|split].
  - intros k m [E|[E|[]]]; inversion E; subst; eexists; (split; [reflexivity|]); (split; [intros i Hi; cbn in Hi; unfold is_int32; lia|]); cbn; unfold is_int32, zlen; cbn; repeat split; lia.
  - constructor; [intros [E|[]]; discriminate|constructor; [intros []|constructor]].
  - eexists. split; vm_compute; reflexivity.
Qed.
Example C40_states_ex : exists msg, encode_states [[0; 2]; [1]] [FArr [(1, 0); (0, 1); (2, 0); (0, 0)]; FInt 1 : feed_t Z] = Ok msg /\
  decode_states msg = Ok ([[0; 2]; [1]], [FArr [(1, 0); (0, 1); (2, 0); (0, 0)]; FInt 1]).
Proof. eexists. split; vm_compute; reflexivity. Qed.

(** false: for every single-qubit gate that is not controlled the client raises TypeError, whereas the local backend accepts it *)
Theorem C41_refuted : forall {K} {OK : OrdRing K} n (o : op K) g dagger groups (v out : list (Cx K)) i,
  0 <= n -> op_fits o groups -> qubits_ok n (concat groups) -> gate_of o = Some g ->
  zlen v = 2 ^ n -> zlen out = 2 ^ n -> impl_sched_ok i (zlen out) ->
  (forall mats, op_ms o dagger groups = Ok mats -> encode_kronprod mats = Raise TypeError) /\
  (exists mats W, op_ms o false groups = Ok mats /\ kronselect_dot mats v n out 0 0 i = Ok W).
Proof. exact @gates_not_on_wire. Qed.
Print Assumptions C41_refuted.
(** the other ops (swaps, and controlled ops of any kind and depth) are sent, and arrive unchanged *)
Theorem C41_partial : forall {K} {OK : OrdRing K} n (o : op K) dagger groups mats,
  0 <= n < 2 ^ 31 -> op_fits o groups -> qubits_ok n (concat groups) -> gate_of o = None -> op_ms o dagger groups = Ok mats ->
  exists msg, encode_kronprod mats = Ok msg /\ decode_kronprod msg = Ok mats.
Proof. exact @ops_on_wire. Qed.
Print Assumptions C41_partial.
Example C41_refuted_ex : op_fits (OY : op Z) [[1; 0]] /\ qubits_ok 2 (concat [[1; 0]]) /\
  exists mats, op_ms (OY : op Z) false [[1; 0]] = Ok mats /\ encode_kronprod mats = Raise TypeError.
Proof. split; [discriminate|]. split; [split; [repeat constructor; cbn; intuition discriminate|cbn; intros; lia]|]. eexists. split; reflexivity. Qed.
Example C41_ex : op_fits (OC (OC OY) : op Z) [[2]; [0]; [1; 3]] /\ qubits_ok 4 (concat [[2]; [0]; [1; 3]]) /\
  exists mats msg, op_ms (OC (OC OY) : op Z) true [[2]; [0]; [1; 3]] = Ok mats /\ zlen mats = 2 /\ encode_kronprod mats = Ok msg /\ decode_kronprod msg = Ok mats.
Proof.
  split; [exists 2, [[0]; [1; 3]]; split; [reflexivity|exists 0, [[1; 3]]; split; [reflexivity|discriminate]]|].
  split; [split; [repeat constructor; cbn; intuition discriminate|cbn; intros; lia]|].
  eexists _, _. split; [reflexivity|]. split; [reflexivity|]. split; vm_compute; reflexivity.
Qed.
