(** Properties C06-C12 and C53: algebra of operations and the gate library. *)
From Coq Require Import Reals.
From Verif Require Import Base BaseR S_Bits M_Kron S_Kron M_Ops M_Gates S_Ops L_Ops1 L_Ops2 L_Ops3 L_Ops4 L_Gates.
Local Open Scope Z_scope.

(** ** Data for the examples *)
Definition exo_v : list (Cx Z) := map (fun i => (i, 2 - i * i)) (zrange 0 8).
Definition exo_out : list (Cx Z) := map (fun _ => (9, 9)) (zrange 0 8).
(** controlled-Y on qubits 1 and 2, control 0; and a swap of qubits 0 and 2 *)
Definition exo_cy : op Z := OC OY.
Definition exo_ms : mats_arg Z := [(KTuple [0; 2], MC y_mat); (KTuple [0; 1], MC y_mat)].
Definition exo_y : mats_arg Z := [(KInt 2, y_mat); (KInt 1, y_mat)].
Definition exo_z : mats_arg Z := [(KInt 0, z_mat)].
Ltac wf := split; [split|];
  [cbn; intros k m Hin; repeat (destruct Hin as [E|Hin]; [inversion E; discriminate|]); destruct Hin
  |cbn; repeat constructor; cbn; intuition discriminate
  |intros k m Hin; repeat (destruct Hin as [E|Hin]; [inversion E; subst; cbn; split; [intros q Hq; intuition; subst; lia|intuition lia]|]); destruct Hin].
Ltac qok := split; [cbn; repeat constructor; cbn; intuition discriminate|cbn; intros q Hq; intuition; subst; lia].
Ltac appl := split; [reflexivity|]; exists exo_out, Python; split; [reflexivity|split; [exact I|vm_compute; reflexivity]].

(** C06: unitary matrices on disjoint groups preserve inner products and the total probability *)
Theorem C06_unitary_inner : forall {K} {OK : OrdRing K} n (mats : mats_arg K) v w V W,
  0 <= n -> mats_wf n mats -> disjoint_groups n mats -> all_unitary mats ->
  applied n mats v V -> applied n mats w W -> inprod n V W = inprod n v w.
Proof. exact @unitary_inner. Qed.
Print Assumptions C06_unitary_inner.
Theorem C06_unitary_norm : forall {K} {OK : OrdRing K} n (mats : mats_arg K) v V,
  0 <= n -> mats_wf n mats -> disjoint_groups n mats -> all_unitary mats ->
  applied n mats v V -> norm2 n V = norm2 n v.
Proof. exact @unitary_norm. Qed.
Print Assumptions C06_unitary_norm.
Lemma exo_y_unitary : all_unitary exo_y.
Proof.
  intros k m [E|[E|[]]]; inversion E; subst; intros i j Hi Hj; change (0 <= i < 2) in Hi; change (0 <= j < 2) in Hj;
  assert (i = 0 \/ i = 1) as [->| ->] by lia; assert (j = 0 \/ j = 1) as [->| ->] by lia; reflexivity.
Qed.
Example C06_ex : mats_wf 3 exo_y /\ disjoint_groups 3 exo_y /\ all_unitary exo_y /\
  (exists V, applied 3 exo_y exo_v V) /\ norm2 3 exo_v = 4288.
Proof. split; [wf|]. split; [qok|]. split; [exact exo_y_unitary|]. split; [eexists; appl|reflexivity]. Qed.
(** every library op, also controlled ones whose groups share the control *)
Theorem C06_ops_inner : forall {K} {OK : OrdRing K} n (o : op K) groups mats v w V W,
  0 <= n -> op_fits o groups -> qubits_ok n (concat groups) -> op_scalars_ok o -> op_ms o false groups = Ok mats ->
  applied n mats v V -> applied n mats w W -> inprod n V W = inprod n v w.
Proof. exact @op_isometry. Qed.
Print Assumptions C06_ops_inner.
Theorem C06_ops_norm : forall {K} {OK : OrdRing K} n (o : op K) groups mats v V,
  0 <= n -> op_fits o groups -> qubits_ok n (concat groups) -> op_scalars_ok o -> op_ms o false groups = Ok mats ->
  applied n mats v V -> norm2 n V = norm2 n v.
Proof. exact @op_norm. Qed.
Print Assumptions C06_ops_norm.
Example C06_ops_ex : op_fits exo_cy [[0]; [2; 1]] /\ qubits_ok 3 (concat [[0]; [2; 1]]) /\ op_scalars_ok exo_cy /\
  op_ms exo_cy false [[0]; [2; 1]] = Ok exo_ms /\ exists V, applied 3 exo_ms exo_v V.
Proof.
  split; [exists 0, [[2; 1]]; split; [reflexivity|discriminate]|]. split; [qok|]. split; [exact I|]. split; [reflexivity|].
  eexists. appl.
Qed.
(** the scalars the gates are built with satisfy the hypothesis *)
Theorem C06_scalars : forall phi m negate,
  op_scalars_ok H_op /\ op_scalars_ok (R_op phi) /\ op_scalars_ok (Rm_op m negate).
Proof. exact (fun phi m negate => conj H_scalar (conj (R_scalar phi) (Rm_scalar m negate))). Qed.
Print Assumptions C06_scalars.

(** C07: sequential application is groupwise matrix multiplication *)
Theorem C07_compose : forall {K} {OK : OrdRing K} n (b a p : mats_arg K) v W X Y,
  0 <= n -> mats_wf n a -> mats_wf n b -> mats_wf n p -> disjoint_groups n a -> products b a p ->
  applied n a v W -> applied n b W X -> applied n p v Y -> X = Y.
Proof. exact @compose. Qed.
Print Assumptions C07_compose.
Example C07_compose_ex :
  let a := [(KTuple [2; 0], MSwap 1)] in let b := [(KTuple [2; 0], MC y_mat)] in
  let p := [(KTuple [2; 0], MNum 4 4 [(1,0); (0,0); (0,0); (0,0); (0,0); (0,0); (1,0); (0,0);
     (0,0); (0,0); (0,0); (0,-1); (0,0); (0,1); (0,0); (0,0)])] in
  mats_wf 3 (a : mats_arg Z) /\ mats_wf 3 (b : mats_arg Z) /\ mats_wf 3 (p : mats_arg Z) /\
  disjoint_groups 3 (a : mats_arg Z) /\ products b a p /\
  exists W X Y, applied 3 a exo_v W /\ applied 3 b W X /\ applied 3 p exo_v Y.
Proof.
  split; [wf|]. split; [wf|]. split; [wf|]. split; [qok|]. split.
  - split; [reflexivity|]. split; [reflexivity|]. intros [|[|j]] k mb ma mp; cbn [nth_error]; try discriminate.
    intros E1 E2 E3. inversion E1; inversion E2; inversion E3; subst. intros i j Hi Hj. change (0 <= i < 4) in Hi. change (0 <= j < 4) in Hj.
    assert (i = 0 \/ i = 1 \/ i = 2 \/ i = 3) as [->|[->|[->| ->]]] by lia;
    assert (j = 0 \/ j = 1 \/ j = 2 \/ j = 3) as [->|[->|[->| ->]]] by lia; reflexivity.
  - eexists. eexists. eexists. split; [appl|]. split; appl.
Qed.
(** the adjoint dictionary undoes a unitary one *)
Theorem C07_adjoint_undoes : forall {K} {OK : OrdRing K} n (a d : mats_arg K) v W X,
  0 <= n -> mats_wf n a -> mats_wf n d -> disjoint_groups n a -> adjoints a d -> all_unitary a ->
  applied n a v W -> applied n d W X -> X = v.
Proof. exact @dagger_undoes. Qed.
Print Assumptions C07_adjoint_undoes.
Example C07_adjoint_ex : mats_wf 3 exo_y /\ disjoint_groups 3 exo_y /\ adjoints exo_y exo_y /\ all_unitary exo_y /\
  exists W X, applied 3 exo_y exo_v W /\ applied 3 exo_y W X.
Proof.
  split; [wf|]. split; [qok|]. split.
  - split; [reflexivity|]. intros [|[|[|j]]] k ma md; cbn [nth_error exo_y]; try discriminate;
    intros E1 E2; inversion E1; inversion E2; subst; intros i j' Hi Hj; change (0 <= i < 2) in Hi; change (0 <= j' < 2) in Hj;
    assert (i = 0 \/ i = 1) as [->| ->] by lia; assert (j' = 0 \/ j' = 1) as [->| ->] by lia; reflexivity.
  - split; [exact exo_y_unitary|]. eexists. eexists. split; appl.
Qed.
(** an op built with dagger=True undoes the op; this is defined for every op that contains no Swap *)
Theorem C07_dagger_partial : forall {K} {OK : OrdRing K} n (o : op K) groups a d v W X,
  0 <= n -> op_fits o groups -> qubits_ok n (concat groups) -> op_scalars_ok o ->
  op_ms o false groups = Ok a -> op_ms o true groups = Ok d ->
  applied n a v W -> applied n d W X -> X = v.
Proof. exact @op_dagger. Qed.
Print Assumptions C07_dagger_partial.
Theorem C07_dagger_defined : forall {K} {OK : OrdRing K} n (o : op K) groups,
  0 <= n -> op_fits o groups -> qubits_ok n (concat groups) ->
  (exists d, op_ms o true groups = Ok d) <-> has_swap o = false.
Proof. exact @op_dagger_defined. Qed.
Print Assumptions C07_dagger_defined.
Example C07_dagger_ex : op_fits exo_cy [[0]; [2; 1]] /\ op_ms exo_cy false [[0]; [2; 1]] = Ok exo_ms /\
  (exists d, op_ms exo_cy true [[0]; [2; 1]] = Ok d) /\
  op_ms (OC (OR (3, 4))) true [[1]; [0]] = Ok [(KTuple [1; 0], MC (r_mat (3, -4)))].
Proof.
  split; [exists 0, [[2; 1]]; split; [reflexivity|discriminate]|]. split; [reflexivity|].
  split; [eexists; vm_compute; reflexivity|reflexivity].
Qed.
(** Swap(..., dagger=True) cannot be applied at all *)
Theorem C07_dagger_refuted : exists (o : op Z) groups,
  op_fits o groups /\ qubits_ok 2 (concat groups) /\ op_scalars_ok o /\ op_ms o true groups = Raise AttributeError.
Proof.
  exists (OSwap 1), [[0]; [1]]. split; [exists [0], [1]; auto|]. split; [qok|]. split; [exact I|reflexivity].
Qed.
Print Assumptions C07_dagger_refuted.

(** C08: dictionaries touching disjoint qubits commute and can be merged *)
Theorem C08_commute : forall {K} {OK : OrdRing K} n (a b : mats_arg K) v W X W' X',
  0 <= n -> mats_wf n a -> mats_wf n b ->
  (forall q, In q (touched a) -> ~ In q (touched b)) ->
  applied n a v W -> applied n b W X -> applied n b v W' -> applied n a W' X' -> X = X'.
Proof. exact @commute. Qed.
Print Assumptions C08_commute.
Theorem C08_merge : forall {K} {OK : OrdRing K} n (a b : mats_arg K) v W X Y,
  0 <= n -> mats_wf n a -> mats_wf n b -> mats_wf n (a ++ b) ->
  (forall q, In q (touched a) -> ~ In q (touched b)) ->
  applied n a v W -> applied n b W X -> applied n (a ++ b) v Y -> X = Y.
Proof. exact @merge. Qed.
Print Assumptions C08_merge.
Example C08_ex : mats_wf 3 exo_y /\ mats_wf 3 exo_z /\ mats_wf 3 (exo_y ++ exo_z) /\
  (forall q, In q (touched exo_y) -> ~ In q (touched exo_z)) /\
  exists W X W' X' Y, applied 3 exo_y exo_v W /\ applied 3 exo_z W X /\ applied 3 exo_z exo_v W' /\
    applied 3 exo_y W' X' /\ applied 3 (exo_y ++ exo_z) exo_v Y.
Proof.
  split; [wf|]. split; [wf|]. split; [wf|]. split; [cbn; intuition lia|].
  do 5 eexists. split; [appl|]. split; [appl|]. split; [appl|]. split; appl.
Qed.

(** C09: order of the groups in the dictionary, order of the indices in a group *)
Theorem C09_group_order : forall {K} {OK : OrdRing K} n (a b : mats_arg K) v W X,
  0 <= n -> mats_wf n a -> Permutation a b -> applied n a v W -> applied n b v X -> W = X.
Proof. exact @order_groups. Qed.
Print Assumptions C09_group_order.
Theorem C09_index_order : forall {K} {OK : OrdRing K} n (a b : mats_arg K) v W X,
  0 <= n -> mats_wf n a -> mats_wf n b -> Forall2 reordered a b -> applied n a v W -> applied n b v X -> W = X.
Proof. exact @order_indices. Qed.
Print Assumptions C09_index_order.
(** controlled-Y with the control listed last *)
Definition exo_yc : mat Z := MNum 4 4
  [(1,0); (0,0); (0,0); (0,0); (0,0); (0,0); (0,0); (0,-1); (0,0); (0,0); (1,0); (0,0); (0,0); (0,1); (0,0); (0,0)].
Example C09_ex :
  mats_wf 3 [(KTuple [2; 0], MC y_mat)] /\ mats_wf 3 [(KTuple [0; 2], exo_yc)] /\
  Forall2 reordered [(KTuple [2; 0], MC y_mat)] [(KTuple [0; 2], exo_yc)] /\
  exists W, applied 3 [(KTuple [2; 0], MC y_mat)] exo_v W /\ applied 3 [(KTuple [0; 2], exo_yc)] exo_v W.
Proof.
  split; [wf|]. split; [wf|]. split.
  - constructor; [|constructor]. exists [1; 0]. cbn [fst snd key_group]. change (zlen [2; 0]) with 2.
    split; [apply perm_range_ok; reflexivity|]. split; [reflexivity|]. intros i j Hi Hj. change (0 <= i < 4) in Hi. change (0 <= j < 4) in Hj.
    assert (i = 0 \/ i = 1 \/ i = 2 \/ i = 3) as [->|[->|[->| ->]]] by lia;
    assert (j = 0 \/ j = 1 \/ j = 2 \/ j = 3) as [->|[->|[->| ->]]] by lia; reflexivity.
  - eexists. split; appl.
Qed.

(** C10: C(C(...(op))) acts as op where every control bit is 1 and as the identity elsewhere *)
Theorem C10_controlled : forall {K} {OK : OrdRing K} n cs (o : op K) groups m cm v W W0,
  0 <= n -> op_fits o groups -> qubits_ok n (cs ++ concat groups) ->
  op_ms o false groups = Ok m -> op_ms (controlled cs o) false (controlled_groups cs groups) = Ok cm ->
  applied n m v W0 -> applied n cm v W ->
  forall r, 0 <= r < 2 ^ n -> amp W r = if forallb (qbit n r) cs then amp W0 r else amp v r.
Proof. exact @controlled_action. Qed.
Print Assumptions C10_controlled.
Example C10_ex : op_fits (OY : op Z) [[2; 1]] /\ qubits_ok 3 ([0] ++ concat [[2; 1]]) /\
  op_ms (controlled [0] OY) false (controlled_groups [0] [[2; 1]]) = Ok exo_ms /\
  (exists W, applied 3 exo_ms exo_v W) /\
  op_ms (controlled [0; 2] OY) false (controlled_groups [0; 2] [[1]]) = Ok [(KTuple [0; 2; 1], MC (MC (@y_mat Z _)))].
Proof. split; [discriminate|]. split; [qok|]. split; [reflexivity|]. split; [eexists; appl|reflexivity]. Qed.

(** C11: Swap moves the amplitude of each basis state to the one with the register values exchanged *)
Theorem C11_swap : forall {K} {OK : OrdRing K} n (a b : list Z) k (mats : mats_arg K) v W,
  0 <= n -> zlen a = k -> zlen b = k -> qubits_ok n (a ++ b) ->
  op_ms (OSwap k) false [a; b] = Ok mats -> applied n mats v W ->
  forall r s, 0 <= r < 2 ^ n -> 0 <= s < 2 ^ n -> swapped n a b r s -> amp W s = amp v r.
Proof. exact @swap_action. Qed.
Print Assumptions C11_swap.
Theorem C11_swapped_unique : forall n (a b : list Z) r,
  0 <= n -> qubits_ok n (a ++ b) -> zlen a = zlen b -> 0 <= r < 2 ^ n ->
  exists! s, 0 <= s < 2 ^ n /\ swapped n a b r s.
Proof. exact swap_exists. Qed.
Print Assumptions C11_swapped_unique.
Theorem C11_swap_twice : forall {K} {OK : OrdRing K} n (a b : list Z) k (mats : mats_arg K) v W X,
  0 <= n -> zlen a = k -> zlen b = k -> qubits_ok n (a ++ b) ->
  op_ms (OSwap k) false [a; b] = Ok mats -> applied n mats v W -> applied n mats W X -> X = v.
Proof. exact @swap_twice. Qed.
Print Assumptions C11_swap_twice.
Example C11_ex : qubits_ok 3 ([2] ++ [0]) /\
  op_ms (OSwap 1) false [[2]; [0]] = Ok [(KTuple [2; 0], @MSwap Z 1)] /\ swapped 3 [2] [0] 1 4 /\
  (exists W, applied 3 [(KTuple [2; 0], MSwap 1)] exo_v W /\ amp W 4 = amp exo_v 1).
Proof.
  split; [qok|]. split; [reflexivity|]. split.
  - split; [reflexivity|]. split; [reflexivity|]. intros q Hq H1 H2.
    assert (q = 0 \/ q = 1 \/ q = 2) as [->|[->| ->]] by lia; [exfalso; apply H2; left; auto|reflexivity|exfalso; apply H1; left; auto].
  - eexists. split; [appl|]. reflexivity.
Qed.

(** C12: every single-qubit op applies its textbook matrix to each listed qubit *)
Theorem C12_gates : forall {K} {OK : OrdRing K} n (o : op K) g groups mats v W,
  0 <= n -> gate_of o = Some g -> qubits_ok n (concat groups) ->
  op_ms o false groups = Ok mats -> applied n mats v W ->
  forall r, 0 <= r < 2 ^ n -> amp W r = apply_each n g (concat groups) (amp v) r.
Proof. exact @gate_action. Qed.
Print Assumptions C12_gates.
(** H over the reals; R(phi) and Rm(m) as phases *)
Theorem C12_H : forall n groups mats v W,
  0 <= n -> qubits_ok n (concat groups) -> op_ms H_op false groups = Ok mats -> applied n mats v W ->
  forall r, 0 <= r < 2 ^ n -> amp W r = apply_each n (gate_H (1 / sqrt 2)%R) (concat groups) (amp v) r.
Proof. exact H_action. Qed.
Print Assumptions C12_H.
Theorem C12_R_phase : forall n phi groups mats v W,
  0 <= n -> qubits_ok n (concat groups) -> op_ms (R_op phi) false groups = Ok mats -> applied n mats v W ->
  forall r, 0 <= r < 2 ^ n ->
  amp W r = ((cos (phi * IZR (ones n (concat groups) r)), sin (phi * IZR (ones n (concat groups) r)))%R * amp v r)%r.
Proof. exact R_phase. Qed.
Print Assumptions C12_R_phase.
Theorem C12_Rm_phase : forall n m (negate : bool) groups mats v W,
  0 <= n -> qubits_ok n (concat groups) -> op_ms (Rm_op m negate) false groups = Ok mats -> applied n mats v W ->
  forall r, 0 <= r < 2 ^ n ->
  let phi := ((if negate then -2 else 2) * PI / powerRZ 2 m * IZR (ones n (concat groups) r))%R in
  amp W r = ((cos phi, sin phi) * amp v r)%r.
Proof. exact Rm_phase. Qed.
Print Assumptions C12_Rm_phase.
Theorem C12_unitary : forall {K} {OK : OrdRing K} (o : op K) groups mats,
  gate_of o <> None -> op_scalars_ok o -> NoDup (concat groups) -> op_ms o false groups = Ok mats -> all_unitary mats.
Proof. exact @unitary_gate. Qed.
Print Assumptions C12_unitary.
Theorem C12_involutions : forall {K} {OK : OrdRing K} n (o : op K) groups mats v W X,
  0 <= n -> self_inverse o -> op_scalars_ok o -> qubits_ok n (concat groups) ->
  op_ms o false groups = Ok mats -> applied n mats v W -> applied n mats W X -> X = v.
Proof. exact @involution. Qed.
Print Assumptions C12_involutions.
Theorem C12_R_inverse : forall n phi groups mats mats' v W X,
  0 <= n -> qubits_ok n (concat groups) ->
  op_ms (R_op phi) false groups = Ok mats -> op_ms (R_op (- phi)%R) false groups = Ok mats' ->
  applied n mats v W -> applied n mats' W X -> X = v.
Proof. exact R_undo. Qed.
Print Assumptions C12_R_inverse.
Example C12_ex : qubits_ok 3 (concat [[2; 1]]) /\ gate_of (OY : op Z) = Some gate_Y /\
  op_ms OY false [[2; 1]] = Ok exo_y /\
  exists W, applied 3 exo_y exo_v W /\ amp W 6 = apply_each 3 gate_Y [2; 1] (amp exo_v) 6 /\ amp W 6 = (5, -23).
Proof. split; [qok|]. split; [reflexivity|]. split; [reflexivity|]. eexists. split; [appl|]. split; vm_compute; reflexivity. Qed.

(** C53: every well-formed op is accepted by both implementations, for every schedule *)
Theorem C53_ops_accepted : forall {K} {OK : OrdRing K} n (o : op K) groups (v out : list (Cx K)) i,
  0 <= n -> op_fits o groups -> qubits_ok n (concat groups) ->
  zlen v = 2 ^ n -> zlen out = 2 ^ n -> impl_sched_ok i (zlen out) ->
  exists mats W, op_ms o false groups = Ok mats /\ kronselect_dot mats v n out 0 0 i = Ok W.
Proof. exact @op_accepted. Qed.
Print Assumptions C53_ops_accepted.
Example C53_ex : op_fits (OC (OSwap 1) : op Z) [[1]; [2]; [0]] /\ qubits_ok 3 (concat [[1]; [2]; [0]]).
Proof. split; [exists 1, [[2]; [0]]; split; [reflexivity|exists [2], [0]; auto]|qok]. Qed.
