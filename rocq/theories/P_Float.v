(** Property C89: results are right up to rounding errors. *)
From Coq Require Import Reals Lra.
From Flocq Require Import Core.
From Verif Require Import Base BaseR S_Bits M_Kron S_Kron M_Ops M_Gates S_Ops S_Measure M_Float S_Float L_Gates L_Float1 L_Float3 L_Float4 L_Float6 L_Float7 L_Float8.
Local Open Scope Z_scope.

(** every output of the extension differs from the exact one by at most (1+u)^(2g+2+2^k) - 1 times the sum of the absolute
    values of the terms of its row (g matrices acting on k qubits) *)
Theorem C89_row : forall u w n mats (vec : list (Cx R)) len ioff ooff out r,
  (0 <= u)%R -> (0 <= w)%R -> 0 <= n -> 0 <= ooff -> mats_wf n mats -> fkron u w mats vec n len ioff ooff out -> 0 <= r < len ->
  (cabs1 (znth 0%r out r - kron_apply n (mats_groups mats) (slice_at ioff vec) (r + ooff)%Z)%r
   <= ((1 + u) ^ (2 * length mats + 2 + 2 ^ width mats) - 1) * row_size w n mats (slice_at ioff vec) (r + ooff)%Z)%R.
Proof. exact (fun u w n mats vec len ioff ooff out r Hu Hw => fkron_row u w Hu Hw n mats vec len ioff ooff out r). Qed.
Print Assumptions C89_row.

(** the exact result is a possible one, and without rounding it is the only one *)
Theorem C89_exact_possible : forall u w mats (vec : list (Cx R)) n out ioff ooff sched Res,
  (0 <= u)%R -> (0 <= w)%R -> 0 <= n -> 0 <= ioff -> 0 <= ooff -> mats_wf n mats -> Permutation sched (zrange 0 (zlen out)) ->
  kronselect_dot mats vec n out ioff ooff (Cython sched) = Ok Res -> fkron u w mats vec n (zlen out) ioff ooff Res.
Proof. exact exact_possible. Qed.
Print Assumptions C89_exact_possible.
Theorem C89_exact_unique : forall w mats (vec : list (Cx R)) n out ioff ooff sched Res out',
  (0 <= w)%R -> 0 <= n -> 0 <= ioff -> 0 <= ooff -> mats_wf n mats -> Permutation sched (zrange 0 (zlen out)) ->
  kronselect_dot mats vec n out ioff ooff (Cython sched) = Ok Res -> fkron 0 w mats vec n (zlen out) ioff ooff out' -> out' = Res.
Proof. exact exact_unique. Qed.
Print Assumptions C89_exact_unique.

(** a sequence of operations: the matrices are stored with errors of at most delta, the state may start with an error *)
Theorem C89_circuit : forall u w delta n ms ms' (v v' V V' : list (Cx R)),
  (0 <= u)%R -> (0 <= w)%R -> (0 <= delta)%R -> 0 <= n -> Forall (unitary_step n) ms -> Forall (mats_wf n) ms' ->
  Forall2 (near delta) ms ms' -> zlen v' = 2 ^ n -> norm2 n v = 1%R -> applied_all n ms v V -> fkron_all u w n ms' v' V' ->
  (dist n V' V + 1 <= (dist n v' v + 1) * prod ms (fun m => (1 + step_error u w delta n m)%R))%R /\ norm2 n V = 1%R /\ zlen V' = 2 ^ n.
Proof. exact (fun u w delta n ms ms' v v' V V' Hu Hw Hd => run_distance u w delta Hu Hw Hd n ms ms' v v' V V'). Qed.
Print Assumptions C89_circuit.

(** on doubles every operation with one matrix on at most two qubits adds at most 2^-45 *)
Theorem C89_double : forall n ms ms' (v v' V V' : list (Cx R)),
  0 <= n <= 900 -> Forall (fun m => unitary_step n m /\ length m = 1%nat /\ (width m <= 2)%nat) ms -> Forall (mats_wf n) ms' ->
  Forall2 (near (/ 2 ^ 49)) ms ms' -> zlen v' = 2 ^ n -> norm2 n v = 1%R -> applied_all n ms v V ->
  fkron_all (/ 2 ^ 53) (/ 2 ^ 969) n ms' v' V' ->
  (dist n V' V <= (1 + dist n v' v) * (1 + / 2 ^ 45) ^ length ms - 1)%R.
Proof. exact double_gates. Qed.
Print Assumptions C89_double.

(** probabilities reported for a state at some distance of the exact one *)
Theorem C89_probabilities : forall u w n indices (v v' : list (Cx R)) ps m,
  (0 <= u)%R -> (0 <= w)%R ->
  0 <= n -> qubits_ok n indices -> zlen v' = 2 ^ n -> norm2 n v = 1%R -> fprobs u w indices n v' ps -> 0 <= m < 2 ^ zlen indices ->
  (Rabs (znth 0 ps m - marginal n (rev indices) (amp_at 0 v) m)
   <= (2 + dist n v' v) * dist n v' v
      + ((1 + u) ^ (5 + 2 ^ Z.to_nat n) - 1) * ((1 + dist n v' v) ^ 2 + 2 * w * IZR (2 ^ n)))%R.
Proof. exact (fun u w n indices v v' ps m Hu Hw => probabilities_close u w Hu Hw n indices v v' ps m). Qed.
Print Assumptions C89_probabilities.

(** doubles rounded to nearest satisfy the model of rounding, also when results below 2^-1022 are replaced by 0 *)
Theorem C89_rounding : forall choice x,
  rounds (bpow radix2 (-53)) (bpow radix2 (-1022)) x (round radix2 (FLT_exp (-1074) 53) (Znearest choice) x).
Proof. exact double_rounds. Qed.
Print Assumptions C89_rounding.
Theorem C89_rounding_flush : forall choice x v,
  let r := round radix2 (FLT_exp (-1074) 53) (Znearest choice) x in
  v = r \/ (Rabs r < bpow radix2 (-1022))%R /\ v = 0%R -> rounds (bpow radix2 (-53)) (bpow radix2 (-969)) x v.
Proof. exact double_flush. Qed.
Print Assumptions C89_rounding_flush.

(** H on qubit 0 with the double nearest to 1/sqrt 2, then a controlled not *)
Definition exf_h : R := (6369051672525773 / 9007199254740992)%R.
Definition exf_ms (h : R) : list (mats_arg R) := [[(KInt 0, h_mat h)]; [(KTuple [0; 1], MC not_mat)]].
Definition exf_v : list (Cx R) := [(1, 0); (0, 0); (0, 0); (0, 0)]%R.
Lemma exf_near : Forall2 (near (/ 2 ^ 49)) (exf_ms (1 / sqrt 2)%R) (exf_ms exf_h).
Proof.
  assert (H2 : (0 < sqrt 2)%R) by (apply sqrt_lt_R0; lra). pose proof (sqrt_sqrt 2 ltac:(lra)) as E2.
  assert (HB : (Rabs (exf_h - 1 / sqrt 2) <= / 2 ^ 49)%R).
  { assert (E : (1 / sqrt 2 = sqrt 2 / 2)%R) by (apply Rmult_eq_reg_r with (sqrt 2); [field_simplify; lra|lra]).
    rewrite E. unfold exf_h. assert (L1 : (sqrt 2 <= 2 * (6369051672525773 / 9007199254740992) + / 2 ^ 49)%R) by (apply sq_le; lra).
    assert (L2 : (2 * (6369051672525773 / 9007199254740992) - / 2 ^ 49 <= sqrt 2)%R) by (apply sq_le; lra).
    apply Rabs_le. lra. }
  constructor; [|constructor; [|constructor]]; (split; [reflexivity|]).
  - intros j k m m' E E'. destruct j as [|[|j]]; [|discriminate|discriminate]. injection E as <- <-. injection E' as <-. cbv zeta.
    intros a b Ha Hb. change (2 ^ zlen (key_group (KInt 0))) with 2 in *.
    assert (Z0 : forall x y : R, (Rabs (x - y) <= / 2 ^ 49)%R -> (cabs1 ((x, 0) - (y, 0))%r <= / 2 ^ 49)%R).
    { intros x y H. change (Rabs (x - y) + Rabs (0 - 0) <= / 2 ^ 49)%R. rewrite (Rminus_eq_0 0), Rabs_R0. lra. }
    set (h := (1 / sqrt 2)%R) in *.
    assert (EM : forall x : R, h_mat x = MNum 2 2 [(x, 0); (x, 0); (x, 0); (- x, 0)]%R).
    { intros x. cbv -[Rplus Rmult Ropp Rminus IZR R]. repeat match goal with |- MNum _ _ _ = _ => f_equal | |- _ :: _ = _ => f_equal | |- (_, _) = _ => f_equal end; ring. }
    rewrite !EM. assert (HN : (Rabs (- exf_h - - h) <= / 2 ^ 49)%R) by (replace (- exf_h - - h)%R with (- (exf_h - h))%R by ring; rewrite Rabs_Ropp; auto).
    assert (a = 0 \/ a = 1) as [-> | ->] by lia; assert (b = 0 \/ b = 1) as [-> | ->] by lia; apply Z0; assumption.
  - intros j k m m' E E'. destruct j as [|[|j]]; [|discriminate|discriminate]. injection E as <- <-. injection E' as <-. cbv zeta.
    intros a b _ _. set (z := mentry _ _ a b). destruct z as [x y].
    change (Rabs (x - x) + Rabs (y - y) <= / 2 ^ 49)%R. rewrite !Rminus_eq_0, Rabs_R0.
    assert (0 < / 2 ^ 49)%R by (apply Rinv_0_lt_compat, pow_lt; lra). lra.
Qed.
Lemma exf_accepts h : Forall (accepts 2) (exf_ms h).
Proof.
  constructor; [|constructor; [|constructor]].
  - apply (op_accepts 2 (OH h) [[0]]); [lia|discriminate|split; [repeat constructor; cbn; tauto|cbn; intros; lia]|reflexivity].
  - apply (op_accepts 2 (OC ONot) [[0]; [1]]);
      [lia|exists 0, [[1]]; split; [reflexivity|discriminate]|split; [repeat constructor; cbn; lia|cbn; intros; lia]|reflexivity].
Qed.
Example C89_ex : exists V V',
  Forall (fun m => unitary_step 2 m /\ length m = 1%nat /\ (width m <= 2)%nat) (exf_ms (1 / sqrt 2)%R) /\
  Forall (mats_wf 2) (exf_ms exf_h) /\ Forall2 (near (/ 2 ^ 49)) (exf_ms (1 / sqrt 2)%R) (exf_ms exf_h) /\
  norm2 2 exf_v = 1%R /\ applied_all 2 (exf_ms (1 / sqrt 2)%R) exf_v V /\
  fkron_all (/ 2 ^ 53) (/ 2 ^ 969) 2 (exf_ms exf_h) exf_v V' /\ (dist 2 V' V <= (1 + / 2 ^ 45) ^ 2 - 1)%R.
Proof.
  assert (P : forall k, (0 <= / 2 ^ k)%R) by (intros; apply Rlt_le, Rinv_0_lt_compat, pow_lt; lra).
  destruct (applied_all_exists 2 (exf_ms (1 / sqrt 2)%R) exf_v ltac:(lia) eq_refl (exf_accepts _)) as (V & HV).
  destruct (fkron_all_exists (/ 2 ^ 53) (/ 2 ^ 969) 2 (exf_ms exf_h) exf_v (P _) (P _) ltac:(lia) eq_refl (exf_accepts _)) as (V' & HV').
  exists V, V'.
  assert (HU : Forall (fun m => unitary_step 2 m /\ length m = 1%nat /\ (width m <= 2)%nat) (exf_ms (1 / sqrt 2)%R)).
  { constructor; [|constructor; [|constructor]]; (split; [right|split; [reflexivity|vm_compute; lia]]).
    - exists (OH (1 / sqrt 2)%R), [[0]]. split; [discriminate|]. split; [split; [repeat constructor; cbn; tauto|cbn; intros; lia]|].
      split; [exact H_scalar|reflexivity].
    - exists (OC ONot), [[0]; [1]]. split; [exists 0, [[1]]; split; [reflexivity|discriminate]|].
      split; [split; [repeat constructor; cbn; lia|cbn; intros; lia]|split; [exact I|reflexivity]]. }
  assert (HW : Forall (mats_wf 2) (exf_ms exf_h)) by (eapply Forall_impl; [|exact (exf_accepts exf_h)]; intros m (H & _); exact H).
  assert (HN : norm2 2 exf_v = 1%R) by (cbv -[Rplus Rmult Ropp Rminus IZR R]; ring).
  repeat (split; [first [exact HU|exact HW|exact exf_near|exact HN|exact HV|exact HV']|]).
  pose proof (C89_double 2 _ _ exf_v exf_v V V' ltac:(lia) HU HW exf_near eq_refl HN HV HV') as D.
  assert (E0 : dist 2 exf_v exf_v = 0%R) by (unfold dist; transitivity (sqrt 0); [f_equal; cbv -[Rplus Rmult Ropp Rminus IZR R]; ring|apply sqrt_0]).
  rewrite E0 in D. change (length (exf_ms (1 / sqrt 2)%R)) with 2%nat in D. lra.
Qed.
(** probabilities of qubit 0 of the start state, for any rounding *)
Example C89_probabilities_ex u w : (0 <= u)%R -> (0 <= w)%R -> fprobs u w [0] 2 exf_v [1; 0]%R /\ qubits_ok 2 [0].
Proof.
  intros Hu Hw. split; [|split; [repeat constructor; cbn; tauto|cbn; intros; lia]].
  assert (E1 : cx_is0 (1, 0)%R = false).
  { destruct (cx_is0 (1, 0)%R) eqn:E; [|reflexivity]. apply cx_is0_spec in E.
    assert (H : fst (1, 0)%R = 0%R) by (rewrite E; reflexivity). cbn in H. lra. }
  assert (E0 : cx_is0 (0, 0)%R = true) by (apply cx_is0_spec; reflexivity).
  split; [reflexivity|]. exists (fun i => i / 2), (fun _ => 1%R). split.
  - intros i Hi. change (2 ^ 2) with 4 in Hi. assert (i = 0 \/ i = 1 \/ i = 2 \/ i = 3) as [-> | [-> | [-> | ->]]] by lia;
      (split; [reflexivity|]); eexists; (split; [reflexivity|]); rewrite ?E0, ?E1; try discriminate.
    intros _. unfold fnorm2. replace (cnorm2 (1, 0)%R) with 1%R by (cbv -[Rplus Rmult Ropp Rminus IZR R]; ring).
    rewrite Rminus_eq_0, Rabs_R0. apply Rmult_le_pos; [|lra]. assert (1 <= (1 + u) ^ 5)%R by (apply pow_R1_Rle; lra). lra.
  - intros m Hm. change (2 ^ zlen [0]) with 2 in Hm. change (zrange 0 (2 ^ 2)) with [0; 1; 2; 3]. cbn [filter].
    change (znth 0%r exf_v 0) with (1, 0)%R. change (znth 0%r exf_v 1) with (0, 0)%R.
    change (znth 0%r exf_v 2) with (0, 0)%R. change (znth 0%r exf_v 3) with (0, 0)%R. rewrite E0, E1.
    change (0 / 2) with 0. change (1 / 2) with 0. change (2 / 2) with 1. change (3 / 2) with 1. cbn [negb].
    rewrite !andb_false_r, andb_true_r. assert (m = 0 \/ m = 1) as [-> | ->] by lia.
    + apply (fs_one _ _ (fun _ => 1%R)).
    + apply fs_nil.
Qed.
