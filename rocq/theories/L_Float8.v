(** Rounding errors: results exist, and without rounding they are the exact ones. *)
From Coq Require Import Reals Lra.
From Verif Require Import Base BaseR S_Bits M_Bits L_Bits M_Kron S_Kron L_Kron L_Kron2 L_Kron3 L_Alg M_Ops S_Ops L_Ops1 L_Ops2 L_Ops3 L_Ops4 M_Float S_Float L_Float1 L_Float2 L_Float3 L_Float4 L_Float5 L_Float6.
Local Open Scope Z_scope.

Lemma exact_possible u w mats (vec : list CR) n out ioff ooff sched Res :
  (0 <= u)%R -> (0 <= w)%R -> 0 <= n -> 0 <= ioff -> 0 <= ooff -> mats_wf n mats -> Permutation sched (zrange 0 (zlen out)) ->
  kronselect_dot mats vec n out ioff ooff (Cython sched) = Ok Res -> fkron u w mats vec n (zlen out) ioff ooff Res.
Proof.
  intros Hu Hw Hn Hi Ho HW HP E. destruct (ok_sizes _ _ _ _ _ _ _ _ E) as (H1 & H2 & HS).
  assert (HR := ok_rect _ _ _ _ _ _ _ _ (proj1 HW) E).
  rewrite (kron_partial_correct mats vec n out ioff ooff (Cython sched) Res); auto.
  apply fkron_exact; auto. apply zlen_nonneg.
Qed.

Lemma cabs1_zero (z : CR) : (cabs1 z <= 0)%R -> z = (0, 0)%R.
Proof.
  destruct z as [a b]. unfold cabs1. cbn [fst snd]. intros H. pose proof (Rabs_pos a). pose proof (Rabs_pos b).
  f_equal; [destruct (Req_EM_T a 0) as [|Hn] | destruct (Req_EM_T b 0) as [|Hn]]; auto; exfalso; pose proof (Rabs_pos_lt _ Hn); lra.
Qed.
Lemma exact_unique w mats (vec : list CR) n out ioff ooff sched Res out' :
  (0 <= w)%R -> 0 <= n -> 0 <= ioff -> 0 <= ooff -> mats_wf n mats -> Permutation sched (zrange 0 (zlen out)) ->
  kronselect_dot mats vec n out ioff ooff (Cython sched) = Ok Res -> fkron 0 w mats vec n (zlen out) ioff ooff out' -> out' = Res.
Proof.
  intros Hw Hn Hi Ho HW HP E HK. destruct (fkron_inv 0 w n mats vec (zlen out) ioff ooff out' Hn HW HK) as (_ & HL & _).
  rewrite (kron_partial_correct mats vec n out ioff ooff (Cython sched) Res); auto. unfold kron_result.
  pose proof (zlen_nonneg out). apply (list_eq_znth (0%r : CR)); [rewrite zlen_map, zlen_zrange; lia|]. rewrite HL. intros r Hr.
  rewrite znth_map_zrange by lia. rewrite Z.add_0_l.
  pose proof (fkron_row 0 w (Rle_refl 0) Hw n mats vec (zlen out) ioff ooff out' r Hn Ho HW HK Hr) as D.
  rewrite Rplus_0_r, pow1, Rminus_eq_0, Rmult_0_l in D. apply cabs1_zero in D.
  set (a := znth 0%r out' r) in *. set (b := kron_apply n (mats_groups mats) (slice_at ioff vec) (r + ooff)) in *.
  change (a = b). destruct a as [a a'], b as [b b']. change ((a - b, a' - b')%R = (0, 0)%R) in D. injection D as D1 D2. f_equal; lra.
Qed.

(** a dictionary the extension accepts for the whole state *)
Definition accepts (n : Z) (mats : mats_arg R) : Prop :=
  mats_wf n mats /\ (forall km, In km mats -> shape_ok km) /\ rectangular (map fst (mats_groups mats)) = true.
Lemma fkron_all_exists u w n ms : forall v, (0 <= u)%R -> (0 <= w)%R -> 0 <= n -> zlen v = 2 ^ n -> Forall (accepts n) ms ->
  exists V, fkron_all u w n ms v V.
Proof.
  induction ms as [|m ms IH]; intros v Hu Hw Hn Hv HA; [exists v; reflexivity|].
  inversion HA as [|? ? (HW & HS & HR) HA']; subst.
  destruct (IH (kron_result n m v 0 0 (2 ^ n)) Hu Hw Hn) as (V & HV).
  - unfold kron_result. rewrite zlen_map, zlen_zrange; [lia|]. apply Z.pow_nonneg; lia.
  - exact HA'.
  - exists V, (kron_result n m v 0 0 (2 ^ n)). split; auto. apply fkron_exact; auto; try lia; apply Z.pow_nonneg; lia.
Qed.
Lemma op_accepts n (o : op R) groups mats :
  0 <= n -> op_fits o groups -> qubits_ok n (concat groups) -> op_ms o false groups = Ok mats -> accepts n mats.
Proof.
  intros Hn HF HQ HM. apply op_ms_plain in HM. destruct (op_mats_ok n o groups Hn HF HQ) as (mats' & E & H1 & H2 & _ & H3 & _).
  rewrite HM in E. injection E as <-. split; auto.
Qed.
Lemma applied_all_exists n ms : forall v, 0 <= n -> zlen v = 2 ^ n -> Forall (accepts n) ms -> exists V, applied_all n ms v V.
Proof.
  induction ms as [|m ms IH]; intros v Hn Hv HA; [exists v; reflexivity|].
  inversion HA as [|? ? (HW & HS & HR) HA']; subst.
  assert (P : 0 <= 2 ^ n) by (apply Z.pow_nonneg; lia).
  assert (Hx : exists W, applied n m v W).
  { destruct (proj2 (kron_accept_py m v n v 0 0 Hn (Z.le_refl 0) (Z.le_refl 0) HW)) as (W & E); [repeat split; auto; lia|].
    exists W. split; auto. exists v, Python. repeat split; auto. }
  destruct Hx as (W & HWa). destruct (applied_spec n m v W Hn HW HWa) as (_ & LW & _).
  destruct (IH W Hn LW HA') as (V & HV). exists V, W. auto.
Qed.

(** operations with one matrix on at most two qubits, on doubles *)
Lemma step_error_double n mats : 0 <= n <= 900 -> length mats = 1%nat -> (width mats <= 2)%nat ->
  (step_error (/ 2 ^ 53) (/ 2 ^ 969) (/ 2 ^ 49) n mats <= / 2 ^ 45)%R.
Proof.
  intros Hn HL HW. unfold step_error. cbv zeta. rewrite HL.
  assert (HN : (2 ^ width mats <= 4)%nat) by (change 4%nat with (2 ^ 2)%nat; apply Nat.pow_le_mono_r; lia).
  set (N := (2 ^ width mats)%nat) in *. set (u := (/ 2 ^ 53)%R).
  assert (Hu : (0 < u)%R) by (apply Rinv_0_lt_compat, pow_lt; lra).
  assert (Hu2 : (u <= / 1000000)%R) by (apply Rinv_le_contravar; lra).
  assert (E49 : (/ 2 ^ 49 = 16 * u)%R) by (unfold u; field).
  assert (E45 : (/ 2 ^ 45 = 256 * u)%R) by (unfold u; field).
  assert (HT : (6 * / 2 ^ 969 * IZR (2 ^ n) <= / 1000)%R).
  { assert (E : (IZR (2 ^ n) <= 2 ^ 900)%R).
    { rewrite (pow_IZR 2 900). replace (Z.of_nat 900) with 900 by reflexivity.
      apply IZR_le, Z.pow_le_mono_r; lia. }
    assert (E2 : (/ 2 ^ 969 = / 2 ^ 900 * / 2 ^ 69)%R).
    { rewrite <- Rinv_mult, <- pow_add. reflexivity. }
    rewrite E2. assert (P : (0 < 2 ^ 900)%R) by (apply pow_lt; lra). set (B := (2 ^ 900)%R) in *.
    assert (P2 : (0 < / B)%R) by (apply Rinv_0_lt_compat; auto).
    apply Rle_trans with (6 * (/ B * / 2 ^ 69) * B)%R.
    - apply Rmult_le_compat_l; auto. assert (0 < / 2 ^ 69)%R by (apply Rinv_0_lt_compat, pow_lt; lra).
      pose proof (Rmult_lt_0_compat _ _ P2 H). lra.
    - replace (6 * (/ B * / 2 ^ 69) * B)%R with (6 * / 2 ^ 69)%R by (field; apply Rgt_not_eq; auto).
      lra. }
  assert (HT0 : (0 <= 6 * / 2 ^ 969 * IZR (2 ^ n))%R).
  { apply Rmult_le_pos; [|apply IZR_le, Z.pow_nonneg; lia]. apply Rmult_le_pos; [lra|]. apply Rlt_le, Rinv_0_lt_compat, pow_lt; lra. }
  assert (Hw : (0 <= 8 * / 2 ^ 969 <= / 1000)%R).
  { assert (E : (/ 2 ^ 969 <= / 2 ^ 13)%R) by (apply Rinv_le_contravar; [apply pow_lt; lra|apply Rle_pow; [lra|lia]]).
    assert (0 < / 2 ^ 969)%R by (apply Rinv_0_lt_compat, pow_lt; lra).
    assert (8 * / 2 ^ 13 <= / 1000)%R by lra. lra. }
  set (w8 := (8 * / 2 ^ 969)%R) in *. set (T := (6 * / 2 ^ 969 * IZR (2 ^ n))%R) in *. rewrite E49, E45.
  assert (HP : (((1 + 16 * u) ^ 1 * (1 + u) ^ (2 * 1 + 2 + N) - 1) <= 25 * u)%R).
  { assert (A : ((1 + u) ^ (2 * 1 + 2 + N) <= (1 + u) ^ 8)%R) by (apply Rle_pow; [lra|lia]).
    assert (A2 : ((1 + u) ^ 8 <= 1 + (8 + / 1000) * u)%R).
    { assert (Q1 : ((1 + u) ^ 2 <= 1 + (2 + / 100000) * u)%R) by nra.
      assert (Q2 : ((1 + u) ^ 4 <= 1 + (4 + / 10000) * u)%R).
      { replace ((1 + u) ^ 4)%R with ((1 + u) ^ 2 * (1 + u) ^ 2)%R by ring. assert (0 <= (1 + u) ^ 2)%R by nra. nra. }
      replace ((1 + u) ^ 8)%R with ((1 + u) ^ 4 * (1 + u) ^ 4)%R by ring. assert (0 <= (1 + u) ^ 4)%R by (apply pow_le; lra). nra. }
    rewrite pow_1. assert (P : ((1 + 16 * u) * (1 + u) ^ (2 * 1 + 2 + N) <= (1 + 16 * u) * (1 + (8 + / 1000) * u))%R)
      by (apply Rmult_le_compat_l; lra). nra. }
  assert (HP0 : (0 <= (1 + 16 * u) ^ 1 * (1 + u) ^ (2 * 1 + 2 + N) - 1)%R).
  { rewrite pow_1. assert (1 <= (1 + u) ^ (2 * 1 + 2 + N))%R by (apply pow_R1_Rle; lra). nra. }
  set (D := ((1 + 16 * u) ^ 1 * (1 + u) ^ (2 * 1 + 2 + N) - 1)%R) in *.
  assert (HI : (0 <= INR N <= 4)%R) by (split; [apply pos_INR|apply (le_INR N 4) in HN; cbn in HN; lra]).
  replace ((3 / 2) ^ (1 + 1))%R with (9 / 4)%R by (cbn; field).
  assert (H1 : (0 <= 9 / 4 * (1 + w8) + T <= 5 / 2)%R) by lra.
  assert (H2 : (0 <= D * INR N <= 100 * u)%R) by nra.
  apply Rle_trans with (100 * u * (5 / 2))%R; [apply Rmult_le_compat; lra|lra].
Qed.
Lemma double_gates n ms ms' v v' V V' :
  0 <= n <= 900 -> Forall (fun m => unitary_step n m /\ length m = 1%nat /\ (width m <= 2)%nat) ms -> Forall (mats_wf n) ms' ->
  Forall2 (near (/ 2 ^ 49)) ms ms' -> zlen v' = 2 ^ n -> norm2 n v = 1%R -> applied_all n ms v V ->
  fkron_all (/ 2 ^ 53) (/ 2 ^ 969) n ms' v' V' ->
  (dist n V' V <= (1 + dist n v' v) * (1 + / 2 ^ 45) ^ length ms - 1)%R.
Proof.
  intros Hn HS HW HN Hv H1 HA HK.
  assert (P : forall k, (0 <= / 2 ^ k)%R) by (intros; apply Rlt_le, Rinv_0_lt_compat, pow_lt; lra).
  destruct (run_distance (/ 2 ^ 53) (/ 2 ^ 969) (/ 2 ^ 49) (P 53%nat) (P 969%nat) (P 49%nat) n ms ms' v v' V V') as (D & _); auto; try lia.
  { eapply Forall_impl; [|exact HS]. cbn. tauto. }
  assert (G : (0 <= prod ms (fun m => (1 + step_error (/ 2 ^ 53) (/ 2 ^ 969) (/ 2 ^ 49) n m)%R) <= (1 + / 2 ^ 45) ^ length ms)%R).
  { clear - HS Hn P. induction ms as [|m ms IH]; [cbn [prod length pow]; cbv [rI RCRing]; lra|].
    inversion HS as [|? ? (Hs & HL & HWd) HS']; subst. specialize (IH HS').
    pose proof (step_error_double n m Hn HL HWd). pose proof (step_error_pos (/ 2 ^ 53) (/ 2 ^ 969) (/ 2 ^ 49) (P 53%nat) (P 969%nat) (P 49%nat) n m ltac:(lia)).
    change (length (m :: ms)) with (S (length ms)). rewrite <- (tech_pow_Rmult (1 + / 2 ^ 45)).
    change (prod (m :: ms) (fun m => (1 + step_error (/ 2 ^ 53) (/ 2 ^ 969) (/ 2 ^ 49) n m)%R)) with ((1 + step_error (/ 2 ^ 53) (/ 2 ^ 969) (/ 2 ^ 49) n m) * prod ms (fun m => (1 + step_error (/ 2 ^ 53) (/ 2 ^ 969) (/ 2 ^ 49) n m)%R))%R.
    destruct IH as [I1 I2]. set (s := step_error _ _ _ n m) in *. set (b := (/ 2 ^ 45)%R) in *. clearbody s b. split; [apply Rmult_le_pos; [lra|exact I1]|apply Rmult_le_compat; [lra|exact I1|lra|exact I2]]. }
  assert (0 <= dist n v' v)%R by (rewrite dist_vnorm; apply vnorm_pos).
  set (p := prod ms _) in *. set (q := ((1 + / 2 ^ 45) ^ length ms)%R) in *. clearbody p q.
  assert ((dist n v' v + 1) * p <= (dist n v' v + 1) * q)%R by (apply Rmult_le_compat_l; lra). lra.
Qed.
