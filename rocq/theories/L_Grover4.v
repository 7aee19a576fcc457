(** Grover's search over the reals. *)
From Coq Require Import Reals Lra.
From Verif Require Import Base BaseR S_Bits L_Bits M_Kron S_Kron M_Ops S_Ops M_Feed S_Feed L_Feed M_Func
  M_Measure S_Measure M_Graph S_Graph M_Context S_Context M_ContextR M_Examples S_Examples L_Grover1 L_Grover2 L_Grover3.
Open Scope Z_scope.

Lemma creal_sub_R (a b : R) : creal (a - b)%R = (creal a - creal b)%r.
Proof. change (creal a - creal b)%r with (cxsub (creal a) (creal b)). unfold cxsub, creal. cbn [fst snd]. f_equal. change (0 = 0 - 0)%R. ring. Qed.
Lemma creal_opp_R (a : R) : creal (- a)%R = (- creal a)%r.
Proof. change (- creal a)%r with (cxopp (creal a)). unfold cxopp, creal. cbn [fst snd]. f_equal. change (0 = - 0)%R. ring. Qed.

Lemma sum_const_R : forall (l : list Z) (c : R), sum l (fun _ => c) = (IZR (zlen l) * c)%R.
Proof.
  induction l as [|x l IH]; intros c; cbn [sum]; [change (zlen (@nil Z)) with 0; change (0 = 0 * c)%R; ring|].
  rewrite IH, zlen_cons, plus_IZR. change (c + IZR (zlen l) * c = (IZR (zlen l) + 1) * c)%R. ring.
Qed.
Lemma sum_marked_R N x0 (p q : R) : 0 <= x0 < N -> sum (zrange 0 N) (fun x => if (x =? x0) then p else q) = (p + (IZR N - 1) * q)%R.
Proof.
  intros H. rewrite (sum_ext _ _ (fun x => (q + (if (x =? x0) then (p - q)%R else 0%R))%r)).
  2:{ intros x _. destruct (x =? x0); [change (p = q + (p - q))%R|change (q = q + 0)%R]; ring. }
  rewrite sum_add, sum_const_R, zlen_zrange by lia. rewrite (sum_single _ x0).
  - rewrite Z.eqb_refl, Z.sub_0_r. change (IZR N * q + (p - q) = p + (IZR N - 1) * q)%R. ring.
  - apply zrange_nodup.
  - apply in_zrange; auto.
  - intros y _ Hy. destruct (Z.eqb_spec y x0); [congruence|reflexivity].
Qed.

Section Rotation.
  Variables (k x0 : Z).
  Hypothesis Hk : 0 < k.
  Hypothesis Hx : 0 <= x0 < 2 ^ k.
  Let N := IZR (2 ^ k).
  Let s := c_h consts_R.
  Lemma N_pos : (2 <= N)%R.
  Proof.
    unfold N. apply IZR_le. change 2 with (2 ^ 1) at 1. apply Z.pow_le_mono_r; lia.
  Qed.
  Lemma s_sq : (s * s = / 2)%R.
  Proof.
    unfold s. change (1 / sqrt 2 * (1 / sqrt 2) = / 2)%R. assert (E : (sqrt 2 * sqrt 2 = 2)%R) by (apply sqrt_sqrt; lra).
    assert (sqrt 2 <> 0)%R by (intros H; rewrite H in E; lra).
    replace (1 / sqrt 2 * (1 / sqrt 2))%R with (/ (sqrt 2 * sqrt 2))%R by (field; auto). rewrite E. auto.
  Qed.
  Lemma s_half : (s * s + s * s = 1)%r.
  Proof. change (s * s + s * s = 1)%R. rewrite s_sq. lra. Qed.
  Lemma pow_half : cpow (creal s * creal s)%r (length (zrange 0 (0 + k))) = creal (/ N)%R.
  Proof.
    replace (length (zrange 0 (0 + k))) with (Z.to_nat k) by (unfold zrange; rewrite map_length, seq_length; lia).
    assert (E : forall m, cpow (creal s * creal s)%r m = creal (/ (IZR (2 ^ Z.of_nat m)))%R).
    { induction m as [|m IH]; cbn [cpow].
      - change (Z.of_nat 0) with 0. change (2 ^ 0) with 1. rewrite Rinv_1. reflexivity.
      - rewrite IH, <- creal_mul, <- creal_mul. f_equal. change (s * s * / IZR (2 ^ Z.of_nat m) = / IZR (2 ^ Z.of_nat (S m)))%R.
        rewrite s_sq, Nat2Z.inj_succ, Z.pow_succ_r, mult_IZR by lia. rewrite Rinv_mult. auto. }
    rewrite E, Z2Nat.id by lia. auto.
  Qed.
  Lemma rotated_R w A B : (forall x, 0 <= x < 2 ^ k -> w x = creal (if (x =? x0) then A else B)) ->
    forall x, 0 <= x < 2 ^ k -> rotated s (zrange 0 (0 + k)) x0 w x =
      creal (let M := ((- A + (N - 1) * B) / N)%R in if (x =? x0) then (- A - 2 * M)%R else (B - 2 * M)%R).
  Proof.
    intros Hw x Hx'. unfold rotated.
    assert (Em : forall y, 0 <= y < 2 ^ k -> marked x0 w y = creal (if (y =? x0) then (- A)%R else B)).
    { intros y Hy. unfold marked. rewrite Hw by auto. destruct (y =? x0); [symmetry; apply creal_opp_R|auto]. }
    assert (EM : mean s (zrange 0 (0 + k)) (marked x0 w) = creal ((- A + (N - 1) * B) / N)%R).
    { unfold mean. match goal with |- (?p * _)%r = _ => replace p with (creal (/ N)%R : Cx R) by (symmetry; exact pow_half) end. replace (zlen (zrange 0 (0 + k))) with k by (rewrite zlen_zrange; lia).
      rewrite (sum_ext _ _ (fun y => creal (if (y =? x0) then (- A)%R else B))) by (intros y Hy; apply in_zrange in Hy; apply Em; auto).
      rewrite sum_creal, sum_marked_R by auto. rewrite <- creal_mul. f_equal. fold N. change (/ N * (- A + (N - 1) * B) = (- A + (N - 1) * B) / N)%R. unfold Rdiv. ring. }
    rewrite EM, Em by auto. cbv zeta. set (M := ((- A + (N - 1) * B) / N)%R).

    assert (E2 : ((1 + 1) * creal M)%r = creal (2 * M)%R).
    { rewrite <- creal_1, <- creal_add, <- creal_mul. f_equal. }
    match goal with |- (_ - ?q)%r = _ => replace q with (creal (2 * M)%R : Cx R) by (symmetry; exact E2) end. etransitivity; [symmetry; apply creal_sub_R|]. destruct (x =? x0); auto.
  Qed.

  Variable t : R.
  Hypothesis Ht : (0 < t < PI / 2)%R.
  Hypothesis Hsin : (sin t = 1 / sqrt N)%R.
  Definition angle (j : nat) : R := ((2 * INR j + 1) * t)%R.
  Lemma sqrt_N : (0 < sqrt N)%R /\ (sqrt N * sqrt N = N)%R.
  Proof. pose proof N_pos. split; [apply sqrt_lt_R0; lra|apply sqrt_sqrt; lra]. Qed.
  Lemma cos_pos : (0 < cos t)%R.
  Proof. apply cos_gt_0; lra. Qed.
  Lemma sin_sq : (N * (sin t * sin t) = 1)%R.
  Proof. destruct sqrt_N as [H1 H2]. rewrite Hsin. rewrite <- H2 at 1. field. lra. Qed.
  Lemma sin_pos : (0 < sin t)%R.
  Proof. rewrite Hsin. destruct sqrt_N. apply Rdiv_lt_0_compat; lra. Qed.
  Lemma angle_S j : angle (S j) = (angle j + 2 * t)%R.
  Proof. unfold angle. rewrite S_INR. ring. Qed.
  Lemma states_R j : forall x, 0 <= x < 2 ^ k -> search_state consts_R k x0 (1 / sqrt N)%R j x =
    creal ((-1) ^ j * (if (x =? x0) then sin (angle j) else cos (angle j) * tan t))%R.
  Proof.
    pose proof cos_pos as Cp. pose proof sin_pos as Spos. pose proof N_pos as Np. pose proof sin_sq as Sq.
    assert (C2 : (cos t * cos t = 1 - sin t * sin t)%R) by (pose proof (sin2_cos2 t) as H; unfold Rsqr in H; lra).
    assert (EN : (N = / (sin t * sin t))%R).
    { apply (Rmult_eq_reg_r (sin t * sin t)); [|nra]. rewrite Sq. field. lra. }
    induction j as [|j IH]; intros x Hx'; cbn [search_state].
    - f_equal. unfold angle. change (INR 0) with 0%R. replace ((2 * 0 + 1) * t)%R with t by ring. cbn [pow]. destruct (x =? x0); [rewrite Hsin; ring|].
      unfold tan. rewrite <- Hsin. field. lra.
    - rewrite (rotated_R _ ((-1) ^ j * sin (angle j))%R ((-1) ^ j * (cos (angle j) * tan t))%R); auto.
      2:{ intros y Hy. rewrite IH by auto. f_equal. destruct (y =? x0); auto. }
      f_equal. cbv zeta. rewrite angle_S, sin_plus, cos_plus, sin_2a, cos_2a_sin. cbn [pow]. rewrite EN. unfold tan.
      set (S := sin (angle j)). set (D := cos (angle j)). set (e := ((-1) ^ j)%R). set (sn := sin t) in *. set (cs := cos t) in *.
      destruct (x =? x0).
      + apply (Rmult_eq_reg_r cs); [|lra].
        replace ((- (e * S) - 2 * ((- (e * S) + (/ (sn * sn) - 1) * (e * (D * (sn / cs)))) / / (sn * sn))) * cs)%R
          with (- e * S * cs + 2 * e * S * (sn * sn) * cs - 2 * e * D * sn * (1 - sn * sn))%R by (field; split; lra).
        rewrite <- C2. ring.
      + apply (Rmult_eq_reg_r cs); [|lra].
        replace ((e * (D * (sn / cs)) - 2 * ((- (e * S) + (/ (sn * sn) - 1) * (e * (D * (sn / cs)))) / / (sn * sn))) * cs)%R
          with (e * D * sn + 2 * e * S * (sn * sn) * cs - 2 * e * D * sn * (1 - sn * sn))%R by (field; split; lra).
        replace (-1 * e * ((D * (1 - 2 * sn * sn) - S * (2 * sn * cs)) * (sn / cs)) * cs)%R with (- e * (D * (1 - 2 * sn * sn) - S * (2 * sn * cs)) * sn)%R by (field; lra).
        ring.
  Qed.
End Rotation.
