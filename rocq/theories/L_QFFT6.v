(** The Fourier transform over the complex numbers. *)
From Coq Require Import Reals Lra.
From Verif Require Import Base BaseR S_Bits L_Bits M_Kron M_Ops S_Ops M_Gates L_Gates M_Graph S_Graph L_Grow1 M_Context M_ContextR S_Context S_ContextR
  L_Alg L_Fourier L_Context1 L_Context2 L_Context3 L_Context4 L_Context5 L_Context6 L_QFFT1 L_QFFT2 L_QFFT3 L_QFFT4 L_QFFT5.
Local Open Scope Z_scope.

Definition root_R (m : Z) : Cx R := cis (2 * PI / powerRZ 2 m)%R.
Lemma root_R1 : root_R 1 = (- (1))%r.
Proof.
  unfold root_R. change (powerRZ 2 1) with (2 * 1)%R. replace (2 * PI / (2 * 1))%R with PI by field.
  unfold cis. rewrite cos_PI, sin_PI. change (- (1))%r with (- (1), - 0)%R. f_equal; lra.
Qed.
Lemma powerRZ_succ m : 1 <= m -> powerRZ 2 (m + 1) = (2 * powerRZ 2 m)%R.
Proof. intros H. rewrite powerRZ_add by lra. change (powerRZ 2 1) with (2 * 1)%R. ring. Qed.
Lemma powerRZ_pos' m : powerRZ 2 m <> 0%R.
Proof. apply powerRZ_NOR. lra. Qed.
Lemma root_R2 m : 1 <= m -> (root_R (m + 1) * root_R (m + 1))%r = root_R m.
Proof.
  intros H. unfold root_R. rewrite <- cis_add. f_equal. rewrite powerRZ_succ by auto. field. apply powerRZ_pos'.
Qed.
Lemma cpow_cis t k : cpow (cis t) k = cis (INR k * t)%R.
Proof.
  induction k as [|k IH]; cbn [cpow].
  - change (INR 0) with 0%R. rewrite Rmult_0_l, cis_0. reflexivity.
  - rewrite IH, <- cis_add. f_equal. rewrite S_INR. ring.
Qed.
Lemma powerRZ_IZR k : 0 <= k -> powerRZ 2 k = IZR (2 ^ k).
Proof. intros H. rewrite <- (Z2Nat.id k) by auto. rewrite <- pow_powerRZ. rewrite pow_IZR. f_equal. Qed.
Lemma cpow_h k : cpow (creal (1 / sqrt 2)%R) k = (1 / sqrt (IZR (2 ^ Z.of_nat k)), 0)%R.
Proof.
  induction k as [|k IH].
  - change (2 ^ Z.of_nat 0) with 1. rewrite sqrt_1. cbn [cpow]. unfold Rdiv. rewrite RinvN1 || idtac.
    cbv [rI CxRing cx1 RCRing or_ring ROrdRing]. cbn. f_equal. field.
  - cbn [cpow]. rewrite IH. rewrite Nat2Z.inj_succ, Z.pow_succ_r by lia. rewrite mult_IZR, sqrt_mult_alt by lra.
    assert (sqrt (IZR (2 ^ Z.of_nat k)) <> 0)%R. { apply Rgt_not_eq, sqrt_lt_R0. apply IZR_lt. apply Z.pow_pos_nonneg; lia. }
    assert (sqrt 2 <> 0)%R by (apply Rgt_not_eq, sqrt_lt_R0; lra).
    unfold creal. cbv [rmul CxRing cxmul or_ring ROrdRing RCRing radd rsub rO]. cbn [fst snd]. f_equal; field; auto.
Qed.

Lemma dft_real rev_ qs n v r : dft consts_R root_R rev_ qs n v r = dft_R n qs (if rev_ then qs else rev qs) v r.
Proof.
  unfold dft, fourier, dft_R. cbn [consts_R c_h]. rewrite cpow_h. change (Z.of_nat (length qs)) with (zlen qs). f_equal.
  apply sum_ext. intros x Hx. apply in_zrange in Hx. f_equal. unfold root_R. rewrite cpow_cis. unfold cis.
  set (y := reg n _ r). assert (Hy : 0 <= y) by (unfold y; apply reg_range).
  rewrite INR_IZR_INZ, Z2Nat.id by nia. rewrite powerRZ_IZR by apply zlen_nonneg.
  assert (E : (IZR (x * y) * (2 * PI / IZR (2 ^ zlen qs)) = 2 * PI * IZR (x * y) / IZR (2 ^ zlen qs))%R) by (unfold Rdiv; ring).
  rewrite E. reflexivity.
Qed.
