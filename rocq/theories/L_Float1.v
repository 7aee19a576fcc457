(** Rounding errors: the calculus, and one row of a matrix product. *)
From Coq Require Import Reals Lra.
From Verif Require Import Base BaseR S_Bits M_Bits L_Bits M_Kron S_Kron L_Kron L_Kron2 M_Ops S_Ops M_Float S_Float.
Local Open Scope Z_scope.

Lemma pow1_ge u k : (0 <= u -> 1 <= (1 + u) ^ k)%R.
Proof. intros. apply pow_R1_Rle. lra. Qed.
Lemma pow1_mono u j k : (0 <= u)%R -> (j <= k)%nat -> ((1 + u) ^ j <= (1 + u) ^ k)%R.
Proof. intros. apply Rle_pow; auto. lra. Qed.

(** ** Approximations: [a] is [x] up to a relative error [G - 1] of a size [W] *)
Section Approx.
  Context {A : Type} {RA : CRing A}.
  Variable N : A -> R.
  Hypothesis N_0 : N 0%r = 0%R.
  Hypothesis N_pos : forall a, (0 <= N a)%R.
  Hypothesis N_add : forall a b, (N (a + b)%r <= N a + N b)%R.
  Variables u w : R.
  Hypothesis Hu : (0 <= u)%R.
  Hypothesis Hw : (0 <= w)%R.
  Add Ring ApproxRing : (@rth A RA).

  Definition approx (G W : R) (a x : A) : Prop := (N x <= W /\ N (a - x)%r <= (G - 1) * W)%R.
  Lemma approx_refl a : approx 1 (N a) a a.
  Proof. split; [lra|]. replace (a - a)%r with (0%r : A) by ring. rewrite N_0. lra. Qed.
  Lemma approx_size G W a x : approx G W a x -> (N a <= G * W)%R.
  Proof.
    intros [H1 H2]. pose proof (N_add (a - x)%r x) as H. replace (a - x + x)%r with a in H by ring. lra.
  Qed.
  Lemma approx_W G W a x : approx G W a x -> (0 <= W)%R.
  Proof. intros [H _]. pose proof (N_pos x). lra. Qed.
  Lemma approx_mono G W G' W' a x : (1 <= G -> G <= G' -> W <= W' -> approx G W a x -> approx G' W' a x)%R.
  Proof.
    intros HG HG' HW H. pose proof (approx_W _ _ _ _ H) as H0. destruct H as [H1 H2]. split; [lra|].
    eapply Rle_trans; [exact H2|]. apply Rmult_le_compat; lra.
  Qed.

  Variable add : A -> A -> A -> Prop.
  Variable k : R.
  Hypothesis Hk : (0 <= k)%R.
  Hypothesis add_err : forall a b v, add a b v -> (N (v - (a + b))%r <= u * (N (a + b)%r + k * w))%R.

  Lemma approx_add G W W' a b x y v : (1 <= G)%R -> approx G W a x -> approx G W' b y -> add a b v ->
    approx (G * (1 + u)) (W + W' + k * w) v (x + y)%r.
  Proof.
    intros HG Ha Hb Hv. pose proof (approx_W _ _ _ _ Ha) as Wa. pose proof (approx_W _ _ _ _ Hb) as Wb.
    pose proof (approx_size _ _ _ _ Ha) as Sa. pose proof (approx_size _ _ _ _ Hb) as Sb.
    apply add_err in Hv. destruct Ha as [A1 A2], Hb as [B1 B2].
    assert (Hkw : (0 <= k * w)%R) by (apply Rmult_le_pos; auto).
    pose proof (N_add x y) as Hxy. split; [lra|].
    pose proof (N_add (v - (a + b))%r ((a - x) + (b - y))%r) as H.
    replace (v - (a + b) + (a - x + (b - y)))%r with (v - (x + y))%r in H by ring.
    pose proof (N_add (a - x)%r (b - y)%r) as H'. pose proof (N_add a b) as Hab.
    assert (u * (N (a + b)%r + k * w) <= u * (G * (W + W') + k * w))%R by (apply Rmult_le_compat_l; lra).
    assert (0 <= (G - 1) * (k * w))%R by (apply Rmult_le_pos; lra).
    assert (0 <= u * ((G - 1) * (k * w)))%R by (apply Rmult_le_pos; lra).
    replace ((G * (1 + u) - 1) * (W + W' + k * w))%R
      with ((G - 1) * W + (G - 1) * W' + u * (G * (W + W') + k * w) + (G - 1) * (k * w) + u * ((G - 1) * (k * w)))%R by ring.
    lra.
  Qed.

  Lemma fsum_approx G (T : Z -> R) t x l s : (1 <= G)%R ->
    (forall i, In i l -> approx G (T i) (t i) (x i)) -> fsum 0%r add t l s ->
    approx (G * (1 + u) ^ length l) (sum l T + INR (length l) * (k * w))%R s (sum l x).
  Proof.
    intros HG. assert (Hkw : (0 <= k * w)%R) by (apply Rmult_le_pos; auto).
    assert (Main : (forall i, In i l -> approx G (T i) (t i) (x i)) -> fsum 0%r add t l s ->
      (l = [] /\ s = 0%r) \/ l <> [] /\ approx (G * (1 + u) ^ length l) (sum l T + (INR (length l) - 1) * (k * w))%R s (sum l x)).
    { intros Hl H. revert Hl. induction H as [|i|l1 l2 l s1 s2 s Hn1 Hn2 HP H1 IH1 H2 IH2 Ha]; intros Hl.
      - left; auto.
      - right. split; [discriminate|]. cbn [length sum INR]. replace (x i + 0)%r with (x i) by ring.
        eapply approx_mono; [exact HG| | |apply Hl; left; auto].
        + pose proof (pow1_ge u 1 Hu). nra.
        + cbv [radd rO RCRing]. lra.
      - right. assert (Hin : forall i, In i (l1 ++ l2) -> In i l) by (intros i Hi; eapply Permutation_in; eauto).
        destruct IH1 as [[? _]|[_ A1]]; [intros; apply Hl, Hin, in_or_app; auto|contradiction|].
        destruct IH2 as [[? _]|[_ A2]]; [intros; apply Hl, Hin, in_or_app; auto|contradiction|].
        split. { intros ->. apply Permutation_sym, Permutation_nil in HP. destruct l1; [contradiction|discriminate]. }
        rewrite <- (sum_perm _ _ x HP), <- (sum_perm _ _ T HP), <- (Permutation_length HP), !sum_app, app_length.
        assert (L1 : (1 <= length l1)%nat) by (destruct l1; [contradiction|cbn; lia]).
        assert (L2 : (1 <= length l2)%nat) by (destruct l2; [contradiction|cbn; lia]).
        set (j := (length l1 + length l2 - 1)%nat).
        pose proof (pow1_ge u (length l1) Hu). pose proof (pow1_ge u (length l2) Hu). pose proof (pow1_ge u j Hu).
        assert (M1 : approx (G * (1 + u) ^ j) (sum l1 T + (INR (length l1) - 1) * (k * w)) s1 (sum l1 x)).
        { eapply approx_mono; [| | |exact A1]; [nra| |lra]. apply Rmult_le_compat_l; [lra|]. apply pow1_mono; auto. lia. }
        assert (M2 : approx (G * (1 + u) ^ j) (sum l2 T + (INR (length l2) - 1) * (k * w)) s2 (sum l2 x)).
        { eapply approx_mono; [| | |exact A2]; [nra| |lra]. apply Rmult_le_compat_l; [lra|]. apply pow1_mono; auto. lia. }
        assert (G1 : (1 <= G * (1 + u) ^ j)%R) by nra.
        pose proof (approx_add _ _ _ _ _ _ _ _ G1 M1 M2 Ha) as Hs.
        eapply approx_mono; [| | |exact Hs].
        + nra.
        + replace (length l1 + length l2)%nat with (S j) by lia. cbn [pow]. lra.
        + rewrite plus_INR. cbv [radd RCRing]. lra. }
    intros Hl H. destruct (Main Hl H) as [[-> ->]|[_ HA]].
    - split; cbn [sum length INR]; [rewrite N_0|replace (0 - 0)%r with (0%r : A) by ring; rewrite N_0];
        cbv [rO RCRing]; cbn [pow]; nra.
    - pose proof (pow1_ge u (length l) Hu). eapply approx_mono; [| | |exact HA]; [nra|lra|]. lra.
  Qed.
End Approx.

(** ** Complex numbers *)
Lemma cabs1_pos z : (0 <= cabs1 z)%R.
Proof. unfold cabs1. pose proof (Rabs_pos (fst z)). pose proof (Rabs_pos (snd z)). lra. Qed.
Lemma cabs1_0 : cabs1 0%r = 0%R.
Proof. change (Rabs 0 + Rabs 0 = 0)%R. rewrite Rabs_R0. lra. Qed.
Lemma cabs1_1 : cabs1 1%r = 1%R.
Proof. change (Rabs 1 + Rabs 0 = 1)%R. rewrite Rabs_R0, Rabs_R1. lra. Qed.
Lemma cabs1_add a b : (cabs1 (a + b)%r <= cabs1 a + cabs1 b)%R.
Proof.
  destruct a as [a a'], b as [b b']. change (Rabs (a + b) + Rabs (a' + b') <= Rabs a + Rabs a' + (Rabs b + Rabs b'))%R.
  pose proof (Rabs_triang a b). pose proof (Rabs_triang a' b'). lra.
Qed.
Lemma cabs1_mul a b : (cabs1 (a * b)%r <= cabs1 a * cabs1 b)%R.
Proof.
  destruct a as [a a'], b as [b b'].
  change (Rabs (a * b - a' * b') + Rabs (a * b' + a' * b) <= (Rabs a + Rabs a') * (Rabs b + Rabs b'))%R.
  pose proof (Rabs_triang (a * b) (- (a' * b'))) as H1. pose proof (Rabs_triang (a * b') (a' * b)) as H2.
  rewrite Rabs_Ropp in H1. rewrite !Rabs_mult in *. unfold Rminus. lra.
Qed.

Section FloatErr.
  Variables u w : R.
  Hypothesis Hu : (0 <= u)%R.
  Hypothesis Hw : (0 <= w)%R.

  Lemma fadd_err a b v : fadd u w a b v -> (cabs1 (v - (a + b))%r <= u * (cabs1 (a + b)%r + 2 * w))%R.
  Proof.
    intros [H1 H2]. unfold rounds in *. destruct a as [a a'], b as [b b'], v as [v v']. cbn [fst snd] in *.
    change (Rabs (v - (a + b)) + Rabs (v' - (a' + b')) <= u * (Rabs (a + b) + Rabs (a' + b') + 2 * w))%R. lra.
  Qed.

  Lemma rounds2 x y p q v (s : R) : (s = 1 \/ s = -1)%R -> rounds u w x p -> rounds u w y q -> rounds u w (p + s * q) v ->
    (Rabs (v - (x + s * y)) <= ((1 + u) ^ 2 - 1) * (Rabs x + Rabs y + 2 * w))%R.
  Proof.
    unfold rounds. intros Hs Hp Hq Hv.
    assert (Es : Rabs s = 1%R) by (destruct Hs as [-> | ->]; unfold Rabs; destruct Rcase_abs; lra).
    pose proof (Rabs_triang (v - (p + s * q)) ((p - x) + s * (q - y))) as T1.
    replace (v - (p + s * q) + (p - x + s * (q - y)))%R with (v - (x + s * y))%R in T1 by ring.
    pose proof (Rabs_triang (p - x) (s * (q - y))) as T2. rewrite Rabs_mult, Es in T2.
    pose proof (Rabs_triang p (s * q)) as T3. rewrite Rabs_mult, Es in T3.
    pose proof (Rabs_triang (p - x) x) as T4. replace (p - x + x)%R with p in T4 by ring.
    pose proof (Rabs_triang (q - y) y) as T5. replace (q - y + y)%R with q in T5 by ring.
    pose proof (Rabs_pos x). pose proof (Rabs_pos y).
    assert (u * (Rabs (p + s * q) + w) <= u * ((Rabs x + u * (Rabs x + w)) + (Rabs y + u * (Rabs y + w)) + w))%R
      by (apply Rmult_le_compat_l; lra).
    assert (0 <= u * w)%R by (apply Rmult_le_pos; auto).
    cbn [pow]. nra.
  Qed.
  Lemma fmul_err a b v : fmul u w a b v -> (cabs1 (v - a * b)%r <= ((1 + u) ^ 2 - 1) * (cabs1 a * cabs1 b + 4 * w))%R.
  Proof.
    intros (rr & ii & ri & ir & H1 & H2 & H3 & H4 & H5 & H6).
    assert (E1 := rounds2 _ _ rr ii (fst v) (-1) (or_intror eq_refl) H1 H2).
    assert (E2 := rounds2 _ _ ri ir (snd v) 1 (or_introl eq_refl) H3 H4).
    replace (rr + -1 * ii)%R with (rr - ii)%R in E1 by ring. replace (ri + 1 * ir)%R with (ri + ir)%R in E2 by ring.
    specialize (E1 H5). specialize (E2 H6). clear - E1 E2.
    destruct a as [a a'], b as [b b'], v as [v v']. cbn [fst snd] in *.
    change (Rabs (v - (a * b - a' * b')) + Rabs (v' - (a * b' + a' * b))
      <= ((1 + u) ^ 2 - 1) * ((Rabs a + Rabs a') * (Rabs b + Rabs b') + 4 * w))%R.
    rewrite !Rabs_mult in *.
    replace (v - (a * b - a' * b'))%R with (v - (a * b + -1 * (a' * b')))%R by ring.
    replace (v' - (a * b' + a' * b))%R with (v' - (a * b' + 1 * (a' * b)))%R by ring.
    set (g := ((1 + u) ^ 2 - 1)%R) in *. nra.
  Qed.

  Notation approxC := (approx (A := CR) cabs1).
  Lemma approx_mul G H W E a b x y v : (1 <= G)%R -> (1 <= H)%R -> approxC G W a x -> approxC H E b y -> fmul u w a b v ->
    approxC (G * H * (1 + u) ^ 2) (W * E + 4 * w) v (x * y)%r.
  Proof.
    intros HG HH Ha Hb Hv.
    pose proof (approx_W _ cabs1_pos _ _ _ _ Ha) as Wa. pose proof (approx_W _ cabs1_pos _ _ _ _ Hb) as Wb.
    pose proof (approx_size _ cabs1_add _ _ _ _ Ha) as Sa. pose proof (approx_size _ cabs1_add _ _ _ _ Hb) as Sb.
    apply fmul_err in Hv. destruct Ha as [A1 A2], Hb as [B1 B2].
    pose proof (cabs1_pos x). pose proof (cabs1_pos y). pose proof (cabs1_pos a). pose proof (cabs1_pos b).
    pose proof (cabs1_pos (a - x)%r). pose proof (cabs1_pos (b - y)%r).
    pose proof (cabs1_mul x y) as Mxy.
    assert (HWE : (0 <= W * E)%R) by (apply Rmult_le_pos; auto).
    split. { assert (cabs1 x * cabs1 y <= W * E)%R by (apply Rmult_le_compat; auto). lra. }
    Add Ring CRing1 : (@rth CR _).
    pose proof (cabs1_add (v - a * b)%r ((a - x) * b + x * (b - y))%r) as T1.
    replace (v - a * b + ((a - x) * b + x * (b - y)))%r with (v - x * y)%r in T1 by ring.
    pose proof (cabs1_add ((a - x) * b)%r (x * (b - y))%r) as T2.
    pose proof (cabs1_mul (a - x)%r b) as M1. pose proof (cabs1_mul x (b - y)%r) as M2.
    assert (N1 : (cabs1 (a - x)%r * cabs1 b <= (G - 1) * W * (H * E))%R) by (apply Rmult_le_compat; auto).
    assert (N2 : (cabs1 x * cabs1 (b - y)%r <= W * ((H - 1) * E))%R) by (apply Rmult_le_compat; auto).
    assert (N3 : (cabs1 a * cabs1 b <= (G * W) * (H * E))%R) by (apply Rmult_le_compat; auto).
    set (g := ((1 + u) ^ 2 - 1)%R) in *.
    assert (Hg : (0 <= g)%R) by (unfold g; cbn [pow]; nra).
    assert (N4 : (g * (cabs1 a * cabs1 b + 4 * w) <= g * ((G * W) * (H * E) + 4 * w))%R) by (apply Rmult_le_compat_l; lra).
    replace ((1 + u) ^ 2)%R with (g + 1)%R by (unfold g; ring).
    assert (HGH : (1 <= G * H)%R) by nra.
    assert (0 <= (G * H - 1) * (g + 1) * (4 * w))%R by (repeat apply Rmult_le_pos; lra).
    nra.
  Qed.
End FloatErr.
