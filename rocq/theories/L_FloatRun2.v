(** Whole runs with rounding: the initial state. *)
From Coq Require Import Reals Lra.
From Verif Require Import Base BaseR S_Bits M_Bits L_Bits M_Kron S_Kron L_Kron M_Ops S_Ops M_Feed S_Feed L_Feed S_Measure M_Float S_Float L_Float1 L_Float2 L_Float3 L_Float4 L_Float7 M_FloatMeasure S_FloatMeasure L_FloatMeasure1 L_FloatMeasure2 M_FloatRun S_FloatRun L_FloatRun1.
Local Open Scope Z_scope.
Notation fed := (list Z * list CR)%type.

Fixpoint rprod {I} (l : list I) (f : I -> R) : R := match l with [] => 1%R | i :: l => (f i * rprod l f)%R end.
Lemma prod_rprod {I} (l : list I) (f : I -> R) : prod l f = rprod l f.
Proof. induction l as [|i l IH]; [reflexivity|]. cbn [prod rprod]. rewrite IH. reflexivity. Qed.
Lemma rprod_app {I} (l l' : list I) f : rprod (l ++ l') f = (rprod l f * rprod l' f)%R.
Proof. induction l as [|i l IH]; cbn [app rprod]; [ring|]. rewrite IH. ring. Qed.
Lemma rprod_pos {I} (l : list I) f : (forall i, In i l -> (0 <= f i)%R) -> (0 <= rprod l f)%R.
Proof. induction l as [|i l IH]; cbn [rprod]; intros H; [lra|]. apply Rmult_le_pos; [apply H; left; auto|apply IH; intros; apply H; right; auto]. Qed.
Lemma rprod_le {I} (l : list I) f g : (forall i, In i l -> (0 <= f i <= g i)%R) -> (rprod l f <= rprod l g)%R.
Proof.
  induction l as [|i l IH]; cbn [rprod]; intros H; [lra|]. pose proof (H i (or_introl eq_refl)).
  apply Rmult_le_compat; try lra; [apply rprod_pos; intros j Hj; apply (H j (or_intror Hj))|apply IH; intros; apply H; right; auto].
Qed.
Lemma rprod_ge1 {I} (l : list I) f : (forall i, In i l -> (1 <= f i)%R) -> (1 <= rprod l f)%R.
Proof.
  induction l as [|i l IH]; cbn [rprod]; intros H; [lra|]. pose proof (H i (or_introl eq_refl)). assert (1 <= rprod l f)%R by (apply IH; intros; apply H; right; auto). nra.
Qed.

(** ** norms of product states *)
Definition rnorm (a : list CR) : R := sqrt (total a).
Lemma total_pos (a : list CR) : (0 <= total a)%R.
Proof. unfold total. apply sumR_pos. intros. apply cnorm2_pos. Qed.
Lemma rnorm_pos a : (0 <= rnorm a)%R.
Proof. apply sqrt_pos. Qed.
Lemma fed_vnorm n (fs : list fed) : 0 <= n -> feeds_ok n fs -> vnorm n (fed_amp n fs) = rprod fs (fun f => rnorm (snd f)).
Proof.
  intros Hn HF. pose proof (fed_total (K := R) n fs Hn HF) as E. unfold total at 1 in E. rewrite sum_map in E. rewrite prod_rprod in E.
  apply Rsqr_inj; [apply vnorm_pos|apply rprod_pos; intros; apply rnorm_pos|]. unfold Rsqr. rewrite vnorm_sq.
  etransitivity; [exact E|]. clear. induction fs as [|f fs IH]; cbn [rprod]; [ring|]. rewrite IH.
  replace (total (snd f)) with (rnorm (snd f) * rnorm (snd f))%R by (apply sqrt_sqrt, total_pos). ring.
Qed.

Section Diff.
  Context {K : Type} {OK : OrdRing K}.
  Add Ring KRingD : (@rth K _).
  Add Ring CRingD : (@rth (Cx K) _).
  Definition reg_sub (a' a : list (Cx K)) : list (Cx K) := map (fun i => (znth 0 a' i - znth 0 a i)%r) (zrange 0 (zlen a)).
  Lemma fed_amp_sub n (pre r : list (list Z * list (Cx K))) g a' a x : zlen a' = 2 ^ zlen g -> zlen a = 2 ^ zlen g ->
    fed_amp n (pre ++ (g, reg_sub a' a) :: r) x = (fed_amp n (pre ++ (g, a') :: r) x - fed_amp n (pre ++ (g, a) :: r) x)%r.
  Proof.
    intros L' L. unfold fed_amp. rewrite !map_app. cbn [map fst]. destruct (forallb _ _).
    - rewrite !prod_app. cbn [prod fst snd]. unfold reg_sub at 1. pose proof (reg_range n g x).
      rewrite (znth_map_zrange 0%r) by lia. rewrite Z.add_0_l. ring.
    - ring.
  Qed.
End Diff.
Lemma reg_sub_norm (a' a : list CR) : rnorm (reg_sub a' a) = reg_dist a' a.
Proof. unfold rnorm, reg_dist. f_equal. unfold total, reg_sub. rewrite sum_map. reflexivity. Qed.
Lemma zlen_reg_sub (a' a : list CR) : zlen (reg_sub a' a) = zlen a.
Proof. unfold reg_sub. rewrite zlen_map, zlen_zrange by apply zlen_nonneg. lia. Qed.
Lemma reg_dist_pos a' a : (0 <= reg_dist a' a)%R.
Proof. apply sqrt_pos. Qed.

(** norms of lists of amplitudes, as norms of states *)
Lemma rnorm_l2 (a : list CR) : rnorm a = l2 (zrange 0 (zlen a)) (fun i => cnorm (amp a i)).
Proof.
  unfold rnorm, l2. f_equal. etransitivity; [exact (sum_as_range (K := R) a (zlen a) cnorm2 eq_refl)|]. apply sum_ext. intros i _. symmetry. apply cnorm_sq.
Qed.
Lemma rnorm_tri (a' a : list CR) : zlen a' = zlen a -> (rnorm a' <= reg_dist a' a + rnorm a)%R.
Proof.
  intros L. rewrite <- reg_sub_norm, !rnorm_l2, zlen_reg_sub, L. eapply Rle_trans; [|apply l2_add]. apply l2_mono.
  intros i Hi. apply in_zrange in Hi. split; [apply cnorm_pos|].
  assert (E : amp (reg_sub a' a) i = (amp a' i - amp a i)%r) by (unfold amp at 1, reg_sub; rewrite (znth_map_zrange 0%r) by lia; rewrite Z.add_0_l; reflexivity).
  rewrite E. apply cnorm_tri.
Qed.
Lemma rnorm_entry (a : list CR) i : 0 <= i < zlen a -> (cnorm (amp a i) <= rnorm a)%R.
Proof.
  intros Hi. rewrite rnorm_l2. apply sq_le; [apply l2_pos|]. rewrite l2_sq.
  rewrite (zrange_app 0 i (zlen a)), (zrange_app i (i + 1) (zlen a)) by lia.
  change (zrange i (i + 1)) with (zrange i (i + 1)). rewrite !sum_app.
  assert (E : zrange i (i + 1) = [i]) by (rewrite (zrange_snoc i (i + 1)) by lia; replace (i + 1 - 1) with i by lia; unfold zrange; rewrite Z.sub_diag; reflexivity).
  rewrite E. change (@radd R RCRing) with Rplus. rewrite sumR_cons, sumR_nil.
  pose proof (sumsq_pos (zrange 0 i) (fun j => cnorm (amp a j))). pose proof (sumsq_pos (zrange (i + 1) (zlen a)) (fun j => cnorm (amp a j))). lra.
Qed.

Notation same_regs := same_registers.
Definition dists (fs' fs : list fed) : R := rprod (combine fs' fs) (fun p => (1 + reg_dist (snd (fst p)) (snd (snd p)))%R).
Lemma dists_ge1 fs' fs : (1 <= dists fs' fs)%R.
Proof. apply rprod_ge1. intros i _. pose proof (reg_dist_pos (snd (fst i)) (snd (snd i))). lra. Qed.
Lemma same_groups fs' fs : same_regs fs' fs -> map fst fs' = map fst fs.
Proof. induction 1 as [|? ? ? ? [H _] _ IH]; [reflexivity|]. cbn. congruence. Qed.
Lemma feeds_same n pre fs' fs : feeds_ok n (pre ++ fs) -> same_regs fs' fs -> feeds_ok n (pre ++ fs').
Proof.
  intros [H1 H2] HS. split.
  - rewrite map_app, (same_groups _ _ HS), <- map_app. exact H1.
  - intros g a Hin. apply in_app_or in Hin as [Hin|Hin]; [apply H2, in_or_app; auto|].
    assert (Hx : exists a0, In (g, a0) fs /\ zlen a = zlen a0).
    { clear - HS Hin. induction HS as [|[g' a'] [g0 a0] l' l [E L] _ IH]; [destruct Hin|]. cbn [fst snd] in *. destruct Hin as [E'|Hin].
      - injection E' as -> ->. subst. exists a0. split; [left; auto|auto].
      - destruct (IH Hin) as (x & Hx & Lx). exists x. split; [right; auto|auto]. }
    destruct Hx as (a0 & Ha0 & ->). apply H2, in_or_app. auto.
Qed.

Lemma fed_near n : 0 <= n -> forall fs' fs pre, same_regs fs' fs -> feeds_ok n (pre ++ fs) -> (forall g a, In (g, a) fs -> total a = 1%R) ->
  (vnorm n (fun x => (fed_amp n (pre ++ fs') x - fed_amp n (pre ++ fs) x)%r) <= rprod pre (fun f => rnorm (snd f)) * (dists fs' fs - 1))%R.
Proof.
  intros Hn. induction fs' as [|[g' a'] fs' IH]; intros fs pre HS HF H1; inversion HS as [|? [g a] ? fs0 [Eg EL] HS']; subst; cbn [fst snd] in *.
  - unfold dists. cbn [combine rprod]. rewrite Rminus_eq_0, Rmult_0_r. apply Req_le.
    rewrite (vnorm_ext n _ (fun _ => 0%r)).
    + apply Rsqr_eq_0. unfold Rsqr. rewrite vnorm_sq. generalize (zrange 0 (2 ^ n)). intros l. induction l as [|x l IH]; [apply sumR_nil|]. rewrite sumR_cons, IH, cnorm2_R. change (0 * 0 + 0 * 0 + 0 = 0)%R. ring.
    + intros r _. generalize (fed_amp n (pre ++ []) r). intros [x y]. change ((x - x, y - y) = (0, 0))%R. f_equal; ring.
  - subst g'. set (N := rprod pre (fun f => rnorm (snd f))). assert (HN : (0 <= N)%R) by (apply rprod_pos; intros; apply rnorm_pos).
    assert (La : zlen a = 2 ^ zlen g) by (apply (proj2 HF g a), in_or_app; right; left; auto).
    assert (Ha : rnorm a = 1%R) by (unfold rnorm; rewrite (H1 g a (or_introl eq_refl)); apply sqrt_1).
    assert (HF1 : feeds_ok n (pre ++ [(g, a')] ++ fs0)).
    { apply (feeds_same n pre _ ((g, a) :: fs0)); auto. constructor; [split; auto|]. clear. induction fs0; constructor; auto. }
    assert (HF2 : feeds_ok n (pre ++ (g, reg_sub a' a) :: fs0)).
    { apply (feeds_same n pre _ ((g, a) :: fs0)); auto. constructor; [split; [reflexivity|apply zlen_reg_sub]|]. clear. induction fs0; constructor; auto. }
    assert (D1 : (vnorm n (fun x => (fed_amp n ((pre ++ [(g, a')]) ++ fs') x - fed_amp n ((pre ++ [(g, a')]) ++ fs0) x)%r)
      <= rprod (pre ++ [(g, a')]) (fun f => rnorm (snd f)) * (dists fs' fs0 - 1))%R).
    { apply IH; auto; [rewrite <- app_assoc; exact HF1|intros; eapply H1; right; eauto]. }
    assert (D2 : vnorm n (fun x => (fed_amp n (pre ++ (g, a') :: fs0) x - fed_amp n (pre ++ (g, a) :: fs0) x)%r)
      = (N * (reg_dist a' a * rprod fs0 (fun f => rnorm (snd f))))%R).
    { rewrite (vnorm_ext n (fun x => (fed_amp n (pre ++ (g, a') :: fs0) x - fed_amp n (pre ++ (g, a) :: fs0) x)%r) (fed_amp n (pre ++ (g, reg_sub a' a) :: fs0))).
      - rewrite (fed_vnorm n _ Hn HF2), rprod_app. cbn [rprod snd]. rewrite reg_sub_norm. reflexivity.
      - intros x _. symmetry. exact (fed_amp_sub (OK := ROrdRing) n pre fs0 g a' a x (eq_trans EL La) La). }
    assert (E1 : rprod fs0 (fun f => rnorm (snd f)) = 1%R).
    { assert (HH : forall g a, In (g, a) fs0 -> total a = 1%R) by (intros; eapply H1; right; eauto). clear - HH.
      induction fs0 as [|[g a] l IH]; [reflexivity|]. cbn [rprod snd]. rewrite IH by (intros; eapply HH; right; eauto).
      unfold rnorm. rewrite (HH g a (or_introl eq_refl)), sqrt_1. ring. }
    rewrite E1, Rmult_1_r in D2.
    rewrite rprod_app in D1. cbn [rprod snd] in D1. rewrite Rmult_1_r in D1. fold N in D1.
    rewrite <- !app_assoc in D1. cbn [app] in D1.
    apply Rle_trans with (vnorm n (fun x => (fed_amp n (pre ++ (g, a') :: fs') x - fed_amp n (pre ++ (g, a') :: fs0) x)%r)
      + vnorm n (fun x => (fed_amp n (pre ++ (g, a') :: fs0) x - fed_amp n (pre ++ (g, a) :: fs0) x)%r))%R.
    { eapply Rle_trans; [|apply vnorm_add]. apply Req_le, vnorm_ext. intros r _.
      generalize (fed_amp n (pre ++ (g, a') :: fs') r) (fed_amp n (pre ++ (g, a') :: fs0) r) (fed_amp n (pre ++ (g, a) :: fs0) r).
      intros [x x'] [y y'] [z z']. change ((x - z, x' - z') = (x - y + (y - z), x' - y' + (y' - z')))%R. f_equal; ring. }
    rewrite D2. change (dists ((g, a') :: fs') ((g, a) :: fs0)) with ((1 + reg_dist a' a) * dists fs' fs0)%R.
    pose proof (rnorm_tri a' a EL) as T. rewrite Ha in T. pose proof (dists_ge1 fs' fs0).
    assert (N * rnorm a' * (dists fs' fs0 - 1) <= N * (1 + reg_dist a' a) * (dists fs' fs0 - 1))%R.
    { apply Rmult_le_compat_r; [lra|]. apply Rmult_le_compat_l; lra. }
    lra.
Qed.

Lemma cnorm_mul (a b : CR) : cnorm (a * b)%r = (cnorm a * cnorm b)%R.
Proof.
  unfold cnorm. rewrite <- sqrt_mult by apply cnorm2_pos. f_equal. exact (cnorm2_mul (K := R) a b).
Qed.
Lemma Forall2_len {A B} (P : A -> B -> Prop) l l' : Forall2 P l l' -> length l = length l'.
Proof. induction 1; cbn; congruence. Qed.

(** ** the rounded products *)
Section Round.
  Variables u w : R.
  Hypotheses (Hu : (0 <= u)%R) (Hw : (0 <= w)%R).
  Notation approxC := (approx (A := CR) cabs1).

  Definition feed_size (n : Z) (fs : list fed) (x : Z) (W : R) : R :=
    fold_left (fun P f => (P * cabs1 (amp (snd f) (reg n (fst f) x)) + 4 * w)%R) fs W.

  Lemma fedits_inv fl : forall l s0 st, fedits u w fl l s0 st -> NoDup (map fst l) -> (forall x, In x (map fst l) -> 0 <= x < zlen s0) ->
    zlen st = zlen s0 /\ (forall x flips, In (x, flips) l -> ffactors u w fl (enumerate flips) 1%r (znth 0%r st x)) /\
    (forall x, 0 <= x < zlen s0 -> ~ In x (map fst l) -> znth 0%r st x = znth 0%r s0 x).
  Proof.
    induction 1 as [s|index flips l s x s' out HX HP HE IH]; intros ND HR.
    - split; [auto|]. split; [intros ? ? []|auto].
    - cbn [map fst] in *. inversion ND as [|? ? NI ND']; subst. pose proof (HR index (or_introl eq_refl)) as Hi.
      rewrite pyset_ok in HP by auto. injection HP as <-. rewrite zlen_upd in IH.
      destruct (IH ND' (fun y Hy => HR y (or_intror Hy))) as (L & H1 & H2). split; [exact L|]. split.
      + intros y fl' [E|Hin]; [|auto]. injection E as <- <-. rewrite H2 by auto. rewrite znth_upd, Z.eqb_refl by auto. exact HX.
      + intros y Hy Hn. rewrite H2; [|exact Hy|intros Hc; apply Hn; right; exact Hc]. rewrite znth_upd by auto. destruct (Z.eqb_spec y index) as [->|]; [exfalso; apply Hn; left; reflexivity|reflexivity].
  Qed.

  Lemma ffactors_approx n (fs : list fed) X : (forall g a, In (g, a) fs -> zlen a = 2 ^ zlen g) -> forall post pre G W p y x, fs = pre ++ post ->
    (1 <= G)%R -> approxC G W p y ->
    ffactors u w (fed_list fs) (map (fun j => (j, reg n (fst (znth ([], []) fs j)) X)) (zrange (zlen pre) (zlen fs))) p x ->
    approxC (G * (1 + u) ^ (2 * length post)) (feed_size n post X W) x (y * prod post (fun f => amp (snd f) (reg n (fst f) X)))%r.
  Proof.
    intros HL. induction post as [|[g a] post IH]; intros pre G W p y x E HG HA HF.
    - assert (El : zlen pre = zlen fs) by (rewrite E, app_nil_r; reflexivity). rewrite El in HF.
      assert (Ez : zrange (zlen fs) (zlen fs) = []) by (unfold zrange; rewrite Z.sub_diag; reflexivity). rewrite Ez in HF. cbn [map] in HF.
      inversion HF; subst. cbn [length feed_size fold_left prod]. replace (2 * 0)%nat with 0%nat by lia. rewrite pow_O, Rmult_1_r.
      replace (y * 1)%r with y; [exact HA|]. destruct y as [y y']. change ((y, y') = (y * 1 - y' * 0, y * 0 + y' * 1)%R). f_equal; ring.
    - assert (Lf : zlen fs = zlen pre + (1 + zlen post)) by (rewrite E, zlen_app, zlen_cons; lia). pose proof (zlen_nonneg pre). pose proof (zlen_nonneg post).
      rewrite (zrange_cons (zlen pre)) in HF by lia. cbn [map] in HF.
      assert (Ez : znth ([], []) fs (zlen pre) = (g, a)).
      { rewrite E. unfold znth, zlen. destruct (Z.ltb_spec (Z.of_nat (length pre)) 0); [lia|]. rewrite Nat2Z.id, app_nth2, Nat.sub_diag by lia. reflexivity. }
      rewrite Ez in HF. cbn [fst] in HF. inversion HF as [|q fl l0 p0 f a0 p' x0 E1 E2 HM HF']; subst q fl l0 p0 x0.
      unfold fed_list in E1. rewrite (pyget_ok (FArr [])) in E1 by (rewrite zlen_map; lia). injection E1 as <-.
      rewrite (znth_map (fun f => FArr (snd f)) ([], []) (FArr [])) in E2 by lia. rewrite Ez in E2. cbn [snd feed_get] in E2.
      assert (La : zlen a = 2 ^ zlen g) by (apply HL; rewrite E; apply in_or_app; right; left; auto).
      pose proof (reg_range n g X). rewrite (pyget_ok 0%r) in E2 by lia. injection E2 as <-.
      pose proof (approx_mul u w Hu Hw G 1 W (cabs1 (amp a (reg n g X))) p (amp a (reg n g X)) y (amp a (reg n g X)) p' HG ltac:(lra) HA
        (approx_refl cabs1 cabs1_0 _) HM) as HA'.
      rewrite Rmult_1_r in HA'.
      assert (HG' : (1 <= G * (1 + u) ^ 2)%R) by (pose proof (pow1_ge u 2 Hu); nra).
      assert (E' : fs = (pre ++ [(g, a)]) ++ post) by (rewrite <- app_assoc; exact E).
      assert (EL : zlen (pre ++ [(g, a)]) = zlen pre + 1) by (rewrite zlen_app; reflexivity).
      pose proof (IH (pre ++ [(g, a)]) _ _ p' _ x E' HG' HA') as HI. rewrite EL in HI. specialize (HI HF').
      cbn [length prod fst snd]. change (feed_size n ((g, a) :: post) X W) with (feed_size n post X (W * cabs1 (amp a (reg n g X)) + 4 * w)%R).
      replace (G * (1 + u) ^ (2 * S (length post)))%R with (G * (1 + u) ^ 2 * (1 + u) ^ (2 * length post))%R.
      2:{ replace (2 * S (length post))%nat with (2 + 2 * length post)%nat by lia. rewrite pow_add. ring. }
      replace (y * (amp a (reg n g X) * prod post (fun f => amp (snd f) (reg n (fst f) X))))%r
        with (y * amp a (reg n g X) * prod post (fun f => amp (snd f) (reg n (fst f) X)))%r; [exact HI|].
      Add Ring CRing2 : (@rth CR _). ring.
  Qed.

  Lemma feed_size_le n x (M : fed -> R) : forall fs i W A B,
    (forall f, In f fs -> (1 <= M f)%R /\ (cnorm (amp (snd f) (reg n (fst f) x)) <= M f)%R) -> (0 <= A)%R -> (1 <= B)%R -> (0 <= W)%R ->
    (W <= (3 / 2) ^ i * (A + 4 * w * INR i * B))%R ->
    (feed_size n fs x W <= (3 / 2) ^ (i + length fs) * (A * rprod fs (fun f => cnorm (amp (snd f) (reg n (fst f) x))) + 4 * w * INR (i + length fs) * (B * rprod fs M)))%R.
  Proof.
    induction fs as [|f fs IH]; intros i W A B HM HA HB HW HL.
    - cbn [feed_size fold_left length rprod]. rewrite Nat.add_0_r, !Rmult_1_r. exact HL.
    - change (feed_size n (f :: fs) x W) with (feed_size n fs x (W * cabs1 (amp (snd f) (reg n (fst f) x)) + 4 * w)%R).
      destruct (HM f (or_introl eq_refl)) as [M1 M2]. set (z := amp (snd f) (reg n (fst f) x)) in *. set (q := cnorm z) in *.
      pose proof (cnorm_pos z) as Hq. fold q in Hq. pose proof (cabs1_cnorm z) as C1. fold q in C1. pose proof (cabs1_pos z) as C0.
      pose proof (pow_R1_Rle (3 / 2) i ltac:(lra)) as P1. pose proof (pos_INR i) as I0.
      assert (HBM : (1 <= B * M f)%R) by nra.
      assert (HX : (W * cabs1 z + 4 * w <= (3 / 2) ^ S i * (A * q + 4 * w * INR (S i) * (B * M f)))%R).
      { rewrite S_INR, <- tech_pow_Rmult. set (t := ((3 / 2) ^ i)%R) in *.
        apply Rle_trans with (t * (A + 4 * w * INR i * B) * (3 / 2 * q) + 4 * w)%R.
        { apply Rplus_le_compat_r. apply Rmult_le_compat; auto. }
        replace (3 / 2 * t * (A * q + 4 * w * (INR i + 1) * (B * M f)))%R
          with (t * (A + 4 * w * INR i * B) * (3 / 2 * q) + 4 * w + (3 / 2 * t * (4 * w * INR i * B) * (M f - q) + 4 * w * (3 / 2 * t * (B * M f) - 1)))%R by ring.
        assert (0 <= 4 * w * INR i * B)%R by (apply Rmult_le_pos; [apply Rmult_le_pos|]; lra).
        assert (0 <= 3 / 2 * t * (4 * w * INR i * B) * (M f - q))%R by (apply Rmult_le_pos; [apply Rmult_le_pos|]; lra).
        assert (1 <= 3 / 2 * t * (B * M f))%R by nra.
        assert (0 <= 4 * w * (3 / 2 * t * (B * M f) - 1))%R by (apply Rmult_le_pos; lra). lra. }
      eapply Rle_trans; [apply (IH (S i) _ (A * q)%R (B * M f)%R); auto|].
      + intros f' Hf'. apply HM. right. exact Hf'.
      + apply Rmult_le_pos; auto.
      + apply Rplus_le_le_0_compat; [apply Rmult_le_pos; auto|lra].
      + cbn [rprod length]. rewrite <- !Nat.add_succ_comm. fold z q. apply Req_le. ring.
  Qed.

  Lemma fed_rows n (fs : list fed) st : 0 <= n -> feeds_ok n fs -> fmake_state u w n (fed_groups fs) (fed_list fs) st ->
    zlen st = 2 ^ n /\ forall x, 0 <= x < 2 ^ n ->
      amp st x = fed_amp n fs x \/
      fed_amp n fs x = prod fs (fun f => amp (snd f) (reg n (fst f) x)) /\
      (cabs1 (amp st x - fed_amp n fs x)%r <= ((1 + u) ^ (2 * length fs) - 1) * feed_size n fs x 1)%R.
  Proof.
    intros Hn [HF HL] (s0 & edits & E0 & EE & HE). pose proof (Z.pow_nonneg 2 n ltac:(lia)) as P0. pose proof (Z.pow_pos_nonneg 2 n ltac:(lia) Hn) as P1.
    set (Fl := concat (map fst fs)) in *.
    assert (Hs0 : setreg n [] 0 0 = 0) by (apply (setreg_reg n [] 0 0); auto; try lia; (split; [constructor|intros q []])).
    assert (Ecase : fs = [] \/ fs <> []) by (destruct fs; [left; reflexivity|right; discriminate]). destruct Ecase as [->|Hne].
    - cbn in EE. injection EE as <-. inversion HE; subst. cbv zeta in E0. change (zlen (fed_list (@nil fed)) =? 0) with true in E0. cbv iota in E0.
      rewrite pyset_ok in E0 by (rewrite zlen_map, zlen_zrange; lia). injection E0 as <-.
      split; [rewrite zlen_upd, zlen_map, zlen_zrange; lia|]. intros x Hx. left. unfold amp, fed_amp. cbn [map prod].
      match goal with |- context [upd ?l ?k ?v] => change (upd l k v) with (upd l (Z.to_nat 0) v) end. rewrite znth_upd by (rewrite zlen_map, zlen_zrange; lia).
      destruct (forallb _ _) eqn:Ec.
      + apply fed_cond in Ec; auto. cbn [concat] in Ec. rewrite reg_nil, Hs0 in Ec. rewrite <- Ec. reflexivity.
      + destruct (Z.eqb_spec x 0) as [->|]; [|rewrite (znth_map_zrange 0%r (fun _ => 0%r)) by lia; reflexivity].
        exfalso. apply not_true_iff_false in Ec. apply Ec. apply fed_cond; auto.
    - cbv zeta in E0. destruct (Z.eqb_spec (zlen (fed_list fs)) 0) as [E|_].
      { exfalso. destruct fs; [congruence|]. unfold fed_list in E. rewrite zlen_map, zlen_cons in E. pose proof (zlen_nonneg fs). lia. }
      injection E0 as <-. unfold fed_groups in EE. rewrite gen_edit_ok in EE by (auto; destruct fs; cbn; congruence). injection EE as <-.
      fold Fl in HE. set (l := map _ (zrange 0 (2 ^ zlen Fl))) in HE.
      assert (El : map fst l = map (fun i => setreg n Fl 0 i) (zrange 0 (2 ^ zlen Fl))) by (unfold l; rewrite map_map; reflexivity).
      assert (ND : NoDup (map fst l)).
      { rewrite El. apply NoDup_map_inj; [apply zrange_nodup|]. intros i j Hi Hj E. apply in_zrange in Hi, Hj.
        rewrite <- (reg_setreg n Fl 0 i), <- (reg_setreg n Fl 0 j) by auto. congruence. }
      assert (Lz : zlen (map (fun _ : Z => (0%r : CR)) (zrange 0 (2 ^ n))) = 2 ^ n) by (rewrite zlen_map, zlen_zrange; lia).
      destruct (fedits_inv _ l _ st HE ND) as (LS & H1 & H2).
      { intros x Hx. rewrite El in Hx. apply in_map_iff in Hx as (i & <- & _). rewrite Lz. apply setreg_range; auto. }
      rewrite Lz in LS, H2. split; [exact LS|]. intros x Hx. unfold fed_amp. fold Fl. destruct (forallb _ _) eqn:Ec.
      + right. split; [reflexivity|]. apply fed_cond in Ec; auto.
        assert (Hin : In (x, map (fun g => reg n g x) (map fst fs)) l).
        { unfold l. apply in_map_iff. exists (reg n Fl x). fold Fl. rewrite Ec. split; [reflexivity|apply in_zrange, reg_range]. }
        apply H1 in Hin. rewrite (enumerate_map 0) in Hin. rewrite !zlen_map in Hin.
        assert (Em : map (fun j => (j, znth 0 (map (fun g => reg n g x) (map fst fs)) j)) (zrange 0 (zlen fs))
          = map (fun j => (j, reg n (fst (znth ([], []) fs j)) x)) (zrange (zlen (@nil fed)) (zlen fs))).
        { apply map_ext_in. intros j Hj. apply in_zrange in Hj. f_equal. rewrite map_map.
          rewrite (znth_map (fun f => reg n (fst f) x) ([], []) 0) by auto. reflexivity. }
        rewrite Em in Hin.
        assert (A0 : approxC 1 1 1%r 1%r) by (pose proof (approx_refl cabs1 cabs1_0 (1%r : CR)) as A; rewrite cabs1_1 in A; exact A).
        pose proof (ffactors_approx n fs x HL fs [] 1 1 1%r 1%r (amp st x) eq_refl ltac:(lra) A0 Hin) as [_ A1].
        rewrite Rmult_1_l in A1.
        match type of A1 with (cabs1 (_ - ?z)%r <= _)%R => assert (Ez : z = prod fs (fun f => amp (snd f) (reg n (fst f) x))) end.
        { generalize (prod fs (fun f => amp (snd f) (reg n (fst f) x)) : CR). intros z. ring. }
        rewrite Ez in A1. exact A1.
      + left. unfold amp. rewrite H2; auto.
        * rewrite (znth_map_zrange 0%r (fun _ => 0%r)) by lia. reflexivity.
        * intros Hin. rewrite El in Hin. apply in_map_iff in Hin as (i & E & Hi). apply in_zrange in Hi.
          apply not_true_iff_false in Ec. apply Ec. apply fed_cond; auto. rewrite <- E, reg_setreg; auto.
  Qed.

  Lemma feed_state_near n (fs' fs : list fed) st : 0 <= n -> same_regs fs' fs -> feeds_ok n fs -> (forall g a, In (g, a) fs -> total a = 1%R) ->
    fmake_state u w n (fed_groups fs') (fed_list fs') st ->
    zlen st = 2 ^ n /\
    (dist n st (map (fed_amp n fs) (zrange 0 (2 ^ n))) + 1 <= dists fs' fs * (1 + feed_error u w n (length fs)))%R.
  Proof.
    intros Hn HS HF H1 HM. assert (HF' : feeds_ok n fs') by exact (feeds_same n [] fs' fs HF HS).
    assert (Lk : length fs' = length fs) by (apply (Forall2_len _ _ _ HS)).
    destruct (fed_rows n fs' st Hn HF' HM) as [LS HR]. split; [exact LS|].
    pose proof (fed_near n Hn fs' fs [] HS HF H1) as D2. cbn [app rprod] in D2. rewrite Rmult_1_l in D2.
    set (k := length fs) in *. set (e := ((1 + u) ^ (2 * k) - 1)%R). assert (He : (0 <= e)%R) by (unfold e; pose proof (pow1_ge u (2 * k) Hu); lra).
    (* the norms of the stored registers *)
    set (Mx := fun f : fed => Rmax 1 (rnorm (snd f))).
    assert (HMd : (rprod fs' Mx <= dists fs' fs)%R).
    { clear - HS H1. unfold dists. induction HS as [|[g' a'] [g a] l' l [_ L] _ IH]; [cbn; lra|]. cbn [combine rprod fst snd] in *.
      pose proof (rnorm_tri a' a L) as T. assert (Ea : rnorm a = 1%R) by (unfold rnorm; rewrite (H1 g a (or_introl eq_refl)); apply sqrt_1).
      assert (HX : (0 <= Mx (g', a') <= 1 + reg_dist a' a)%R).
      { unfold Mx. cbn [snd]. pose proof (reg_dist_pos a' a). split; [eapply Rle_trans; [|apply Rmax_l]; lra|apply Rmax_lub; lra]. }
      apply Rmult_le_compat; try lra; [|apply IH; intros; eapply H1; right; eauto].
      apply rprod_pos. intros i _. unfold Mx. eapply Rle_trans; [|apply Rmax_l]. lra. }
    assert (HN : (1 <= IZR (2 ^ n))%R) by (apply IZR_le; pose proof (Z.pow_pos_nonneg 2 n); lia).
    pose proof (pow_R1_Rle (3 / 2) k ltac:(lra)) as P3. pose proof (pos_INR k) as Ik.
    assert (Q1 : (1 <= rprod fs' Mx)%R) by (apply rprod_ge1; intros; apply Rmax_l).
    assert (D1 : (vnorm n (fun x => (amp st x - fed_amp n fs' x)%r) <= feed_error u w n k * dists fs' fs)%R).
    { apply Rle_trans with (l2 (zrange 0 (2 ^ n)) (fun x => (e * (3 / 2) ^ k * (cnorm (fed_amp n fs' x) + 4 * w * INR k * rprod fs' Mx))%R)).
      - apply l2_mono. intros x Hx. apply in_zrange in Hx. split; [apply cnorm_pos|].
        assert (Hpos : (0 <= 4 * w * INR k * rprod fs' Mx)%R) by (apply Rmult_le_pos; [apply Rmult_le_pos|]; lra).
        destruct (HR x Hx) as [E|[E B]].
        + rewrite E. replace (fed_amp n fs' x - fed_amp n fs' x)%r with (0%r : CR).
          2:{ generalize (fed_amp n fs' x). intros [a b]. change ((0, 0) = (a - a, b - b))%R. f_equal; ring. }
          assert (Ez : cnorm 0%r = 0%R).
          { unfold cnorm. rewrite cnorm2_R. change (sqrt (0 * 0 + 0 * 0) = 0)%R. replace (0 * 0 + 0 * 0)%R with 0%R by ring. apply sqrt_0. }
          rewrite Ez. pose proof (cnorm_pos (fed_amp n fs' x)). apply Rmult_le_pos; [apply Rmult_le_pos|]; lra.
        + eapply Rle_trans; [apply cnorm_cabs1|]. eapply Rle_trans; [exact B|]. rewrite Lk. fold k e. rewrite Rmult_assoc. apply Rmult_le_compat_l; auto.
          assert (EQ : cnorm (fed_amp n fs' x) = rprod fs' (fun f => cnorm (amp (snd f) (reg n (fst f) x)))).
          { rewrite E. clear. induction fs' as [|f l IH]; [cbn [prod rprod]; unfold cnorm; rewrite cnorm2_R; change (sqrt (1 * 1 + 0 * 0) = 1)%R; replace (1 * 1 + 0 * 0)%R with 1%R by ring; apply sqrt_1|].
            cbn [prod rprod]. rewrite <- IH. apply cnorm_mul. }
          rewrite EQ. pose proof (feed_size_le n x Mx fs' 0 1 1 1) as FS. cbn [INR Nat.add] in FS. rewrite Lk in FS. fold k in FS. rewrite !Rmult_1_l in FS.
          apply FS; try lra. intros f Hf. split; [apply Rmax_l|]. eapply Rle_trans; [|apply Rmax_r].
          destruct f as [g a]. cbn [fst snd]. apply rnorm_entry. rewrite (proj2 HF' g a Hf). apply reg_range.
      - rewrite l2_scale by (apply Rmult_le_pos; lra). unfold feed_error. fold e. 
        replace (e * (3 / 2) ^ k * (1 + 4 * w * INR k * IZR (2 ^ n)) * dists fs' fs)%R
          with (e * (3 / 2) ^ k * (dists fs' fs + 4 * w * INR k * IZR (2 ^ n) * dists fs' fs))%R by ring.
        apply Rmult_le_compat_l; [apply Rmult_le_pos; lra|]. eapply Rle_trans; [apply l2_add|]. apply Rplus_le_compat.
        + change (l2 (zrange 0 (2 ^ n)) (fun r => cnorm (fed_amp n fs' r))) with (vnorm n (fed_amp n fs')). rewrite (fed_vnorm n fs' Hn HF').
          eapply Rle_trans; [|exact HMd]. apply rprod_le. intros f _. split; [apply rnorm_pos|apply Rmax_r].
        + set (c := (4 * w * INR k * rprod fs' Mx)%R).
          assert (Hc : (0 <= c)%R) by (unfold c; apply Rmult_le_pos; [apply Rmult_le_pos|]; lra).
          apply Rle_trans with (c * IZR (2 ^ n))%R.
          * apply sq_le; [apply Rmult_le_pos; lra|]. rewrite l2_sq, sumR_const, length_zrange, Z.sub_0_r, INR_IZR_INZ, Z2Nat.id by (apply Z.pow_nonneg; lia).
            assert (0 <= c * c)%R by nra. nra.
          * unfold c. replace (4 * w * INR k * IZR (2 ^ n) * dists fs' fs)%R with (4 * w * INR k * dists fs' fs * IZR (2 ^ n))%R by ring.
            apply Rmult_le_compat_r; [lra|]. apply Rmult_le_compat_l; [apply Rmult_le_pos; lra|exact HMd]. }
    rewrite dist_vnorm.
    apply Rle_trans with (vnorm n (fun x => (amp st x - fed_amp n fs' x)%r) + vnorm n (fun x => (fed_amp n fs' x - fed_amp n fs x)%r) + 1)%R.
    - apply Rplus_le_compat_r. eapply Rle_trans; [|apply vnorm_add]. apply Req_le, vnorm_ext. intros r Hr.
      assert (Ea : amp (map (fed_amp n fs) (zrange 0 (2 ^ n))) r = fed_amp n fs r) by (unfold amp; rewrite znth_map_zrange by lia; rewrite Z.add_0_l; reflexivity).
      rewrite Ea. generalize (amp st r) (fed_amp n fs' r) (fed_amp n fs r).
      intros [x x'] [y y'] [z z']. change ((x - z, x' - z') = (x - y + (y - z), x' - y' + (y' - z')))%R. f_equal; ring.
    - lra.
  Qed.
End Round.
