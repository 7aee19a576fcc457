(** How often the circuit of examples/shors.py finds a value near a multiple of 2^m / r. *)
From Coq Require Import Reals Lra.
From Verif Require Import Base BaseR L_Feed M_Gates L_Gates L_QFFT6 S_Shor S_ShorR L_Shor3 L_Shor4 L_Grover5 L_ShorR.
Local Open Scope Z_scope.

(** ** real sums *)
Local Open Scope R_scope.
Lemma sum_R_le {I} (l : list I) (f g : I -> R) : (forall i, In i l -> f i <= g i) -> sum l f <= sum l g.
Proof.
  induction l as [|a l IH]; intros H; cbn [sum]; [apply Rle_refl|]. apply Rplus_le_compat; [apply H; left; auto|apply IH; intros; apply H; right; auto].
Qed.
Lemma sum_R_nonneg {I} (l : list I) (f : I -> R) : (forall i, In i l -> 0 <= f i) -> 0 <= sum l f.
Proof.
  induction l as [|a l IH]; intros H; cbn [sum]; [apply Rle_refl|]. apply Rplus_le_le_0_compat; [apply H; left; auto|apply IH; intros; apply H; right; auto].
Qed.
Lemma sum_R_sub {I} (l l' : list I) (f : I -> R) : NoDup l -> incl l l' -> (forall i, 0 <= f i) -> sum l f <= sum l' f.
Proof.
  intros Hd. revert l'. induction Hd as [|a l Ha Hd IH]; intros l' Hi Hf; [apply sum_R_nonneg; auto|].
  destruct (in_split a l' (Hi a (or_introl eq_refl))) as (l1 & l2 & ->).
  assert (Hp : sum (l1 ++ a :: l2) f = f a + sum (l1 ++ l2) f). { rewrite (sum_perm (l1 ++ a :: l2) (a :: l1 ++ l2)); [reflexivity|]. symmetry. apply Permutation_middle. }
  rewrite Hp. cbn [sum]. apply Rplus_le_compat_l. assert (Hs : incl l (l1 ++ l2)).
  { intros y Hy. specialize (Hi y (or_intror Hy)). apply in_app_iff in Hi. apply in_app_iff. destruct Hi as [H|[H|H]]; auto. subst y. contradiction. }
  apply IH; auto.
Qed.
Lemma fst_sum {I} (l : list I) (f : I -> Cx R) : fst (sum l f) = sum l (fun i => fst (f i)).
Proof. induction l as [|a l IH]; cbn [sum]; [reflexivity|]. rewrite <- IH. destruct (f a), (sum l f). reflexivity. Qed.

(** ** sums of cosines *)
Lemma cos_lower t : 1 - t * t / 2 <= cos t.
Proof.
  assert (P : forall y, 0 <= y -> sin y * sin y <= y * y).
  { intros y Hy. destruct (Rle_lt_dec 1 y) as [H|H].
    - pose proof (SIN_bound y). assert (sin y * sin y <= 1) by nra. nra.
    - destruct Hy as [Hy|<-]; [|rewrite sin_0; lra]. assert (0 <= sin y) by (apply sin_ge_0; pose proof PI2_3_2; lra). pose proof (sin_lt_x y Hy). nra. }
  assert (Q : sin (t / 2) * sin (t / 2) <= t / 2 * (t / 2)).
  { destruct (Rle_lt_dec 0 (t / 2)) as [H|H]; [auto|]. pose proof (P (- (t / 2)) ltac:(lra)) as H'. rewrite sin_neg in H'. nra. }
  assert (E : cos t = 1 - 2 * sin (t / 2) * sin (t / 2)) by (rewrite <- cos_2a_sin; f_equal; field). rewrite E. lra.
Qed.
Lemma squares_sum s th M : (0 <= M)%Z -> sum (zrange 0 M) (fun b => 1 - (IZR b - s) * th * ((IZR b - s) * th) / 2) =
  IZR M - th * th / 2 * ((IZR M - 1) * IZR M * (2 * IZR M - 1) / 6 - s * IZR M * (IZR M - 1) + IZR M * s * s).
Proof.
  revert M. apply natlike_ind; [cbn [sum]; cbv [rO RCRing]; change (zrange 0 0) with (@nil Z); cbn [sum]; cbv [rO RCRing]; field|].
  intros M HM IH. rewrite (zrange_snoc 0 (Z.succ M)) by lia. replace (Z.succ M - 1)%Z with M by lia. rewrite sum_app. etransitivity; [apply (f_equal (fun a => a + _)); exact IH|].
  cbn [sum]. cbv [radd rO RCRing]. unfold Z.succ. rewrite plus_IZR. field.
Qed.
Lemma PI_sq : PI * PI <= 10.
Proof.
  assert (H : PI / 6 < 316 / 600).
  { apply Rnot_le_lt. intros H. assert (L : sin (316 / 600) <= sin (PI / 6)) by (apply sin_incr_1; pose proof PI_RGT_0; pose proof PI2_3_2; lra).
    rewrite sin_PI6 in L. pose proof PI2_3_2. pose proof (sin_lower (316 / 600) ltac:(lra)). lra. }
  pose proof PI_RGT_0. assert (PI < 316 / 100) by lra. nra.
Qed.
(** a sum of M unit vectors, each turned by [th] from the one before *)
Lemma turns M th q r : (0 < M)%Z -> 0 < r -> 11 * r <= q -> (IZR M - 1) * r <= q -> - (PI * r / q) <= th <= PI * r / q ->
  IZR M * IZR M / 4 <= cnorm2 (sum (zrange 0 M) (fun b => cis (IZR b * th))).
Proof.
  intros HM Hr Hq Hrq Hth. set (m := IZR M) in *. assert (Hm : 1 <= m) by (unfold m; apply IZR_le; lia). set (s := (m - 1) / 2).
  assert (E : cnorm2 (sum (zrange 0 M) (fun b => cis (IZR b * th))) = cnorm2 (sum (zrange 0 M) (fun b => cis ((IZR b - s) * th)))).
  { transitivity (cnorm2 (cis (- (s * th)) * sum (zrange 0 M) (fun b => cis (IZR b * th)))%r).
    - rewrite cnorm2_mul. etransitivity; [symmetry; apply Rmult_1_l|]. apply (f_equal (fun a => a * _)). symmetry. apply cis_unit.
    - rewrite <- sum_mul_l. f_equal. apply sum_ext. intros b _. rewrite <- cis_add. f_equal. ring. }
  rewrite E. set (z := sum _ _). assert (Hz : fst z * fst z <= cnorm2 z).
  { destruct z as [a b]. unfold cnorm2. cbn [fst snd]. cbv [radd rmul or_ring ROrdRing RCRing]. pose proof (Rle_0_sqr b) as H. unfold Rsqr in H. lra. }
  assert (Hre : m / 2 <= fst z).
  { unfold z. rewrite fst_sum. cbn [cis fst].
    apply Rle_trans with (sum (zrange 0 M) (fun b => 1 - (IZR b - s) * th * ((IZR b - s) * th) / 2)); [|apply sum_R_le; intros b _; apply cos_lower].
    rewrite squares_sum by lia. fold m.
    replace ((m - 1) * m * (2 * m - 1) / 6 - s * m * (m - 1) + m * s * s) with (m * (m * m - 1) / 12) by (unfold s; field).
    assert (Hq0 : 0 < q) by lra. set (t := r / q). assert (Ht : t * q = r) by (unfold t; field; lra). assert (T0 : 0 < t) by (unfold t; apply Rdiv_lt_0_compat; lra).
    assert (Tm : t * m <= 12 / 11).
    { assert (t <= 1 / 11). { apply (Rmult_le_reg_r q); auto. rewrite Ht. lra. } assert (t * (m - 1) <= 1). { apply (Rmult_le_reg_r q); auto. replace (t * (m - 1) * q) with ((m - 1) * (t * q)) by ring. rewrite Ht. lra. } lra. }
    assert (Eth : PI * r / q = PI * t) by (unfold t; field; lra). rewrite Eth in Hth.
    assert (Th2 : th * th <= PI * PI * (t * t)). { assert (0 <= (PI * t - th) * (PI * t + th)) by (apply Rmult_le_pos; lra). nra. }
    pose proof PI_sq as P10. assert (Tm2 : t * m * (t * m) <= 144 / 121). { assert (0 <= t * m) by (apply Rmult_le_pos; lra). nra. }
    assert (B : th * th * (m * m) <= 12).
    { apply Rle_trans with (PI * PI * (t * t) * (m * m)); [apply Rmult_le_compat_r; [nra|auto]|].
      replace (PI * PI * (t * t) * (m * m)) with (PI * PI * (t * m * (t * m))) by ring. pose proof (Rle_0_sqr (t * m)) as Hs. unfold Rsqr in Hs.
      apply Rle_trans with (10 * (144 / 121)); [|lra]. apply Rmult_le_compat; auto. pose proof (Rle_0_sqr PI) as Hp. unfold Rsqr in Hp. lra. }
    assert (0 <= th * th) by apply Rle_0_sqr.
    assert (th * th * (m * m - 1) <= 12) by lra.
    replace (m - th * th / 2 * (m * (m * m - 1) / 12)) with (m * (1 - th * th * (m * m - 1) / 24)) by field.
    apply Rle_trans with (m * (1 / 2)); [lra|]. apply Rmult_le_compat_l; lra. }
  assert (m / 2 * (m / 2) <= fst z * fst z) by (apply Rmult_le_compat; lra). lra.
Qed.

(** ** orders *)
Local Open Scope Z_scope.
Lemma order_mod N a r j : 1 < N -> order N a r -> 0 <= j -> (a ^ j) mod N = (a ^ (j mod r)) mod N.
Proof.
  intros HN [[Hr E] _] Hj. pose proof (Z.mod_pos_bound j r Hr) as Hm. pose proof (Z.div_pos j r Hj Hr) as Hd. assert (Hrd : 0 <= r * (j / r)) by (apply Z.mul_nonneg_nonneg; lia).
  rewrite (Z.div_mod j r) at 1 by lia. rewrite Z.pow_add_r by lia. rewrite Z.pow_mul_r by lia. rewrite <- Z.mul_mod_idemp_l by lia.
  assert (P : forall s, 0 <= s -> ((a ^ r) ^ s) mod N = 1).
  { apply natlike_ind; [rewrite Z.pow_0_r, Z.mod_1_l; lia|]. intros s Hs IH. rewrite Z.pow_succ_r by lia. rewrite Z.mul_mod, E, IH, Z.mul_1_l, Z.mod_1_l by lia. auto. }
  rewrite P by (apply Z.div_pos; lia). rewrite Z.mul_1_l. auto.
Qed.
Lemma order_inj N a r i j : 1 < N -> order N a r -> 0 <= i < r -> 0 <= j < r -> (a ^ i) mod N = (a ^ j) mod N -> i = j.
Proof.
  intros HN Ho. assert (G : forall i j, 0 <= i -> i < j < r -> (a ^ i) mod N = (a ^ j) mod N -> False).
  { intros i' j' Hi Hj E. pose proof Ho as [[Hr E1] Hmin].
    assert (Hp : period N a (j' - i')).
    { unfold period; split; [lia|]. transitivity ((a ^ (r + (j' - i'))) mod N).
      - rewrite (order_mod N a r (r + _)) by (auto; lia). replace (r + (j' - i')) with ((j' - i') + 1 * r) by ring. rewrite Z.mod_add, (Z.mod_small (j' - i') r) by lia. auto.
      - replace (r + (j' - i')) with (r - i' + j') by lia. rewrite Z.pow_add_r by lia. rewrite <- Z.mul_mod_idemp_r, <- E, Z.mul_mod_idemp_r by lia. rewrite <- Z.pow_add_r by lia.
        replace (r - i' + i') with r by lia. auto. }
    apply Hmin in Hp. lia. }
  intros Hi Hj E. destruct (Z.lt_trichotomy i j) as [H|[H|H]]; auto; exfalso; [apply (G i j)|apply (G j i)]; auto; lia.
Qed.
Lemma order_sum {A} {RA : CRing A} N a r i q (f : Z -> A) : 1 < N -> order N a r -> 0 <= i < r -> i < q ->
  sum (filter (fun j => (a ^ j) mod N =? (a ^ i) mod N) (zrange 0 q)) f = sum (zrange 0 ((q - 1 - i) / r + 1)) (fun b => f (i + b * r)).
Proof.
  intros HN Ho Hi Hq. assert (Hr : 0 < r) by lia. apply sum_reindex.
  - apply NoDup_filter, zrange_nodup.
  - apply zrange_nodup.
  - intros b Hb. apply in_zrange in Hb. assert (Hb2 : b * r <= q - 1 - i). { pose proof (Z.mul_div_le (q - 1 - i) r Hr). nia. }
    apply filter_In. split; [apply in_zrange; nia|]. apply Z.eqb_eq. rewrite (order_mod N a r) by (auto; nia). rewrite Z.mod_add, (Z.mod_small i r) by lia. auto.
  - intros b b' _ _ E. nia.
  - intros j Hj. apply filter_In in Hj. destruct Hj as [Hj E]. apply in_zrange in Hj. apply Z.eqb_eq in E. rewrite (order_mod N a r j) in E by (auto; lia).
    pose proof (Z.mod_pos_bound j r Hr). apply (order_inj N a r) in E; auto. pose proof (Z.div_mod j r ltac:(lia)).
    exists (j / r). split; [apply in_zrange|lia]. pose proof (Z.div_pos j r ltac:(lia) Hr). split; auto. assert (j / r <= (q - 1 - i) / r); [|lia]. apply Z.div_le_lower_bound; lia.
Qed.
Lemma cis_turns t k : cis (t + 2 * PI * IZR k)%R = cis t.
Proof.
  assert (P : forall k, 0 <= k -> forall t, cis (t + 2 * PI * IZR k)%R = cis t).
  { apply (natlike_ind (fun k => forall t, cis (t + 2 * PI * IZR k)%R = cis t)).
    - intros s. f_equal. ring.
    - intros j Hj IH s. unfold Z.succ. rewrite plus_IZR. replace (s + 2 * PI * (IZR j + 1))%R with ((s + 2 * PI) + 2 * PI * IZR j)%R by ring. rewrite IH. unfold cis.
      f_equal; [rewrite cos_plus, cos_2PI, sin_2PI|rewrite sin_plus, cos_2PI, sin_2PI]; ring. }
  destruct (Z_le_dec 0 k) as [H|H]; [auto|]. rewrite <- (P (- k) ltac:(lia) (t + 2 * PI * IZR k)%R). f_equal. rewrite opp_IZR. ring.
Qed.
Lemma order_count N a r q : 1 < N -> order N a r -> r <= q -> sum (zrange 0 r) (fun i => IZR ((q - 1 - i) / r + 1)) = IZR q.
Proof.
  intros HN Ho Hq. assert (Hr : 0 < r) by apply Ho.
  transitivity (sum (zrange 0 r) (fun i => sum (zrange 0 q) (fun j => if (a ^ j) mod N =? (a ^ i) mod N then 1%R else 0%R))).
  - apply sum_ext. intros i Hi. apply in_zrange in Hi. etransitivity; [|exact (sum_filter (fun j => (a ^ j) mod N =? (a ^ i) mod N) (zrange 0 q) (fun _ => 1%R))].
    rewrite (order_sum N a r i q) by (auto; lia). rewrite sum_const_Z. rewrite zlen_zrange by (pose proof (Z.div_pos (q - 1 - i) r ltac:(lia) ltac:(lia)); lia). rewrite Rmult_1_r, Z.sub_0_r. auto.
  - rewrite sum_swap. transitivity (sum (zrange 0 q) (fun _ => 1%R)).
    + apply sum_ext. intros j Hj. apply in_zrange in Hj. pose proof (Z.mod_pos_bound j r Hr). rewrite (sum_single _ (j mod r)).
      * rewrite (order_mod N a r j) by (auto; lia). rewrite Z.eqb_refl. auto.
      * apply zrange_nodup. * apply in_zrange; auto.
      * intros i Hi Hne. apply in_zrange in Hi. rewrite (order_mod N a r j) by (auto; lia). destruct (Z.eqb_spec ((a ^ (j mod r)) mod N) ((a ^ i) mod N)) as [E|]; auto.
        apply (order_inj N a r) in E; auto. congruence.
    + rewrite sum_const_Z, zlen_zrange by lia. rewrite Rmult_1_r, Z.sub_0_r. auto.
Qed.

(** ** the probability of a value near a multiple of q / r *)
Lemma shor_peak m N a r c d : 0 < m -> 1 < N -> order N a r -> 11 * r <= 2 ^ m -> near (2 ^ m) c d r -> (1 / (4 * IZR r) <= shor_prob m N a c)%R.
Proof.
  intros Hm HN Ho H11 Hnear. set (q := 2 ^ m) in *. assert (Hr : 0 < r) by apply Ho. assert (Rr : (1 <= IZR r)%R) by (apply IZR_le; lia).
  assert (Rq : (11 * IZR r <= IZR q)%R) by (rewrite <- mult_IZR; apply IZR_le; lia). assert (Q0 : (0 < IZR q)%R) by lra.
  set (M := fun i => (q - 1 - i) / r + 1).
  assert (B : forall i, 0 <= i < r -> (IZR (M i) * IZR (M i) / (4 * (IZR q * IZR q)) <= cnorm2 (shor_amp m N a c ((a ^ i) mod N)))%R).
  { intros i Hi. unfold shor_amp. fold q. rewrite (order_sum N a r i q) by (auto; lia). cbv beta. fold (M i).
    pose proof (Z.div_pos (q - 1 - i) r ltac:(lia) Hr) as HM0. assert (HM : 0 < M i) by (unfold M; lia).
    set (e := c * r - d * q). set (th := (2 * PI * IZR e / IZR q)%R).
    assert (Es : sum (zrange 0 (M i)) (fun b => let t := (2 * PI * IZR ((i + b * r) * c) / IZR q)%R in (cos t, sin t)) =
      (cis (2 * PI * IZR (i * c) / IZR q) * sum (zrange 0 (M i)) (fun b => cis (IZR b * th)))%r).
    { rewrite <- sum_mul_l. apply sum_ext. intros b _. cbv zeta. rewrite <- cis_add. rewrite <- (cis_turns _ (b * d)). unfold cis. 
      assert (E : (2 * PI * IZR ((i + b * r) * c) / IZR q = 2 * PI * IZR (i * c) / IZR q + IZR b * th + 2 * PI * IZR (b * d))%R); [|rewrite E; auto].
      unfold th, e. rewrite minus_IZR, !mult_IZR, plus_IZR, !mult_IZR. field. lra. }
    assert (T : (IZR (M i) * IZR (M i) / 4 <= cnorm2 (sum (zrange 0 (M i)) (fun b => cis (IZR b * th))))%R).
    { apply (turns (M i) th (IZR q) (IZR r)); auto; try lra.
      - rewrite <- minus_IZR, <- mult_IZR. apply IZR_le. unfold M. pose proof (Z.mul_div_le (q - 1 - i) r Hr). lia.
      - unfold near in Hnear. fold e in Hnear. assert (He : (- IZR r <= 2 * IZR e <= IZR r)%R) by (rewrite <- opp_IZR, <- mult_IZR; split; apply IZR_le; lia).
        unfold th. pose proof PI_RGT_0 as P. assert (I0 : (0 < / IZR q)%R) by (apply Rinv_0_lt_compat; auto). unfold Rdiv. 
        replace (- (PI * IZR r * / IZR q))%R with (PI * / IZR q * - IZR r)%R by ring. replace (PI * IZR r * / IZR q)%R with (PI * / IZR q * IZR r)%R by ring.
        replace (2 * PI * IZR e * / IZR q)%R with (PI * / IZR q * (2 * IZR e))%R by ring. assert (0 <= PI * / IZR q)%R by (apply Rmult_le_pos; lra). split; apply Rmult_le_compat_l; lra. }
    pose proof (cis_unit (2 * PI * IZR (i * c) / IZR q)) as C1.
    assert (Cq : cnorm2 (1 / IZR q, 0)%R = (1 / (IZR q * IZR q))%R). { unfold cnorm2. cbn [fst snd]. cbv [radd rmul or_ring ROrdRing RCRing]. field. lra. }
    apply Rle_trans with (1 / (IZR q * IZR q) * (1 * cnorm2 (sum (zrange 0 (M i)) (fun b => cis (IZR b * th)))))%R.
    2:{ apply Req_le. transitivity (cnorm2 (1 / IZR q, 0) * (cnorm2 (cis (2 * PI * IZR (i * c) / IZR q)) * cnorm2 (sum (zrange 0 (M i)) (fun b => cis (IZR b * th)))))%R; [rewrite Cq, C1; auto|].
        symmetry. etransitivity; [apply cnorm2_mul|]. apply (f_equal (fun y => (cnorm2 (1 / IZR q, 0) * y)%R)).
        etransitivity; [apply (f_equal cnorm2); exact Es|]. etransitivity; [apply cnorm2_mul|reflexivity]. }
    set (S0 := cnorm2 (sum _ _)) in *.
    assert (0 < / (IZR q * IZR q))%R by (apply Rinv_0_lt_compat, Rmult_lt_0_compat; auto).
    replace (IZR (M i) * IZR (M i) / (4 * (IZR q * IZR q)))%R with (/ (IZR q * IZR q) * (IZR (M i) * IZR (M i) / 4))%R by (field; lra).
    replace (1 / (IZR q * IZR q) * (1 * S0))%R with (/ (IZR q * IZR q) * S0)%R by (field; lra). apply Rmult_le_compat_l; lra. }
  assert (S1 : (sum (zrange 0 r) (fun i => cnorm2 (shor_amp m N a c ((a ^ i) mod N))) <= shor_prob m N a c)%R).
  { unfold shor_prob. rewrite <- (sum_map (fun i => (a ^ i) mod N) (zrange 0 r) (fun z => cnorm2 (shor_amp m N a c z))). apply sum_R_sub.
    - apply NoDup_map_inj; [apply zrange_nodup|]. intros i j Hi Hj E. apply in_zrange in Hi. apply in_zrange in Hj. eapply (order_inj N a r); eauto.
    - intros z Hz. apply in_map_iff in Hz. destruct Hz as (i & <- & Hi). apply in_zrange. apply Z.mod_pos_bound. lia.
    - intros z. unfold cnorm2. destruct (shor_amp m N a c z) as [u v]. cbn [fst snd]. cbv [radd rmul or_ring ROrdRing RCRing]. pose proof (Rle_0_sqr u) as H1. pose proof (Rle_0_sqr v) as H2. unfold Rsqr in *. lra. }
  apply Rle_trans with (sum (zrange 0 r) (fun i => cnorm2 (shor_amp m N a c ((a ^ i) mod N)))); auto.
  apply Rle_trans with (sum (zrange 0 r) (fun i => (IZR (M i) * (1 / (2 * IZR r * IZR q)) + - (1 / (4 * IZR r * IZR r)))%R)).
  - apply Req_le. set (k := (1 / (2 * IZR r * IZR q))%R). set (k' := (- (1 / (4 * IZR r * IZR r)))%R).
    transitivity (sum (zrange 0 r) (fun i => IZR (M i) * k) + sum (zrange 0 r) (fun _ => k'))%R; [|symmetry; exact (sum_add (zrange 0 r) (fun i => IZR (M i) * k)%R (fun _ => k'))].
    assert (E1 : sum (zrange 0 r) (fun i => IZR (M i) * k)%R = (IZR q * k)%R).
    { etransitivity; [exact (sum_mul_r (zrange 0 r) k (fun i => IZR (M i)))|]. apply (f_equal (fun s => (s * k)%R)). apply (order_count N a r q); auto. lia. }
    rewrite E1, sum_const_Z, zlen_zrange, Z.sub_0_r by lia. unfold k, k'. field. lra.
  - apply sum_R_le. intros i Hi. apply in_zrange in Hi. eapply Rle_trans; [|apply B; auto]. set (X := IZR (M i)).
    replace (X * (1 / (2 * IZR r * IZR q)) + - (1 / (4 * IZR r * IZR r)))%R with (X * X / (4 * (IZR q * IZR q)) - Rsqr (X / (2 * IZR q) - 1 / (2 * IZR r)))%R by (unfold Rsqr; field; lra).
    pose proof (Rle_0_sqr (X / (2 * IZR q) - 1 / (2 * IZR r))). lra.
Qed.

Lemma fourier_large N : 10 <= N -> N * N <= fourier_size N /\ 0 < Z.log2_up (N ^ 2).
Proof.
  intros HN. unfold fourier_size. rewrite Z.pow_2_r. pose proof (Z.log2_up_spec (N * N) ltac:(nia)). split; [lia|]. apply Z.log2_up_pos. nia.
Qed.
(** values from which the fraction d/r in lowest terms is found *)
Lemma shor_good N a r : 10 <= N <= 2 ^ 14 -> order N a r -> 1 < r ->
  exists cs, NoDup cs /\
    (forall c, In c cs -> 0 < c < fourier_size N /\ exists d, 0 < d < r /\ Z.gcd d r = 1 /\ convergent c (fourier_size N) d r) /\
    (IZR (zlen (filter (fun d => Z.gcd d r =? 1) (zrange 0 r))) / (4 * IZR r) <= sum cs (shor_prob (Z.log2_up (N ^ 2)) N a))%R.
Proof.
  intros HN Ho Hr. destruct (fourier_large N ltac:(lia)) as [Hq Hm]. pose proof (order_lt N a r ltac:(lia) Ho) as HrN. set (q := fourier_size N) in *.
  assert (H11 : 11 * r <= q) by nia. set (D := filter (fun d => Z.gcd d r =? 1) (zrange 0 r)). set (h := fun d => (2 * d * q + r) / (2 * r)).
  assert (HD : forall d, In d D -> 0 < d < r /\ Z.gcd d r = 1).
  { intros d Hd. apply filter_In in Hd. destruct Hd as [Hd E]. apply in_zrange in Hd. apply Z.eqb_eq in E. split; auto. destruct (Z.eq_dec d 0) as [->|]; [|lia]. rewrite Z.gcd_0_l in E. lia. }
  assert (Hh : forall d, In d D -> near q (h d) d r /\ 0 < h d < q).
  { intros d Hd. apply HD in Hd. destruct Hd as [Hd _]. pose proof (Z.div_mod (2 * d * q + r) (2 * r) ltac:(lia)) as E. pose proof (Z.mod_pos_bound (2 * d * q + r) (2 * r) ltac:(lia)) as B. fold (h d) in E.
    set (c := h d) in *. set (s := (2 * d * q + r) mod (2 * r)) in *. assert (E2 : 2 * (c * r - d * q) = r - s) by lia.
    split; [unfold near; lia|]. assert (Hdq : q <= d * q <= q * r - q) by nia. assert (0 < c * r < q * r) by lia. split; nia. }
  assert (Hinj : forall d d', In d D -> In d' D -> h d = h d' -> d = d').
  { intros d d' H1 H2 E. destruct (Hh d H1) as [N1 _]. destruct (Hh d' H2) as [N2 _]. rewrite E in N1. unfold near in N1, N2. set (X := h d' * r) in *.
    assert (HX : 2 * Z.abs ((d - d') * q) <= 2 * r) by (replace ((d - d') * q) with ((X - d' * q) - (X - d * q)) by ring; lia). rewrite Z.abs_mul in HX. nia. }
  assert (HND : NoDup D) by (apply NoDup_filter, zrange_nodup).
  exists (map h D). split; [apply NoDup_map_inj; auto|]. split.
  - intros c Hc. apply in_map_iff in Hc. destruct Hc as (d & <- & Hd). destruct (Hh d Hd) as [Hn Hc]. split; auto. exists d. destruct (HD d Hd) as [Hd1 Hd2]. split; auto. split; auto.
    apply near_found; auto; lia.
  - rewrite sum_map. apply Rle_trans with (sum D (fun _ => 1 / (4 * IZR r))%R).
    + rewrite sum_const_Z. apply Req_le. assert (1 < IZR r)%R by (apply IZR_lt; lia). field. lra.
    + apply sum_R_le. intros d Hd. destruct (Hh d Hd) as [Hn _]. apply (shor_peak _ N a r _ d); auto; lia.
Qed.
