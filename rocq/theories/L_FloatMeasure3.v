(** Rounding errors of measurements: the exact results are possible, without rounding they are the only ones; doubles. *)
From Coq Require Import Reals Lra.
From Verif Require Import Base BaseR S_Bits M_Bits L_Bits M_Kron S_Kron L_Kron M_Ops S_Ops M_Feed M_Measure S_Measure L_Measure1 L_Measure2 L_Measure3 L_Measure5 M_Float S_Float L_Float1 L_Float2 L_Float3 L_Float4 L_Float5 L_Float7 M_FloatMeasure S_FloatMeasure L_FloatMeasure1 L_FloatMeasure2.
Local Open Scope Z_scope.

Section Exact.
  Variables u w : R.
  Hypothesis Hu : (0 <= u)%R.
  Hypothesis Hw : (0 <= w)%R.
  Lemma rounds_refl x : rounds u w x x.
  Proof. unfold rounds. rewrite Rminus_eq_0, Rabs_R0. pose proof (Rabs_pos x). apply Rmult_le_pos; lra. Qed.
  Lemma facc_exact vec off l : (forall i, In i l -> 0 <= i - off < zlen vec) -> facc u w vec off l (sum l (fun i => cnorm2 (amp_at off vec i))).
  Proof.
    intros Hl. exists (fun i => cnorm2 (amp_at off vec i)). split.
    - intros i Hi. exists (amp_at off vec i). split; [apply cget_ok; apply Hl; auto|].
      unfold fnorm2. rewrite Rminus_eq_0, Rabs_R0. pose proof (cnorm2_pos (amp_at off vec i)). pose proof (pow1_ge u 5 Hu). apply Rmult_le_pos; lra.
    - exact (fsum_exact (CA := RCRing) (fun a b v => rounds u w (a + b) v) (fun i => cnorm2 (amp_at off vec i)) (fun a b => rounds_refl (a + b)) l).
  Qed.

  Variables (n : Z) (indices : list Z) (off : Z) (vec : list CR).
  Hypotheses (Hn : 0 <= n) (HI : qubits_ok n indices) (HS : slice_ok n off vec).
  Notation P := (marginal n (measured_order n indices) (amp_at off vec)).
  Lemma total_sum : sum (zrange 0 (zlen vec)) (fun i => cnorm2 (amp_at 0 vec i)) = tprob vec.
  Proof.
    unfold tprob. etransitivity; [|symmetry; apply (f_equal (fun l => sum l cnorm2)); apply (list_as_map (0%r : CR) vec)].
    rewrite sum_map. apply sum_ext. intros i _. unfold amp_at. rewrite Z.sub_0_r. reflexivity.
  Qed.
  Lemma loop_exact (prob : Z -> R -> Prop) (prob' : Z -> res R) l : (forall m, In m l -> exists p, prob' m = Ok p /\ prob m p) ->
    forall r last mp, soft_loop prob' l r last = Ok mp -> fsoft_loop u w prob l r last mp.
  Proof.
    induction l as [|m l IH]; intros H r last mp E; cbn [soft_loop] in E.
    - injection E as <-. constructor.
    - destruct (H m (or_introl eq_refl)) as (p & Ep & Hp). rewrite Ep in E. cbn [bind] in E.
      assert (HS1 : fsub u w r p (r - p)) by (split; [apply rounds_refl|intros ->; ring]).
      destruct (rleb (r - p)%r 0%r) eqn:El.
      + injection E as <-. apply fl_hit with (r' := (r - p)%R); auto. apply Rleb_le. exact El.
      + apply fl_next with (acc := p) (r' := (r - p)%R); auto.
        * destruct (Rlt_le_dec 0 (r - p)) as [|L]; auto. apply Rleb_le in L. change (Rleb (r - p) 0 = false) in El. congruence.
        * apply IH; [intros; apply H; right; auto|exact E].
  Qed.

  Lemma soft_possible rand mp : soft_measure rand 0%R indices n vec None off = Ok mp -> fsoft_measure u w rand indices n vec off mp.
  Proof.
    intros E. unfold soft_measure in E. cbv zeta in E.
    destruct (make_row_mask_ok n indices Hn HI) as (mask & Em & HM). rewrite Em in E. cbn [bind] in E.
    exists (tprob vec), (if zlen indices <? 2 ^ n then (rand * tprob vec)%R else rand), mask.
    split; [|split; [|split; [exact Em|]]].
    - rewrite <- total_sum. apply facc_exact. intros i Hi. apply in_zrange in Hi. lia.
    - destruct (_ <? _); [apply rounds_refl|reflexivity].
    - assert (Epm : prob_magnitude (K := R) 0%R vec = tprob vec) by exact (prob_magnitude_0 (K := R) vec).
      rewrite Epm in E.
      refine (loop_exact _ _ _ _ _ _ _ E). intros m Hm. apply in_zrange in Hm. exists (P m). split; [apply (outcome_prob_ok (K := R)); auto|].
      rewrite <- (cells_sum n indices off vec Hn HI mask m HM Hm). apply facc_exact. intros i Hi. eapply cells_in; eauto.
  Qed.
End Exact.

Lemma measure_possible u w rand n indices (vec out0 out : list CR) mp : (0 <= u)%R -> (0 <= w)%R -> 0 <= n -> qubits_ok n indices ->
  zlen vec = 2 ^ n -> zlen out0 = 2 ^ n ->
  measure (fun p => sqrt (1 / p)) rand 0%R indices n vec out0 0 0 None None = Ok (mp, out) -> fmeasure u w rand indices n vec mp out.
Proof.
  intros Hu Hw Hn HI HV HO E. assert (SL : slice_ok n 0 vec) by (split; lia).
  unfold measure in E. cbn [bad_measured bad_prob choose] in E.
  destruct (soft_measure rand 0%R indices n vec None 0) as [mp0|] eqn:Es; [|discriminate]. cbn [bind] in E.
  unfold mult in E. destruct (reqb (snd mp0) 0%r) eqn:Ez; [discriminate|]. cbn [bind] in E.
  destruct (make_row_mask_ok n indices Hn HI) as (mask & Em & HM). rewrite Em in E. cbn [bind] in E. cbv zeta in E.
  destruct (soft_free (K := R) n indices 0 vec Hn HI SL rand 0%R) as (m & Hm & Em' & _). rewrite Es in Em'. injection Em' as Emp.
  assert (Hm' : 0 <= fst mp0 < 2 ^ zlen indices) by (rewrite Emp; exact Hm).
  rewrite (measure_loop (K := R) n indices Hn HI mask 0 0 vec out0 (fst mp0) (sqrt (1 / snd mp0)) HM SL ltac:(split; lia) Hm') in E.
  cbn [bind] in E. injection E as <- <-.
  split; [apply soft_possible; auto|]. split; [intros Z0; rewrite Z0 in Ez; apply (proj1 (reqb_neq _ _) Ez); reflexivity|].
  exists (1 / snd mp0)%R, (sqrt (1 / snd mp0)), mask. split; [apply rounds_refl; auto|]. split; [apply rounds_refl; auto|]. split; [exact Em|].
  cbv zeta. unfold measure_out. rewrite zlen_map, zlen_zrange by lia. split; [lia|]. intros i Hi.
  rewrite mask_test by (auto; lia). rewrite znth_map_zrange by lia. rewrite !Z.add_0_l, Z.add_0_r.
  destruct (Z.leb_spec 0 i); [|lia]. destruct (Z.ltb_spec i (zlen vec)); [|lia]. cbn [andb]. unfold collapsed.
  destruct (reg n (measured_order n indices) i =? fst mp0); cbn [negb]; [|reflexivity].
  exists (znth 0%r vec i). split; [apply cget_ok; lia|]. unfold amp_at. rewrite Z.sub_0_r.
  destruct (znth 0%r vec i) as [a b]. set (s := sqrt (1 / snd mp0)).
  exists (a * s)%R, (b * 0)%R, (a * 0)%R, (b * s)%R. cbn [fst snd]. repeat split; apply rounds_refl; auto.
Qed.

(** without rounding *)
Lemma rounds_0 w x v : rounds 0 w x v -> v = x.
Proof.
  unfold rounds. rewrite Rmult_0_l. intros H. destruct (Req_EM_T (v - x) 0) as [E|E]; [lra|]. pose proof (Rabs_pos_lt _ E). lra.
Qed.
Lemma soft_unique w rand n indices off (vec : list CR) mp : (0 <= w)%R -> 0 <= n -> qubits_ok n indices -> slice_ok n off vec ->
  fsoft_measure 0 w rand indices n vec off mp -> soft_measure rand 0%R indices n vec None off = Ok mp.
Proof.
  intros Hw Hn HI HS (total & r & mask & Ht & Hr & Em & HL).
  assert (FX : forall vec off l acc, (forall i, In i l -> 0 <= i - off < zlen vec) -> facc 0 w vec off l acc -> acc = sum l (fun i => cnorm2 (amp_at off vec i))).
  { intros vec0 off0 l acc Hl HA. pose proof (facc_close 0 w ltac:(lra) Hw vec0 off0 l acc (length l) Hl (Nat.le_refl _) HA) as F.
    rewrite Rplus_0_r, pow1, Rminus_eq_0, Rmult_0_l in F. apply (rounds_0 w). unfold rounds. rewrite Rmult_0_l. exact F. }
  unfold soft_measure. cbv zeta. rewrite Em. cbn [bind].
  apply FX in Ht; [|intros i Hi; apply in_zrange in Hi; lia]. rewrite total_sum in Ht. subst total.
  assert (Epm : prob_magnitude (K := R) 0%R vec = tprob vec) by exact (prob_magnitude_0 (K := R) vec). rewrite Epm.
  assert (Er : (if zlen indices <? 2 ^ n then (rand * tprob vec)%R else rand) = r).
  { destruct (_ <? _); [symmetry; eapply rounds_0; exact Hr|symmetry; exact Hr]. }
  assert (G : soft_loop (outcome_prob (zlen indices) (n - zlen indices) mask vec off) (zrange 0 (2 ^ zlen indices)) r (0, 0%R) = Ok mp).
  2: { rewrite <- Er in G. exact G. }
  clear Er Hr. destruct (make_row_mask_ok n indices Hn HI) as (mask' & Em' & HM). rewrite Em in Em'. injection Em' as <-.
  assert (HPR : forall m, In m (zrange 0 (2 ^ zlen indices)) -> forall acc,
    facc 0 w vec off (cells (zlen indices) (n - zlen indices) mask (zlen vec) off m) acc ->
    outcome_prob (zlen indices) (n - zlen indices) mask vec off m = Ok acc).
  { intros m Hm acc HA. apply in_zrange in Hm. rewrite (outcome_prob_ok (K := R) n indices mask off vec m) by auto. f_equal.
    apply FX in HA; [|intros i Hi; eapply cells_in; eauto]. rewrite HA. symmetry. apply (cells_sum n indices off vec Hn HI mask m HM Hm). }
  generalize dependent (zrange 0 (2 ^ zlen indices)). intros l HL HPR.
  induction HL as [r last|m l r last acc r' Ha [Hs _] H0|m l r last acc r' mp Ha [Hs _] H0 HR IH]; cbn [soft_loop].
  - reflexivity.
  - rewrite (HPR m (or_introl eq_refl) acc Ha). cbn [bind]. apply rounds_0 in Hs. subst r'.
    apply Rleb_le in H0. change (rleb (r - acc)%r 0%r) with (Rleb (r - acc) 0). rewrite H0. reflexivity.
  - rewrite (HPR m (or_introl eq_refl) acc Ha). cbn [bind]. apply rounds_0 in Hs. subst r'.
    change (rleb (r - acc)%r 0%r) with (Rleb (r - acc) 0). destruct (Rleb (r - acc) 0) eqn:E; [apply Rleb_le in E; lra|].
    apply IH. intros; apply HPR; auto. right; auto.
Qed.

(** the loops with any arithmetic, on the numbers of the other models, are those of M_Measure *)
Lemma mfold_ext {A B} (f g : A -> B -> res A) l : (forall a b, f a b = g a b) -> forall a, mfold f l a = mfold g l a.
Proof. intros H. induction l as [|b l IH]; intros a; cbn [mfold]; [reflexivity|]. rewrite H. destruct (g a b); cbn [bind]; auto. Qed.
Lemma any_exact {K} {OK : OrdRing K} (rand : K) indices n (vec : list (Cx K)) off :
  any_soft_measure 0%r (fun a b => a + b)%r (fun a b => a - b)%r (fun a b => a * b)%r (fun r => rleb r 0%r) (map cnorm2 vec) rand indices n off
  = soft_measure rand 0%r indices n vec None off.
Proof.
  unfold any_soft_measure, soft_measure. cbv zeta.
  assert (EM : any_magnitude 0%r (fun a b => a + b)%r (map cnorm2 vec) = prob_magnitude 0%r vec).
  { unfold any_magnitude, prob_magnitude. generalize (0%r : K). induction vec as [|x vec IH]; intros a; [reflexivity|]. apply IH. }
  rewrite EM. destruct (make_row_mask indices n) as [mask|]; [|reflexivity]. cbn [bind].
  set (r := if _ <? _ then _ else _). clearbody r. generalize (zrange 0 (2 ^ zlen indices)) (0, 0%r : K). intros l. revert r.
  assert (EO : forall m, any_outcome 0%r (fun a b => a + b)%r (map cnorm2 vec) (zlen indices) (n - zlen indices) mask off m
    = outcome_prob (zlen indices) (n - zlen indices) mask vec off m).
  { intros m. unfold any_outcome, outcome_prob. apply mfold_ext. intros a i. rewrite zlen_map.
    destruct (_ && _) eqn:E; [|reflexivity]. apply andb_true_iff in E as [E1 E2]. apply Z.leb_le in E1. apply Z.ltb_lt in E2.
    rewrite (cget_ok 0%r) by (rewrite zlen_map; lia). rewrite (cget_ok 0%r) by lia. cbn [bind].
    rewrite (znth_map cnorm2 0%r 0%r vec) by lia. reflexivity. }
  induction l as [|m l IH]; intros r last; cbn [any_loop soft_loop]; [reflexivity|]. rewrite EO.
  destruct (outcome_prob _ _ _ _ _ m); cbn [bind]; [|reflexivity]. destruct (rleb _ _); [reflexivity|]. apply IH.
Qed.

(** ** doubles *)
Lemma pow_lin u k : (0 <= u -> INR k * u <= 1 / 2 -> (1 + u) ^ k <= 1 + 2 * (INR k * u))%R.
Proof.
  intros Hu Hk.
  assert (G : ((1 + u) ^ k * (1 - INR k * u) <= 1)%R).
  { clear Hk. induction k as [|k IH]; [cbn; lra|]. rewrite <- tech_pow_Rmult, S_INR. pose proof (pow1_ge u k Hu) as G. pose proof (pos_INR k) as I.
    replace ((1 + u) * (1 + u) ^ k * (1 - (INR k + 1) * u))%R with ((1 + u) ^ k * (1 - INR k * u) - (1 + u) ^ k * ((INR k + 1) * (u * u)))%R by ring.
    assert (0 <= (1 + u) ^ k * ((INR k + 1) * (u * u)))%R; [|lra]. apply Rmult_le_pos; [lra|]. apply Rmult_le_pos; [lra|]. apply Rmult_le_pos; lra. }
  assert (Hx0 : (0 <= INR k * u)%R) by (apply Rmult_le_pos; [apply pos_INR|auto]). set (x := (INR k * u)%R) in *. clearbody x.
  set (a := ((1 + u) ^ k)%R) in *. clearbody a.
  apply Rmult_le_reg_r with (1 - x)%R; [lra|]. nra.
Qed.

Section Doubles.
  Notation u := (/ 2 ^ 53)%R.
  Notation w := (/ 2 ^ 969)%R.
  Variable n : Z.
  Hypothesis Hn : 0 <= n <= 40.
  Let N := IZR (2 ^ n).
  Lemma u_pos : (0 < u <= / 1000000)%R.
  Proof. split; [apply Rinv_0_lt_compat, pow_lt; lra|apply Rinv_le_contravar; lra]. Qed.
  Lemma w_pos : (0 < w)%R.
  Proof. apply Rinv_0_lt_compat, pow_lt; lra. Qed.
  Lemma w_u : (w <= u * (/ 2 ^ 60 * / 2 ^ 840))%R.
  Proof.
    replace (/ 2 ^ 969)%R with (u * / 2 ^ 60 * (/ 2 ^ 840 * / 2 ^ 16))%R.
    - assert (/ 2 ^ 16 <= 1)%R by lra. assert (0 < / 2 ^ 840)%R by (apply Rinv_0_lt_compat, pow_lt; lra).
      assert (0 < u * / 2 ^ 60)%R by (apply Rmult_lt_0_compat; apply Rinv_0_lt_compat, pow_lt; lra).
      replace (u * (/ 2 ^ 60 * / 2 ^ 840))%R with (u * / 2 ^ 60 * / 2 ^ 840)%R by ring. set (a := (u * / 2 ^ 60)%R) in *. set (b := (/ 2 ^ 840)%R) in *. clearbody a b.
      apply Rmult_le_compat_l; [lra|]. rewrite <- (Rmult_1_r b) at 2. apply Rmult_le_compat_l; lra.
    - rewrite <- !Rinv_mult, <- !pow_add. reflexivity.
  Qed.
  Lemma N_range : (1 <= N <= 2 ^ 40)%R.
  Proof.
    unfold N. split; [apply IZR_le; pose proof (Z.pow_pos_nonneg 2 n); lia|].
    rewrite (pow_IZR 2 40). apply IZR_le. apply Z.pow_le_mono_r; lia.
  Qed.
  Lemma Nu_small : (N * u <= / 8000)%R.
  Proof.
    pose proof N_range as H. pose proof u_pos. apply Rle_trans with (2 ^ 40 * u)%R; [apply Rmult_le_compat_r; lra|].
    lra.
  Qed.
  Lemma E47 : (N / 2 ^ 47 = 64 * (N * u))%R.
  Proof. field. Qed.

  Lemma draw_double k T : 0 <= k <= n -> (0 <= T <= 3 / 2)%R -> (draw_error u w n k T <= N / 2 ^ 47)%R.
  Proof.
    intros Hk HT. pose proof u_pos as Hu. pose proof w_pos as Hw. pose proof N_range as HN. pose proof Nu_small as HNu. rewrite E47.
    unfold draw_error. cbv zeta. rewrite plus_IZR. fold N.
    assert (HM : (1 <= IZR (2 ^ k) <= N)%R).
    { split; [apply IZR_le; pose proof (Z.pow_pos_nonneg 2 k); lia|]. apply IZR_le, Z.pow_le_mono_r; lia. }
    set (M := IZR (2 ^ k)) in *. set (K := (2 * 2 ^ Z.to_nat n + 2 ^ Z.to_nat k + 11)%nat).
    assert (EK : (INR K = 2 * N + M + 11)%R).
    { unfold K. rewrite !plus_INR, mult_INR, (INR_pow n), (INR_pow k) by lia. fold N M.
      replace (INR 2) with 2%R by (cbn; lra). replace (INR 11) with 11%R by (cbn; lra). ring. }
    assert (HK : (INR K * u <= 14 * (N * u))%R).
    { rewrite EK. replace (14 * (N * u))%R with (14 * N * u)%R by ring. apply Rmult_le_compat_r; lra. }
    pose proof (pow_lin u K ltac:(lra) ltac:(lra)) as HP.
    set (x := (N * u)%R) in *. assert (Hx : (0 <= x)%R) by (unfold x; apply Rmult_le_pos; lra).
    assert (HW : (0 <= 2 * w * N * (M + 1) <= / 1000)%R).
    { split; [repeat (apply Rmult_le_pos; [|lra]); lra|].
      apply Rle_trans with (2 * w * N * (2 * N))%R; [apply Rmult_le_compat_l; [|lra]; repeat (apply Rmult_le_pos; [|lra]); lra|].
      apply Rle_trans with (4 * w * (2 ^ 40 * 2 ^ 40))%R.
      - replace (2 * w * N * (2 * N))%R with (4 * w * (N * N))%R by ring. apply Rmult_le_compat_l; [lra|]. apply Rmult_le_compat; lra.
      - pose proof w_u as WU. assert (Hb : (0 < / 2 ^ 840 <= 1)%R).
        { split; [apply Rinv_0_lt_compat, pow_lt; lra|]. rewrite <- Rinv_1. apply Rinv_le_contravar; [lra|]. apply pow_R1_Rle; lra. }
        assert (w <= u * / 2 ^ 60)%R.
        { eapply Rle_trans; [exact WU|]. apply Rmult_le_compat_l; [lra|]. rewrite <- (Rmult_1_r (/ 2 ^ 60)) at 2. apply Rmult_le_compat_l; lra. }
        apply Rle_trans with (4 * (u * / 2 ^ 60) * (2 ^ 40 * 2 ^ 40))%R; [|lra].
        apply Rmult_le_compat_r; lra. }
    apply Rle_trans with (28 * x * (3 / 2 + / 1000))%R; [|lra].
    apply Rmult_le_compat; [pose proof (pow1_ge u K ltac:(lra)); lra|lra|lra|lra].
  Qed.

  Lemma collapse_double p : (/ 2 ^ 800 <= p <= 1)%R -> (4 * prob_error u w n (p / 2) <= p)%R /\ (collapse_error u w n p <= N / 2 ^ 47)%R.
  Proof.
    intros Hp. pose proof u_pos as Hu. pose proof w_pos as Hw. pose proof N_range as HN. pose proof Nu_small as HNu. rewrite E47.
    assert (H8 : (0 < / 2 ^ 800)%R) by (apply Rinv_0_lt_compat, pow_lt; lra).
    assert (Hb : (0 < / 2 ^ 840 <= / 2 ^ 800)%R).
    { split; [apply Rinv_0_lt_compat, pow_lt; lra|]. apply Rinv_le_contravar; [apply pow_lt; lra|]. apply Rle_pow; [lra|lia]. }
    assert (HW : (0 <= 2 * w * N <= u * p)%R).
    { split; [apply Rmult_le_pos; lra|].
      apply Rle_trans with (2 * (u * (/ 2 ^ 60 * / 2 ^ 840)) * 2 ^ 40)%R.
      - pose proof w_u. apply Rmult_le_compat; lra.
      - replace (2 * (u * (/ 2 ^ 60 * / 2 ^ 840)) * 2 ^ 40)%R with (u * (/ 2 ^ 840 * (2 * 2 ^ 40 * / 2 ^ 60)))%R by ring.
        apply Rmult_le_compat_l; [lra|]. set (b := (/ 2 ^ 840)%R) in *. set (c := (/ 2 ^ 800)%R) in *. clearbody b c.
        assert (2 * 2 ^ 40 * / 2 ^ 60 <= 1)%R by lra. assert (0 <= 2 * 2 ^ 40 * / 2 ^ 60)%R by lra. nra. }
    assert (Pp : (0 < p)%R) by lra. unfold collapse_error, prob_error. cbv zeta. fold N.
    set (K := (5 + 2 ^ Z.to_nat n)%nat).
    assert (EK : (INR K = 5 + N)%R).
    { unfold K. rewrite plus_INR, (INR_pow n) by lia. fold N. replace (INR 5) with 5%R by (cbn; lra). ring. }
    assert (HK : (INR K * u <= 6 * (N * u))%R).
    { rewrite EK. replace (6 * (N * u))%R with (6 * N * u)%R by ring. apply Rmult_le_compat_r; lra. }
    pose proof (pow_lin u K ltac:(lra) ltac:(lra)) as HP. pose proof (pow1_ge u K ltac:(lra)) as HP0.
    assert (Hx1 : (u <= N * u)%R) by (rewrite <- (Rmult_1_l u) at 1; apply Rmult_le_compat_r; lra).
    set (x := (N * u)%R) in *. set (g := ((1 + u) ^ K - 1)%R) in *. assert (Hg : (0 <= g <= 12 * x)%R) by (unfold g; lra).
    set (c := (2 * w * N)%R) in *. assert (Hc : (c <= / 1000 * p)%R) by (pose proof (Rmult_le_compat_r p u (/ 1000)); lra).
    split.
    { assert (g * (p / 2 + c) <= 12 * x * (p / 2 + / 1000 * p))%R by (apply Rmult_le_compat; lra). nra. }
    assert (HR : (0 <= g * (p / 2 + c) / (p / 2) <= 12 * x * (1 + / 500))%R).
    { replace (g * (p / 2 + c) / (p / 2))%R with (g * (1 + 2 * (c / p)))%R by (field; lra).
      assert (0 <= c / p <= / 1000)%R.
      { split; [apply Rmult_le_pos; [lra|left; apply Rinv_0_lt_compat; lra]|].
        apply Rmult_le_reg_r with p; [lra|]. replace (c / p * p)%R with c by (field; lra). lra. }
      split; [apply Rmult_le_pos; lra|apply Rmult_le_compat; lra]. }
    set (q := (g * (p / 2 + c) / (p / 2))%R) in *. clearbody q.
    assert (HWN : (4 * w * N <= / 1000)%R).
    { replace (4 * w * N)%R with (2 * c)%R by (unfold c; ring). assert (c <= / 2000)%R; [|lra].
      apply Rle_trans with (u * p)%R; [lra|]. apply Rle_trans with (u * 1)%R; [apply Rmult_le_compat_l; lra|lra]. }
    assert (HWN0 : (0 <= 4 * w * N)%R) by (unfold c in HW; lra).
    set (y := (4 * w * N)%R) in *. clearbody y. clear HP HP0 HK EK.
    assert (U2 : (0 <= (1 + u) ^ 2 - 1 <= 3 * u)%R) by (set (v := u) in *; clearbody v; nra).
    set (u2 := ((1 + u) ^ 2 - 1)%R) in *. clearbody u2.
    assert (HE : (0 <= 3 / 2 * (1 + (2 * q + 7 * u)) + y <= 2)%R) by lra.
    assert (u2 * (3 / 2 * (1 + (2 * q + 7 * u)) + y) <= 3 * u * 2)%R by (apply Rmult_le_compat; lra).
    lra.
  Qed.
End Doubles.

Lemma soft_possible_zero u w n indices off (vec : list CR) rand m :
  (0 <= u)%R -> (0 <= w)%R -> 0 <= n -> qubits_ok n indices -> slice_ok n off vec -> (0 <= rand <= 1)%R ->
  fsoft_measure u w rand indices n vec off (m, 0%R) ->
  let B := below n (measured_order n indices) (amp_at off vec) in
  let E := draw_error u w n (zlen indices) (tprob vec) in
  m = 2 ^ zlen indices - 1 /\ (B m - E <= rand * tprob vec)%R \/ m = 0 /\ (rand * tprob vec <= E)%R.
Proof.
  intros Hu Hw Hn HI HS Hr HF B E. destruct (soft_err u w Hu Hw n indices off vec Hn HI HS rand (m, 0%R) Hr HF) as (_ & _ & [H2 _] & H3).
  destruct (H3 eq_refl) as [H4|H4]; [left|right; exact H4]. split; [exact H4|exact H2].
Qed.

Lemma double_measured n indices rand (v v' : list CR) m p out :
  0 <= n <= 40 -> qubits_ok n indices -> (0 <= rand <= 1)%R -> zlen v' = 2 ^ n -> norm2 n v = 1%R ->
  fmeasure (/ 2 ^ 53) (/ 2 ^ 969) rand indices n v' (m, p) out ->
  let g := measured_order n indices in
  let P := marginal n g (amp_at 0 v) m in
  let E := (IZR (2 ^ n) / 2 ^ 47)%R in
  ((tprob v' <= 3 / 2)%R -> (below n g (amp_at 0 v') m - E <= rand * tprob v' <= below n g (amp_at 0 v') (m + 1) + E)%R) /\
  ((8 * dist n v' v <= P)%R -> (/ 2 ^ 800 <= P)%R ->
   (dist n out (collapsed_state n indices m v) <= 2 * dist n v' v / sqrt P + E)%R).
Proof.
  intros Hn HI Hr HV H1 HF g P E. pose proof u_pos as Hu. pose proof w_pos as Hw. assert (Hn0 : 0 <= n) by lia.
  assert (Hw2 : (/ 2 ^ 969 <= 1 / 2)%R).
  { apply Rle_trans with (/ 2 ^ 1)%R; [apply Rinv_le_contravar; [apply pow_lt; lra|apply Rle_pow; [lra|lia]]|lra]. }
  split.
  - intros HT. assert (SL : slice_ok n 0 v') by (split; lia).
    destruct (soft_err (/ 2 ^ 53) (/ 2 ^ 969) ltac:(lra) ltac:(lra) n indices 0 v' Hn0 HI SL rand (m, p) Hr (proj1 HF)) as (_ & _ & H2 & _).
    cbn [fst] in H2. fold g in H2.
    assert (HT0 : (0 <= tprob v')%R) by (unfold tprob; apply sumR_pos; intros; apply cnorm2_pos).
    pose proof (draw_double n Hn (zlen indices) (tprob v') (k_n n indices Hn0 HI) (conj HT0 HT)) as D. fold E in D.
    split; [eapply Rle_trans; [|exact (proj1 H2)]; apply Rplus_le_compat_l, Ropp_le_contravar, D
      |eapply Rle_trans; [exact (proj2 H2)|]; apply Rplus_le_compat_l, D].
  - intros Hd HP. assert (P1 : (P <= 1)%R).
    { assert (EV : vnorm n (amp_at 0 v) = 1%R).
      { pose proof (norm2_vnorm n v) as EE. rewrite H1 in EE. pose proof (vnorm_pos n (amp v)).
        assert (vnorm n (amp v) = 1)%R as <- by nra. apply vnorm_ext. intros; unfold amp_at, amp; rewrite Z.sub_0_r; reflexivity. }
      rewrite <- (Rmult_1_r 1), <- EV. exact (marginal_le n g (amp_at 0 v) m). }
    assert (H8 : (0 < / 2 ^ 800)%R) by (apply Rinv_0_lt_compat, pow_lt; lra).
    destruct (collapse_double n Hn P (conj HP P1)) as [C1 C2].
    destruct (collapse_near (/ 2 ^ 53) (/ 2 ^ 969) ltac:(lra) ltac:(lra) n indices Hn0 HI rand v v' (m, p) out Hr HV H1 HF
      (Rlt_le_trans _ _ _ H8 HP) Hd C1) as [_ D].
    eapply Rle_trans; [exact D|]. apply Rplus_le_compat_l. exact C2.
Qed.

(** ** examples *)
Definition ex_v : list CR := [(3 / 5, 0)%R; (4 / 5, 0)%R].
Lemma ex_u : (0 <= / 2 ^ 53)%R.
Proof. apply Rlt_le, Rinv_0_lt_compat, pow_lt; lra. Qed.
Lemma ex_w : (0 <= / 2 ^ 969)%R.
Proof. apply Rlt_le, Rinv_0_lt_compat, pow_lt; lra. Qed.
Lemma ex_q : qubits_ok 1 [0].
Proof. split; [repeat constructor; auto|intros q [<-|[]]; lia]. Qed.
Lemma ex_s : slice_ok 1 0 ex_v.
Proof. split; [lia|vm_compute; discriminate]. Qed.
Lemma ex_m0 : marginal 1 (measured_order 1 [0]) (amp_at 0 ex_v) 0 = (9 / 25)%R.
Proof. cbv -[Rplus Rmult Ropp Rminus Rdiv IZR R]. field. Qed.
Lemma ex_m1 : marginal 1 (measured_order 1 [0]) (amp_at 0 ex_v) 1 = (16 / 25)%R.
Proof. cbv -[Rplus Rmult Ropp Rminus Rdiv IZR R]. field. Qed.
Lemma ex_t : tprob ex_v = 1%R.
Proof. cbv -[Rplus Rmult Ropp Rminus Rdiv IZR R]. field. Qed.
Lemma ex_b1 : below 1 (measured_order 1 [0%Z]) (amp_at 0 ex_v) 1 = (9 / 25)%R.
Proof. cbv -[Rplus Rmult Ropp Rminus Rdiv IZR R]. field. Qed.
Lemma ex_b2 : below 1 (measured_order 1 [0%Z]) (amp_at 0 ex_v) 2 = 1%R.
Proof. cbv -[Rplus Rmult Ropp Rminus Rdiv IZR R]. field. Qed.
Lemma ex_same : exists m p p', fsoft_measure (/ 2 ^ 53) (/ 2 ^ 969) (1 / 2) [0] 1 ex_v 0 (m, p) /\
  soft_measure (1 / 2)%R 0%R [0] 1 ex_v None 0 = Ok (1, p') /\
  let E := draw_error (/ 2 ^ 53) (/ 2 ^ 969) 1 1 (tprob ex_v) in
  (below 1 (measured_order 1 [0%Z]) (amp_at 0 ex_v) 1 + E < 1 / 2 * tprob ex_v < below 1 (measured_order 1 [0%Z]) (amp_at 0 ex_v) 2 - E)%R.
Proof.
  destruct (soft_free (K := R) 1 [0] 0 ex_v ltac:(lia) ex_q ex_s (1 / 2)%R 0%R) as (m & Hm & E & _ & H2).
  assert (m = 1) as ->.
  { change (2 ^ zlen [0]) with 2 in *. assert (m = 0 \/ m = 1) as [-> | ->] by lia; auto. exfalso. destruct H2 as [H2|H2]; [|discriminate].
    apply Rleb_le in H2. change (0 + 1) with 1 in H2. rewrite ex_b1 in H2.
    assert (X : ((1 / 2) * (0 + tprob ex_v) = 1 / 2)%R) by (rewrite ex_t; lra).
    assert (Y : (1 / 2 <= 9 / 25)%R) by (rewrite <- X at 1; exact H2). lra. }
  eexists 1, _, _. split; [exact (soft_possible _ _ ex_u ex_w 1 [0] 0 ex_v ltac:(lia) ex_q ex_s _ _ E)|].
  split; [exact E|]. cbv zeta. rewrite ex_b1, ex_b2, ex_t.
  pose proof (draw_double 1 ltac:(lia) 1 1%R ltac:(lia) ltac:(lra)) as D. assert (IZR (2 ^ 1) / 2 ^ 47 <= / 1000)%R.
  { change (2 ^ 1) with 2. lra. }
  lra.
Qed.
Lemma ex_collapse : exists m p out, fmeasure (/ 2 ^ 53) (/ 2 ^ 969) (1 / 2) [0] 1 ex_v (m, p) out /\ norm2 1 ex_v = 1%R /\
  let P := marginal 1 (measured_order 1 [0]) (amp_at 0 ex_v) m in
  (8 * dist 1 ex_v ex_v <= P)%R /\ (/ 2 ^ 800 <= P)%R /\ (4 * prob_error (/ 2 ^ 53) (/ 2 ^ 969) 1 (P / 2) <= P)%R.
Proof.
  destruct (soft_free (K := R) 1 [0] 0 ex_v ltac:(lia) ex_q ex_s (1 / 2)%R 0%R) as (m & Hm & E & _ & _).
  set (P := marginal 1 (measured_order 1 [0]) (amp_at 0 ex_v) m) in *.
  assert (HP : (9 / 25 <= P <= 1)%R).
  { change (2 ^ zlen [0]) with 2 in *. assert (m = 0 \/ m = 1) as [-> | ->] by lia; unfold P.
    - pose proof ex_m0 as X. split; [apply Req_le; symmetry; exact X|eapply Rle_trans; [apply Req_le; exact X|lra]].
    - pose proof ex_m1 as X. split; [eapply Rle_trans; [|apply Req_le; symmetry; exact X]; lra|eapply Rle_trans; [apply Req_le; exact X|lra]]. }
  assert (H8 : (/ 2 ^ 800 <= P)%R).
  { apply Rle_trans with (/ 2 ^ 2)%R; [apply Rinv_le_contravar; [apply pow_lt; lra|apply Rle_pow; [lra|lia]]|lra]. }
  assert (EM : measure (fun p => sqrt (1 / p)) (1 / 2)%R 0%R [0] 1 ex_v ex_v 0 0 None None
    = Ok ((m, P), measure_out (K := R) 1 [0] 0 0 ex_v ex_v m (sqrt (1 / P)))).
  { apply (measure_ok (K := R) 1 [0] ltac:(lia) ex_q (fun p => sqrt (1 / p)) (1 / 2)%R 0%R 0 0 ex_v ex_v None None m P ex_s ex_s eq_refl eq_refl E Hm).
    intros Z0. change (P = 0%R) in Z0. lra. }
  exists m, P, (measure_out (K := R) 1 [0] 0 0 ex_v ex_v m (sqrt (1 / P))).
  split; [exact (measure_possible _ _ _ 1 [0] ex_v ex_v _ _ ex_u ex_w ltac:(lia) ex_q eq_refl eq_refl EM)|].
  split; [cbv -[Rplus Rmult Ropp Rminus Rdiv IZR R]; field|]. cbv zeta. fold P.
  split; [|split; [exact H8|apply (collapse_double 1 ltac:(lia) P); split; [exact H8|lra]]].
  assert (D0 : dist 1 ex_v ex_v = 0%R).
  { unfold dist. rewrite <- sqrt_0. f_equal. cbv -[Rplus Rmult Ropp Rminus Rdiv IZR R]. field. }
  rewrite D0. lra.
Qed.
Lemma ex_zero : fsoft_measure (/ 2 ^ 53) (/ 2 ^ 969) 0 [0] 1 [(0, 0)%R; (1, 0)%R] 0 (0, 0%R).
Proof.
  set (v := [(0, 0)%R; (1, 0)%R] : list CR). assert (HS : slice_ok 1 0 v) by (split; [lia|vm_compute; discriminate]).
  destruct (soft_free (K := R) 1 [0] 0 v ltac:(lia) ex_q HS 0%R 0%R) as (m & Hm & E & H1 & _).
  assert (EP : marginal 1 (measured_order 1 [0]) (amp_at 0 v) 0 = 0%R) by (cbv -[Rplus Rmult Ropp Rminus Rdiv IZR R]; ring).
  assert (m = 0) as ->.
  { change (2 ^ zlen [0]) with 2 in *. destruct (Z.eq_dec m 0) as [|Hne]; auto. exfalso. specialize (H1 0 ltac:(lia)). unfold rlt in H1.
    assert (X : (0 * (0 + tprob v) <= below 1 (measured_order 1 [0%Z]) (amp_at 0 v) (0 + 1))%R).
    { rewrite Rmult_0_l. replace (below 1 (measured_order 1 [0%Z]) (amp_at 0 v) (0 + 1)) with 0%R by (cbv -[Rplus Rmult Ropp Rminus Rdiv IZR R]; ring). lra. }
    apply Rleb_le in X. change (Rleb (0 * (0 + tprob v)) (below 1 (measured_order 1 [0%Z]) (amp_at 0 v) (0 + 1)) = false) in H1. congruence. }
  change (marginal 1 (measured_order 1 [0]) (amp_at 0 v) 0) with (marginal (OK := ROrdRing) 1 (measured_order 1 [0]) (amp_at 0 v) 0) in EP.
  assert (E' : soft_measure 0%R 0%R [0] 1 v None 0 = Ok (0, 0%R)) by (rewrite <- EP at 3; exact E).
  exact (soft_possible _ _ ex_u ex_w 1 [0] 0 v ltac:(lia) ex_q HS _ _ E').
Qed.
