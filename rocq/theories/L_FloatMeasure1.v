(** Rounding errors of measurements: the outcome. *)
From Coq Require Import Reals Lra.
From Verif Require Import Base BaseR S_Bits M_Bits L_Bits M_Kron S_Kron L_Kron M_Ops S_Ops M_Feed M_Measure S_Measure L_Measure1 L_Measure2 L_Measure5 M_Float S_Float L_Float1 L_Float2 L_Float3 L_Float4 L_Float5 L_Float7 M_FloatMeasure S_FloatMeasure.
Local Open Scope Z_scope.

Lemma Rabs_le_inv x b : (Rabs x <= b -> - b <= x <= b)%R.
Proof. intros H. pose proof (Rle_abs x). pose proof (Rle_abs (- x)) as H1. rewrite Rabs_Ropp in H1. lra. Qed.

Lemma filter_len {A} (f : A -> bool) l : (length (filter f l) <= length l)%nat.
Proof. induction l as [|a l IH]; cbn; [lia|]. destruct (f a); cbn; lia. Qed.

Lemma nat_pow j : 0 <= j -> Z.to_nat (2 ^ j) = (2 ^ Z.to_nat j)%nat.
Proof. intros. rewrite <- (Z2Nat.id j) at 1 by auto. apply pow2_nat. Qed.
Lemma INR_pow j : 0 <= j -> INR (2 ^ Z.to_nat j) = IZR (2 ^ j).
Proof. intros. rewrite <- nat_pow, INR_IZR_INZ, Z2Nat.id; auto. apply Z.pow_nonneg; lia. Qed.

Section FloatMeasure.
  Variables u w : R.
  Hypothesis Hu : (0 <= u)%R.
  Hypothesis Hw : (0 <= w)%R.

  Lemma facc_close vec off l acc N : (forall i, In i l -> 0 <= i - off < zlen vec) -> (length l <= N)%nat -> facc u w vec off l acc ->
    (Rabs (acc - sum l (fun i => cnorm2 (amp_at off vec i)))
     <= ((1 + u) ^ (5 + N) - 1) * (sum l (fun i => cnorm2 (amp_at off vec i)) + 2 * w * INR N))%R.
  Proof.
    intros Hl HN (t & Ht & Hs).
    assert (HA : forall i, In i l -> approx (A := R) Rabs ((1 + u) ^ 5) (cnorm2 (amp_at off vec i) + w) (t i) (cnorm2 (amp_at off vec i))).
    { intros i Hi. destruct (Ht i Hi) as (x & Ex & Hx). rewrite (cget_ok 0%r) in Ex by (apply Hl; auto). injection Ex as <-.
      pose proof (cnorm2_pos (amp_at off vec i)). split; [rewrite Rabs_pos_eq; lra|exact Hx]. }
    assert (H5 : (1 <= (1 + u) ^ 5)%R) by (apply pow1_ge; auto).
    pose proof (fsum_approx (A := R) Rabs Rabs_R0 Rabs_pos Rabs_triang u w Hu Hw (fun a b v => rounds u w (a + b) v) 1 ltac:(lra)
      ltac:(intros a b v Hv; rewrite Rmult_1_l; exact Hv) _ _ t _ l _ H5 HA Hs) as HF.
    eapply approx_mono in HF as [_ HF]; [exact HF|exact Rabs_pos| | | ].
    - pose proof (pow1_ge u (length l) Hu). nra.
    - rewrite pow_add. apply Rmult_le_compat_l; [lra|]. apply pow1_mono; auto.
    - rewrite sumR_add, sumR_const. apply le_INR in HN. nra.
  Qed.

  (** ** the loop over the outcomes *)
  Section Loop.
    Variables (P : Z -> R) (prob : Z -> R -> Prop) (g c T rT hi : R) (lim : Z).
    Hypothesis HP0 : forall m, 0 <= m < lim -> (0 <= P m)%R.
    Hypothesis Hprob : forall m acc, 0 <= m < lim -> prob m acc -> (Rabs (acc - P m) <= g * (P m + c))%R.
    Hypothesis HT : sum (zrange 0 lim) P = T.
    Hypothesis Hg : (0 <= g)%R.
    Hypothesis Hc : (0 <= c)%R.
    Hypothesis HrT : (0 <= rT <= T)%R.
    Notation B m := (sum (zrange 0 m) P).
    (** the error after m subtractions *)
    Definition bnd (E0 : R) (m : Z) : R := ((1 + u) ^ Z.to_nat m * (E0 + T + w + g * (B m + IZR m * c)) - (T + w))%R.

    Lemma B_succ m : 0 <= m -> B (m + 1) = (B m + P m)%R.
    Proof.
      intros. rewrite (zrange_snoc 0 (m + 1)) by lia. replace (m + 1 - 1) with m by lia.
      rewrite sum_app. rewrite sumR_cons, sumR_nil. change (@radd R RCRing) with Rplus. ring.
    Qed.
    Lemma B_le m : 0 <= m <= lim -> (0 <= B m <= T)%R.
    Proof.
      intros H. split; [apply sumR_pos; intros i Hi; apply in_zrange in Hi; apply HP0; lia|].
      rewrite <- HT, (zrange_app 0 m lim) by lia. rewrite sum_app. change (@radd R RCRing) with Rplus.
      assert (0 <= sum (zrange m lim) P)%R by (apply sumR_pos; intros i Hi; apply in_zrange in Hi; apply HP0; lia). lra.
    Qed.

    Lemma step_err E0 m r acc r' : 0 <= m < lim -> (0 <= E0)%R -> (Rabs (r - (rT - B m)) <= bnd E0 m)%R -> prob m acc ->
      rounds u w (r - acc) r' -> (Rabs (r' - (rT - B (m + 1))) <= bnd E0 (m + 1))%R.
    Proof.
      intros Hm HE Hr Ha Hs. apply Hprob in Ha; auto. unfold rounds in Hs. pose proof (HP0 m Hm) as Pm.
      pose proof (B_le m ltac:(lia)) as Bm. pose proof (B_le (m + 1) ltac:(lia)) as Bm1. rewrite B_succ in * by lia.
      unfold bnd in *. rewrite B_succ by lia. replace (Z.to_nat (m + 1)) with (S (Z.to_nat m)) by lia.
      rewrite plus_IZR. change (@radd R RCRing) with Rplus in *.
      set (k := ((1 + u) ^ Z.to_nat m)%R) in *.
      assert (Hk : (1 <= k)%R) by (apply pow1_ge; auto). rewrite <- tech_pow_Rmult. fold k.
      set (b := B m) in *. set (p := P m) in *.
      assert (HD : (0 <= g * (p + c))%R) by (apply Rmult_le_pos; lra).
      set (X := (E0 + T + w + g * (b + IZR m * c))%R) in *.
      replace (E0 + T + w + g * (b + p + (IZR m + 1) * c))%R with (X + g * (p + c))%R by (unfold X; ring).
      set (e := (r - (rT - b))%R) in *. set (d := (acc - p)%R) in *.
      assert (Ex : (r - acc = (rT - (b + p)) + e - d)%R) by (unfold e, d; ring).
      assert (Ax : (Rabs (r - acc) <= T + Rabs e + Rabs d)%R).
      { rewrite Ex. unfold Rminus at 1. eapply Rle_trans; [apply Rabs_triang|]. rewrite Rabs_Ropp.
        pose proof (Rabs_triang (rT - (b + p)) e). assert (Rabs (rT - (b + p)) <= T)%R by (apply Rabs_le; lra). lra. }
      replace (r' - (rT - (b + p)))%R with ((r' - (r - acc)) + (e - d))%R by (unfold e, d; ring).
      eapply Rle_trans; [apply Rabs_triang|]. pose proof (Rabs_triang e (- d)) as Te. rewrite Rabs_Ropp in Te.
      change (e + - d)%R with (e - d)%R in Te.
      assert (U1 : (u * (Rabs (r - acc) + w) <= u * (T + Rabs e + Rabs d + w))%R) by (apply Rmult_le_compat_l; lra).
      assert (U2 : ((1 + u) * (Rabs e + T + w + Rabs d) <= (1 + u) * (k * X + k * (g * (p + c))))%R).
      { apply Rmult_le_compat_l; [lra|]. assert (g * (p + c) <= k * (g * (p + c)))%R by nra. lra. }
      lra.
    Qed.
    Lemma bnd_mono E0 m m' : (0 <= E0)%R -> 0 <= m <= m' -> m' <= lim -> (bnd E0 m <= bnd E0 m')%R.
    Proof.
      intros HE H H'. unfold bnd. pose proof (B_le m ltac:(lia)) as Bm. pose proof (B_le m' ltac:(lia)) as Bm'.
      assert (L : (B m <= B m')%R).
      { rewrite (zrange_app 0 m m') by lia. rewrite sum_app. change (@radd R RCRing) with Rplus.
        assert (0 <= sum (zrange m m') P)%R by (apply sumR_pos; intros i Hi; apply in_zrange in Hi; apply HP0; lia). lra. }
      assert (Lk : ((1 + u) ^ Z.to_nat m <= (1 + u) ^ Z.to_nat m')%R) by (apply pow1_mono; auto; lia).
      assert (Li : (IZR m <= IZR m')%R) by (apply IZR_le; lia). assert (0 <= IZR m)%R by (apply IZR_le; lia).
      pose proof (pow1_ge u (Z.to_nat m) Hu).
      assert (g * (B m + IZR m * c) <= g * (B m' + IZR m' * c))%R by (apply Rmult_le_compat_l; [lra|]; nra).
      assert (0 <= g * (B m + IZR m * c))%R by (apply Rmult_le_pos; nra).
      assert ((1 + u) ^ Z.to_nat m * (E0 + T + w + g * (B m + IZR m * c)) <= (1 + u) ^ Z.to_nat m' * (E0 + T + w + g * (B m' + IZR m' * c)))%R
        by (apply Rmult_le_compat; lra).
      lra.
    Qed.

    Lemma loop_err E0 : (0 <= E0)%R -> forall l r last mp, fsoft_loop u w prob l r last mp -> forall m0, 0 <= m0 < lim -> l = zrange m0 lim ->
      (Rabs (r - (rT - B m0)) <= bnd E0 m0)%R ->
      m0 <= fst mp < lim /\ prob (fst mp) (snd mp) /\
      (fst mp = m0 \/ B (fst mp) - bnd E0 lim <= rT)%R /\ (rT <= B (fst mp + 1) + bnd E0 lim)%R /\
      (snd mp = 0%R -> fst mp = lim - 1 \/ fst mp = m0 /\ (r <= 0)%R).
    Proof.
      intros HE l r last mp H. induction H as [r last|m l r last acc r' Ha Hs H0|m l r last acc r' mp Ha Hs H0 HR IH]; intros m0 Hm El Er.
      - exfalso. rewrite zrange_cons in El by lia. discriminate.
      - rewrite zrange_cons in El by lia. injection El as -> ->. cbn [fst snd]. destruct Hs as [Hs Hz].
        pose proof (step_err E0 m0 r acc r' Hm HE Er Ha Hs) as Er'. pose proof (bnd_mono E0 (m0 + 1) lim HE ltac:(lia) ltac:(lia)) as Mb.
        split; [lia|]. split; [exact Ha|]. split; [left; reflexivity|]. split.
        + apply Rabs_le_inv in Er'. lra.
        + intros Z0. right. split; [reflexivity|]. rewrite <- (Hz Z0). exact H0.
      - rewrite zrange_cons in El by lia. injection El as -> ->. destruct Hs as [Hs Hz].
        pose proof (step_err E0 m0 r acc r' Hm HE Er Ha Hs) as Er'. pose proof (bnd_mono E0 (m0 + 1) lim HE ltac:(lia) ltac:(lia)) as Mb.
        destruct (Z.eq_dec (m0 + 1) lim) as [Hl|Hl].
        + (* the loop is not left *)
          rewrite (zrange_empty (m0 + 1)) in HR by lia. inversion HR; subst. cbn [fst snd]. split; [lia|]. split; [exact Ha|].
          split; [left; reflexivity|]. split; [|intros; left; lia].
          replace (B (m0 + 1)) with T by (rewrite <- HT; f_equal; f_equal; lia).
          assert (0 <= bnd E0 (m0 + 1))%R by (eapply Rle_trans; [apply Rabs_pos|exact Er']). lra.
        + destruct (IH (m0 + 1) ltac:(lia) eq_refl Er') as (I1 & I2 & I3 & I4 & I5).
          split; [lia|]. split; [exact I2|]. split; [|split; [exact I4|]].
          * right. destruct I3 as [I3|I3]; [|exact I3]. rewrite I3. apply Rabs_le_inv in Er'. lra.
          * intros Z0. destruct (I5 Z0) as [I6|[_ I6]]; [left; exact I6|]. lra.
    Qed.
  End Loop.

  (** ** soft_measure *)
  Section Soft.
    Variables (n : Z) (indices : list Z) (off : Z) (vec : list CR).
    Hypotheses (Hn : 0 <= n) (HI : qubits_ok n indices) (HS : slice_ok n off vec).
    Notation P := (marginal n (measured_order n indices) (amp_at off vec)).
    Notation B := (below n (measured_order n indices) (amp_at off vec)).
    Notation T := (tprob vec).
    Let k := zlen indices.

    Lemma cells_sum mask m : masked n indices mask -> 0 <= m < 2 ^ k ->
      sum (cells k (n - k) mask (zlen vec) off m) (fun i => cnorm2 (amp_at off vec i)) = P m.
    Proof.
      intros HM Hm. unfold cells. rewrite sum_filter, sum_map. unfold marginal.
      rewrite <- (sum_ent n indices mask Hn HI HM m (fun x => cnorm2 (amp_at off vec x))) by auto.
      apply sum_ext. intros i _. destruct (_ && _) eqn:E; [reflexivity|]. unfold amp_at.
      rewrite znth_out by (destruct (Z.leb_spec off (entwine_bit k (n - k) m i mask)), (Z.ltb_spec (entwine_bit k (n - k) m i mask) (zlen vec + off)); try discriminate; unfold k in *; lia).
      symmetry. apply cnorm2_0.
    Qed.
    Lemma cells_in mask m i : In i (cells k (n - k) mask (zlen vec) off m) -> 0 <= i - off < zlen vec.
    Proof. intros H. apply filter_In in H as [_ H]. apply andb_true_iff in H as [H1 H2]. apply Z.leb_le in H1. apply Z.ltb_lt in H2. lia. Qed.
    Lemma k_n : 0 <= k <= n.
    Proof. destruct (make_row_mask_ok n indices Hn HI) as (mask & Em & HM). exact (k_range n indices mask Hn HI HM). Qed.
    Lemma cells_length mask m : (length (cells k (n - k) mask (zlen vec) off m) <= 2 ^ Z.to_nat n)%nat.
    Proof.
      unfold cells. eapply Nat.le_trans; [apply filter_len|]. rewrite map_length, length_zrange, Z.sub_0_r, <- nat_pow by auto.
      apply Z2Nat.inj_le; try (apply Z.pow_nonneg; lia). apply Z.pow_le_mono_r; [lia|]. pose proof k_n. lia.
    Qed.

    Lemma soft_err rand mp : (0 <= rand <= 1)%R -> fsoft_measure u w rand indices n vec off mp ->
      0 <= fst mp < 2 ^ k /\ (Rabs (snd mp - P (fst mp)) <= prob_error u w n (P (fst mp)))%R /\
      (B (fst mp) - draw_error u w n k T <= rand * T <= B (fst mp + 1) + draw_error u w n k T)%R /\
      (snd mp = 0%R -> fst mp = 2 ^ k - 1 \/ fst mp = 0 /\ (rand * T <= draw_error u w n k T)%R).
    Proof.
      intros Hr (total & r & mask & Htot & Er & Em & HL). fold k in Er, HL.
      destruct (make_row_mask_ok n indices Hn HI) as (mask' & Em' & HM). rewrite Em in Em'. injection Em' as <-.
      pose proof k_n as Hk. pose proof (n_lt_pow n Hn) as Hlt. destruct (Z.ltb_spec k (2 ^ n)); [|lia].
      set (N := (2 ^ Z.to_nat n)%nat). set (g := ((1 + u) ^ (5 + N) - 1)%R). set (c := (2 * w * INR N)%R).
      assert (Hg : (0 <= g)%R) by (unfold g; pose proof (pow1_ge u (5 + N) Hu); lra).
      assert (Hc : (0 <= c)%R) by (unfold c; pose proof (pos_INR N); nra).
      assert (HT0 : (0 <= T)%R) by (unfold tprob; apply sumR_pos; intros; apply cnorm2_pos).
      assert (ET : sum (zrange 0 (2 ^ k)) P = T) by (rewrite <- (B_all n indices off vec Hn HI HS); reflexivity).
      assert (DT : (Rabs (total - T) <= g * (T + c))%R).
      { assert (E1 : sum (zrange 0 (zlen vec)) (fun i => cnorm2 (amp_at 0 vec i)) = T).
        { unfold tprob. etransitivity; [|symmetry; apply (f_equal (fun l => sum l cnorm2)); apply (list_as_map (0%r : CR) vec)].
          rewrite sum_map. apply sum_ext. intros i _. unfold amp_at. rewrite Z.sub_0_r. reflexivity. }
        pose proof (facc_close vec 0 (zrange 0 (zlen vec)) total N) as F. rewrite E1 in F. apply F; [|  |exact Htot].
        - intros i Hi. apply in_zrange in Hi. lia.
        - rewrite length_zrange, Z.sub_0_r. unfold N. rewrite <- nat_pow by auto. destruct HS. apply Z2Nat.inj_le; [apply zlen_nonneg|apply Z.pow_nonneg; lia|lia]. }
      assert (HrT : (0 <= rand * T <= T)%R) by (split; nra).
      set (E0 := (u * (T + g * (T + c) + w) + g * (T + c))%R).
      assert (HE0 : (0 <= E0)%R).
      { unfold E0. assert (0 <= g * (T + c))%R by (apply Rmult_le_pos; lra). assert (0 <= u * (T + g * (T + c) + w))%R by (apply Rmult_le_pos; lra). lra. }
      assert (D0 : (Rabs (r - rand * T) <= E0)%R).
      { unfold rounds in Er. replace (r - rand * T)%R with ((r - rand * total) + rand * (total - T))%R by ring.
        eapply Rle_trans; [apply Rabs_triang|]. rewrite Rabs_mult, (Rabs_pos_eq rand) by lra.
        assert (Rabs (rand * total) <= T + g * (T + c))%R.
        { rewrite Rabs_mult, (Rabs_pos_eq rand) by lra. pose proof (Rabs_triang (total - T) T) as Q. replace (total - T + T)%R with total in Q by ring.
          rewrite (Rabs_pos_eq T) in Q by auto. pose proof (Rabs_pos total). nra. }
        assert (u * (Rabs (rand * total) + w) <= u * (T + g * (T + c) + w))%R by (apply Rmult_le_compat_l; lra).
        pose proof (Rabs_pos (total - T)). unfold E0. nra. }
      assert (HP0 : forall m, 0 <= m < 2 ^ k -> (0 <= P m)%R) by (intros; apply marginal_pos).
      assert (Hprob : forall m acc, 0 <= m < 2 ^ k -> facc u w vec off (cells k (n - k) mask (zlen vec) off m) acc ->
        (Rabs (acc - P m) <= g * (P m + c))%R).
      { intros m acc Hm HA. rewrite <- (cells_sum mask m HM Hm). apply facc_close; auto; [intros i Hi; eapply cells_in; eauto|apply cells_length]. }
      assert (E00 : sum (zrange 0 0) P = 0%R) by reflexivity.
      assert (Hb0 : (Rabs (r - (rand * T - sum (zrange 0 0) P)) <= bnd P g c T E0 0)%R).
      { rewrite E00, Rminus_0_r. unfold bnd. cbn [Z.to_nat pow]. rewrite E00. lra. }
      destruct (loop_err P _ g c T (rand * T)%R (2 ^ k) HP0 Hprob ET Hg Hc HrT E0 HE0 _ _ _ _ HL 0
        ltac:(split; [lia|apply Z.pow_pos_nonneg; lia]) eq_refl Hb0) as (L1 & L2 & L3 & L4 & L5).
      assert (HB : (bnd P g c T E0 (2 ^ k) <= draw_error u w n k T)%R).
      { unfold bnd, draw_error. rewrite ET, nat_pow by lia. rewrite plus_IZR, <- (INR_pow n) by auto. fold N. fold c.
        set (M := (2 ^ Z.to_nat k)%nat). set (m := IZR (2 ^ k)). set (W := (c * (m + 1))%R).
        assert (Hm1 : (0 <= m)%R) by (apply IZR_le, Z.pow_nonneg; lia).
        assert (HN1 : (1 <= INR N)%R) by (change 1%R with (INR 1); apply le_INR; unfold N; clear; induction (Z.to_nat n); cbn; lia).
        assert (HW : (c <= W)%R) by (unfold W; nra). assert (Hwc : (w <= c)%R) by (unfold c; nra).
        set (G := ((1 + u) ^ (5 + N))%R). assert (Eg : g = (G - 1)%R) by reflexivity.
        assert (X1 : (E0 + T + w + g * (T + m * c) <= (1 + u) * (T + w + g * (2 * T + W)))%R).
        { replace (E0 + T + w + g * (T + m * c))%R with ((1 + u) * (T + w + g * (T + c)) + g * (T + m * c))%R by (unfold E0; ring).
          assert (g * (T + m * c) <= (1 + u) * (g * (T + m * c)))%R.
          { assert (0 <= g * (T + m * c))%R by (apply Rmult_le_pos; nra). nra. }
          apply Rle_trans with ((1 + u) * (T + w + g * (T + c) + g * (T + m * c)))%R; [lra|]. apply Req_le. unfold W. ring. }
        replace (2 * N + M + 11)%nat with (M + (1 + (5 + N) + (5 + N)))%nat by lia.
        assert (EG : ((1 + u) ^ (M + (1 + (5 + N) + (5 + N))) = (1 + u) ^ M * (1 + u) * (G * G))%R)
          by (unfold G; rewrite (pow_add _ M), (pow_add _ (1 + (5 + N))), (pow_add _ 1 (5 + N)), pow_1; ring).
        rewrite EG. pose proof (pow1_ge u M Hu) as HM1.
        assert (Y : ((1 + u) ^ M * (E0 + T + w + g * (T + m * c)) <= (1 + u) ^ M * (1 + u) * (T + w + g * (2 * T + W)))%R).
        { rewrite Rmult_assoc. apply Rmult_le_compat_l; [lra|exact X1]. }
        set (F := ((1 + u) ^ M * (1 + u))%R) in *. assert (HF : (1 <= F)%R) by (unfold F; nra).
        replace ((F * (G * G) - 1) * (T + W))%R
          with (F * (T + w + g * (2 * T + W)) - (T + w) + ((F - 1) * (W - w) + F * (g * W + g * g * (T + W))))%R by (rewrite Eg; ring).
        assert (0 <= (F - 1) * (W - w))%R by (apply Rmult_le_pos; lra).
        assert (0 <= g * W)%R by (apply Rmult_le_pos; lra). assert (0 <= g * g * (T + W))%R by (apply Rmult_le_pos; [apply Rmult_le_pos|]; lra).
        assert (0 <= F * (g * W + g * g * (T + W)))%R by (apply Rmult_le_pos; lra). lra. }
      assert (MB : (bnd P g c T E0 0 <= bnd P g c T E0 (2 ^ k))%R).
      { eapply (bnd_mono P) with (lim := 2 ^ k) (rT := (rand * T)%R); eauto; try lia. }
      split; [lia|]. split.
      { unfold prob_error. rewrite <- INR_pow by auto. apply Hprob; auto. }
      split; [split|].
      - destruct L3 as [L3|L3].
        + rewrite L3. change (B 0) with 0%R. assert (0 <= draw_error u w n k T)%R; [|lra].
          eapply Rle_trans; [|exact HB]. eapply Rle_trans; [|exact MB]. eapply Rle_trans; [apply Rabs_pos|exact Hb0].
        + eapply Rle_trans; [|exact L3]. apply Rplus_le_compat_l, Ropp_le_contravar, HB.
      - eapply Rle_trans; [exact L4|]. apply Rplus_le_compat_l, HB.
      - intros Z0. destruct (L5 Z0) as [L6|[L6 L7]]; [left; exact L6|right]. split; [exact L6|].
        apply Rabs_le_inv in D0. assert (E0 <= draw_error u w n k T)%R; [|lra].
        eapply Rle_trans; [|exact HB]. eapply Rle_trans; [|exact MB]. unfold bnd. cbn [Z.to_nat pow]. rewrite E00. lra.
    Qed.

    (** the outcome is that of exact arithmetic unless the draw is close to the boundary *)
    Lemma soft_same rand mp m' p' : (0 <= rand <= 1)%R -> fsoft_measure u w rand indices n vec off mp ->
      soft_measure rand 0%R indices n vec None off = Ok (m', p') ->
      (B m' + draw_error u w n k T < rand * T < B (m' + 1) - draw_error u w n k T)%R -> fst mp = m'.
    Proof.
      intros Hr HF HE Hd. destruct (soft_err rand mp Hr HF) as (H1 & _ & H2 & _).
      destruct (soft_free (K := R) n indices off vec Hn HI HS rand 0%R) as (m & Hm & Em & _ & _). rewrite HE in Em. injection Em as -> _.
      assert (ML : forall a b, 0 <= a <= b -> (B a <= B b)%R).
      { intros a b Hab. pose proof (below_mono n (measured_order n indices) (amp_at off vec) a b Hab) as L. apply Rleb_le in L. exact L. }
      destruct (Z.lt_total (fst mp) m) as [L|[L|L]]; [|exact L|].
      - pose proof (ML (fst mp + 1) m ltac:(lia)). lra.
      - pose proof (ML (m + 1) (fst mp) ltac:(lia)). lra.
    Qed.
  End Soft.
End FloatMeasure.
