(** soft_measure, measure, reduce_measure. *)
From Verif Require Import Base S_Bits M_Bits L_Bits M_Kron L_Kron M_Feed M_Measure S_Measure L_Measure1.

Section Meas.
  Context {K : Type} {OK : OrdRing K}.
  Notation C := (Cx K).
  Add Ring KRingM : (@rth K _).
  Add Ring CRingM : (@rth (Cx K) _).

  Lemma marginal_nonneg n g (f : Z -> C) v : rle 0%r (marginal n g f v).
  Proof.
    apply sum_nonneg. intros x _. destruct (reg n g x =? v); [apply cnorm2_nonneg|apply rle_refl].
  Qed.
  Lemma below_succ n g (f : Z -> C) v : 0 <= v -> below n g f (v + 1) = (below n g f v + marginal n g f v)%r.
  Proof.
    intros. unfold below. rewrite (zrange_snoc 0 (v + 1)) by lia. replace (v + 1 - 1) with v by lia.
    rewrite sum_app. cbn [sum]. ring.
  Qed.
  Lemma below_mono n g (f : Z -> C) v w : 0 <= v <= w -> rle (below n g f v) (below n g f w).
  Proof.
    intros H. unfold below. rewrite (zrange_app 0 v w) by lia. rewrite sum_app.
    replace (sum (zrange 0 v) (marginal n g f)) with (sum (zrange 0 v) (marginal n g f) + 0)%r at 1 by ring.
    apply rle_add_l. apply sum_nonneg. intros; apply marginal_nonneg.
  Qed.
  (** the marginals of a register add up to the total *)
  Lemma below_all n g (f : Z -> C) :
    below n g f (2 ^ zlen g) = sum (zrange 0 (2 ^ n)) (fun x => cnorm2 (f x)).
  Proof.
    unfold below, marginal. rewrite sum_swap. apply sum_ext. intros x _.
    rewrite (sum_single _ (reg n g x)).
    - rewrite Z.eqb_refl. reflexivity.
    - apply zrange_nodup.
    - apply in_zrange, reg_range.
    - intros v _ Hv. destruct (Z.eqb_spec (reg n g x) v); congruence.
  Qed.
  Lemma tprob_slice n off (vec : list C) : 0 <= n -> slice_ok n off vec ->
    sum (zrange 0 (2 ^ n)) (fun x => cnorm2 (amp_at off vec x)) = tprob vec.
  Proof.
    intros Hn [Ho Hl]. pose proof (zlen_nonneg vec).
    rewrite (zrange_app 0 off (2 ^ n)), (zrange_app off (off + zlen vec) (2 ^ n)) by lia. rewrite !sum_app.
    rewrite (sum_zero (zrange 0 off)).
    2:{ intros x Hx. apply in_zrange in Hx. unfold amp_at. rewrite znth_out by lia. apply cnorm2_0. }
    rewrite (sum_zero (zrange (off + zlen vec) (2 ^ n))).
    2:{ intros x Hx. apply in_zrange in Hx. unfold amp_at. rewrite znth_out by lia. apply cnorm2_0. }
    replace off with (0 + off) at 1 by lia. replace (off + zlen vec) with (zlen vec + off) by lia.
    rewrite zrange_shift, sum_map. 
    assert (ET : tprob vec = sum (zrange 0 (zlen vec)) (fun j => cnorm2 (znth 0%r vec j))).
    { unfold tprob. rewrite (list_as_map 0%r vec) at 1. apply sum_map. }
    rewrite ET.
    rewrite (sum_ext (zrange 0 (zlen vec)) (fun j => cnorm2 (amp_at off vec (j + off))) (fun j => cnorm2 (znth 0%r vec j))).
    - ring.
    - intros j _. unfold amp_at. f_equal. f_equal. lia.
  Qed.

  Lemma prob_magnitude_spec acc0 (vec : list C) : prob_magnitude acc0 vec = (acc0 + tprob vec)%r.
  Proof. unfold prob_magnitude, tprob. apply fold_left_sum. Qed.
  Lemma prob_magnitude_0 (vec : list C) : prob_magnitude 0%r vec = tprob vec.
  Proof. rewrite prob_magnitude_spec. ring. Qed.

  Lemma outcome_prob_ok n indices mask off (vec : list C) v :
    0 <= n -> qubits_ok n indices -> masked n indices mask -> slice_ok n off vec -> 0 <= v < 2 ^ zlen indices ->
    outcome_prob (zlen indices) (n - zlen indices) mask vec off v
    = Ok (marginal n (measured_order n indices) (amp_at off vec) v).
  Proof.
    intros Hn HI HM HS Hv. unfold outcome_prob.
    set (e := fun i => entwine_bit (zlen indices) (n - zlen indices) v i mask).
    rewrite (mfold_ok _ (fun acc i => acc + cnorm2 (amp_at off vec (e i)))%r).
    - rewrite fold_left_sum. f_equal. unfold marginal.
      rewrite <- (sum_ent n indices mask Hn HI HM v (fun x => cnorm2 (amp_at off vec x))) by auto.
      fold e. rewrite (Radd_0_l (@rth K _)). reflexivity.
    - intros acc i _. fold (e i). destruct (Z.leb_spec off (e i)), (Z.ltb_spec (e i) (zlen vec + off)); cbn [andb].
      + rewrite (cget_ok 0%r) by lia. reflexivity.
      + f_equal. unfold amp_at. rewrite znth_out by lia. rewrite cnorm2_0. ring.
      + f_equal. unfold amp_at. rewrite znth_out by lia. rewrite cnorm2_0. ring.
      + f_equal. unfold amp_at. rewrite znth_out by lia. rewrite cnorm2_0. ring.
  Qed.

  Lemma soft_loop_ok (prob : Z -> res K) P lo hi r last :
    lo < hi -> (forall m, lo <= m < hi -> prob m = Ok (P m)) ->
    exists m, lo <= m < hi /\ soft_loop prob (zrange lo hi) r last = Ok (m, P m) /\
      (forall j, lo <= j < m -> rlt (sum (zrange lo (j + 1)) P) r) /\
      (rle r (sum (zrange lo (m + 1)) P) \/ m = hi - 1).
  Proof.
    intros Hlt. remember (Z.to_nat (hi - lo)) as c eqn:Ec. revert lo r last Hlt Ec.
    induction c as [|c IH]; intros lo r last Hlt Ec HP; [lia|].
    rewrite zrange_cons by lia. cbn [soft_loop]. rewrite HP by lia. cbn [bind].
    assert (E1 : sum (zrange lo (lo + 1)) P = P lo).
    { rewrite zrange_cons by lia. rewrite zrange_empty by lia. cbn [sum]. ring. }
    destruct (rleb (r - P lo)%r 0%r) eqn:E.
    - exists lo. split; [lia|]. split; auto. split; [intros; lia|]. left. rewrite E1.
      apply (proj1 (rle_sub_0 r (P lo))). exact E.
    - destruct (Z.eq_dec (lo + 1) hi) as [Hh|Hh].
      + exists lo. split; [lia|]. rewrite zrange_empty by lia. cbn [soft_loop]. split; auto.
        split; [intros; lia|]. right. lia.
      + destruct (IH (lo + 1) (r - P lo)%r (lo, P lo)) as (m & Hm & Em & H1 & H2); try lia.
        { intros; apply HP; lia. }
        assert (SH : forall j, lo <= j -> sum (zrange lo (j + 1)) P = (P lo + sum (zrange (lo + 1) (j + 1)) P)%r).
        { intros j Hj. rewrite zrange_cons by lia. reflexivity. }
        exists m. split; [lia|]. split; auto. split.
        * intros j Hj. rewrite SH by lia. destruct (Z.eq_dec j lo) as [->|Hj'].
          { rewrite (zrange_empty (lo + 1)) by lia. cbn [sum]. replace (P lo + 0)%r with (P lo) by ring.
            unfold rlt. destruct (rleb r (P lo)) eqn:F; auto. apply (proj2 (rle_sub_0 r (P lo))) in F.
            unfold rle in F. congruence. }
          assert (Hj2 : rlt (sum (zrange (lo + 1) (j + 1)) P) (r - P lo)%r) by (apply H1; lia).
          apply (rlt_add_l _ _ (P lo)) in Hj2. replace (P lo + (r - P lo))%r with r in Hj2 by ring. exact Hj2.
        * destruct H2 as [H2|H2]; [left|right; lia]. rewrite SH by lia.
          apply (rle_add_l _ _ (P lo)) in H2. replace (P lo + (r - P lo))%r with r in H2 by ring. exact H2.
  Qed.

  Lemma n_lt_pow n : 0 <= n -> n < 2 ^ n.
  Proof. intros. apply Z.pow_gt_lin_r; lia. Qed.

  Section Soft.
    Variables (n : Z) (indices : list Z) (off : Z) (vec : list C).
    Hypotheses (Hn : 0 <= n) (HI : qubits_ok n indices) (HS : slice_ok n off vec).
    Notation P := (marginal n (measured_order n indices) (amp_at off vec)).
    Notation B := (below n (measured_order n indices) (amp_at off vec)).
    Let k := zlen indices.

    Lemma soft_scale acc0 u : (if k <? 2 ^ n then (u * prob_magnitude acc0 vec)%r else u) = (u * (acc0 + tprob vec))%r.
    Proof.
      destruct (make_row_mask_ok n indices Hn HI) as (mask & Em & HM).
      pose proof (k_range n indices mask Hn HI HM). pose proof (n_lt_pow n Hn). fold k in H.
      destruct (Z.ltb_spec k (2 ^ n)); [|lia]. rewrite prob_magnitude_spec. reflexivity.
    Qed.
    Lemma soft_forced u acc0 m : 0 <= m < 2 ^ k ->
      soft_measure u acc0 indices n vec (Some m) off = Ok (m, P m).
    Proof.
      intros Hm. unfold soft_measure. destruct (make_row_mask_ok n indices Hn HI) as (mask & Em & HM).
      rewrite Em. cbn [bind]. rewrite zrange_cons, zrange_empty by lia. cbn [soft_loop].
      rewrite (outcome_prob_ok n) by auto. cbn [bind]. destruct (rleb _ _); reflexivity.
    Qed.
    Lemma soft_free u acc0 : exists m, 0 <= m < 2 ^ k /\
      soft_measure u acc0 indices n vec None off = Ok (m, P m) /\
      (forall j, 0 <= j < m -> rlt (B (j + 1)) (u * (acc0 + tprob vec))%r) /\
      (rle (u * (acc0 + tprob vec))%r (B (m + 1)) \/ m = 2 ^ k - 1).
    Proof.
      unfold soft_measure. fold k. rewrite soft_scale.
      destruct (make_row_mask_ok n indices Hn HI) as (mask & Em & HM). rewrite Em. cbn [bind].
      apply soft_loop_ok; [apply Z.pow_pos_nonneg; [lia|apply zlen_nonneg]|].
      intros m Hm. apply outcome_prob_ok; auto.
    Qed.
    Lemma B_all : B (2 ^ k) = tprob vec.
    Proof.
      rewrite <- (tprob_slice n off) by auto. rewrite <- (below_all n (measured_order n indices)).
      destruct (make_row_mask_ok n indices Hn HI) as (mask & Em & HM). rewrite (zlen_mo n indices HI). reflexivity.
    Qed.
    Lemma born_unique r m m' : 0 <= m -> 0 <= m' -> rlt (B m) r -> rle r (B (m + 1)) -> rlt (B m') r -> rle r (B (m' + 1)) -> m = m'.
    Proof.
      assert (G : forall a b, 0 <= a -> a < b -> rle r (B (a + 1)) -> rlt (B b) r -> False).
      { intros a b Ha Hab H1 H2. apply (rlt_irrefl r). eapply rle_lt_trans; [exact H1|].
        eapply rle_lt_trans; [|exact H2]. apply below_mono. lia. }
      intros Hm Hm' A1 A2 B1 B2. destruct (Z.lt_total m m') as [H|[H|H]]; auto; exfalso; eauto.
    Qed.
    Lemma born u : rlt 0%r (u * tprob vec)%r -> rle (u * tprob vec)%r (tprob vec) -> forall m p,
      soft_measure u 0%r indices n vec None off = Ok (m, p) <->
      0 <= m < 2 ^ k /\ p = P m /\ rlt (B m) (u * tprob vec)%r /\ rle (u * tprob vec)%r (B (m + 1)).
    Proof.
      intros H0 H1 m p. destruct (soft_free u 0%r) as (m' & Hm' & E & A & D).
      replace (0 + tprob vec)%r with (tprob vec) in A, D by ring.
      assert (L : rlt (B m') (u * tprob vec)%r).
      { destruct (Z.eq_dec m' 0) as [->|].
        - unfold below. rewrite zrange_empty by lia. exact H0.
        - replace m' with (m' - 1 + 1) by lia. apply A. lia. }
      assert (U : rle (u * tprob vec)%r (B (m' + 1))).
      { destruct D as [D|D]; auto. replace (m' + 1) with (2 ^ k) by lia. rewrite B_all. auto. }
      rewrite E. split.
      - intros X. assert (m' = m /\ P m' = p) as [-> <-] by (split; congruence). auto.
      - intros (Hm & -> & L' & U'). assert (m = m') as -> by (eapply born_unique; eauto; lia). reflexivity.
    Qed.
    Lemma born_exists u : rlt 0%r (u * tprob vec)%r -> rle (u * tprob vec)%r (tprob vec) -> exists m p,
      soft_measure u 0%r indices n vec None off = Ok (m, p) /\ rlt 0%r p.
    Proof.
      intros H0 H1. destruct (soft_free u 0%r) as (m & Hm & E & _). exists m, (P m). split; auto.
      apply (born u H0 H1) in E as (_ & _ & L & U). rewrite below_succ in U by lia.
      pose proof (rlt_le_trans _ _ _ L U) as X. unfold rlt in *. destruct (rleb (P m) 0%r) eqn:F; auto.
      apply (rle_add_l _ _ (B m)) in F. replace (B m + 0)%r with (B m) in F by ring. unfold rle in F. congruence.
    Qed.
  End Soft.
End Meas.
