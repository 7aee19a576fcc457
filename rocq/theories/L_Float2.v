(** Rounding errors: one row of a matrix product. *)
From Coq Require Import Reals Lra.
From Verif Require Import Base BaseR S_Bits M_Bits L_Bits M_Kron S_Kron L_Kron L_Kron2 L_Kron3 M_Ops S_Ops M_Float S_Float L_Float1.
Local Open Scope Z_scope.

Lemma sumR_cons {I} i (l : list I) (f : I -> R) : sum (i :: l) f = (f i + sum l f)%R.
Proof. reflexivity. Qed.
Lemma sumR_nil {I} (f : I -> R) : sum [] f = 0%R.
Proof. reflexivity. Qed.
Lemma sumR_add {I} (l : list I) (f g : I -> R) : sum l (fun i => (f i + g i)%R) = (sum l f + sum l g)%R.
Proof. exact (sum_add l f g). Qed.
Lemma sumR_le {I} (l : list I) (f g : I -> R) : (forall i, In i l -> (f i <= g i)%R) -> (sum l f <= sum l g)%R.
Proof.
  induction l as [|i l IH]; intros H; [apply Rle_refl|]. rewrite !sumR_cons.
  pose proof (H i (or_introl eq_refl)). pose proof (IH (fun j Hj => H j (or_intror Hj))). lra.
Qed.
Lemma sumR_pos {I} (l : list I) (f : I -> R) : (forall i, In i l -> (0 <= f i)%R) -> (0 <= sum l f)%R.
Proof. intros H. induction l as [|i l IH]; [apply Rle_refl|]. rewrite sumR_cons. pose proof (H i (or_introl eq_refl)).
  pose proof (IH (fun j Hj => H j (or_intror Hj))). lra. Qed.
Lemma sumR_const {I} (l : list I) (c : R) : sum l (fun _ => c) = (INR (length l) * c)%R.
Proof. induction l as [|i l IH]; [rewrite sumR_nil; cbn; ring|]. rewrite sumR_cons. cbn [length]. rewrite IH, S_INR. ring. Qed.
Lemma sumR_filter_le {I} (p : I -> bool) (l : list I) (f : I -> R) :
  (forall i, In i l -> (0 <= f i)%R) -> (sum (filter p l) f <= sum l f)%R.
Proof.
  intros H. rewrite sum_filter. apply sumR_le. intros i Hi. specialize (H i Hi). destruct (p i); [apply Rle_refl|exact H].
Qed.

Lemma filter_Permutation {I} (p : I -> bool) l l' : Permutation l l' -> Permutation (filter p l) (filter p l').
Proof.
  induction 1; cbn; auto.
  - destruct (p x); auto.
  - destruct (p x), (p y); auto. constructor.
  - eapply perm_trans; eauto.
Qed.

(** the columns of a row: those that agree with it off the touched qubits *)
Lemma columns_perm n F r : 0 <= n -> qubits_ok n F ->
  Permutation (map (setreg n F r) (zrange 0 (2 ^ zlen F))) (filter (agree_off n F r) (zrange 0 (2 ^ n))).
Proof.
  intros Hn HF. apply NoDup_Permutation.
  - apply NoDup_map_inj; [apply zrange_nodup|]. intros j j' Hj Hj' E. apply in_zrange in Hj, Hj'.
    eapply setreg_inj_v; eauto.
  - apply NoDup_filter, zrange_nodup.
  - intros c. rewrite in_map_iff, filter_In. split.
    + intros (j & <- & Hj). split; [apply in_zrange, setreg_range; auto|apply setreg_agree].
    + intros [Hc Ha]. apply in_zrange in Hc. exists (reg n F c). split.
      * apply setreg_reg; auto. apply agree_off_spec; auto.
      * apply in_zrange, reg_range.
Qed.

Section Row.
  Variables u w : R.
  Hypothesis Hu : (0 <= u)%R.
  Hypothesis Hw : (0 <= w)%R.
  Notation approxC := (approx (A := CR) cabs1).
  Add Ring CRing2 : (@rth CR _).

  Definition grow (E : list Z * mat R -> R) (gs : list (list Z * mat R)) (W : R) : R :=
    fold_left (fun P gm => (P * E gm + 4 * w)%R) gs W.

  Lemma zero_prod H (E : list Z * mat R -> R) (X : list Z * mat R -> CR) gs : forall G W x, (1 <= H)%R -> (1 <= G)%R ->
    (forall gm, In gm gs -> (cabs1 (X gm) <= E gm)%R) -> approxC G W 0%r x ->
    approxC (G * (H * (1 + u) ^ 2) ^ length gs) (grow E gs W) 0%r (x * prod gs X)%r.
  Proof.
    induction gs as [|gm gs IH]; intros G W x HH HG HE Hx.
    - cbn [length pow grow fold_left prod]. replace (x * 1)%r with x by ring. replace (G * 1)%R with G by ring. exact Hx.
    - change (length (gm :: gs)) with (S (length gs)). rewrite <- tech_pow_Rmult.
      change (grow E (gm :: gs) W) with (grow E gs (W * E gm + 4 * w)%R). cbn [prod].
      replace (x * (X gm * prod gs X))%r with (x * X gm * prod gs X)%r by ring.
      assert (H1 : (1 <= (1 + u) ^ 2)%R) by (apply pow1_ge; auto).
      assert (H2 : (1 <= H * (1 + u) ^ 2)%R) by nra.
      replace (G * (H * (1 + u) ^ 2 * (H * (1 + u) ^ 2) ^ length gs))%R
        with (G * (H * (1 + u) ^ 2) * (H * (1 + u) ^ 2) ^ length gs)%R by ring.
      apply IH; auto; [nra|intros; apply HE; right; auto|].
      pose proof (approx_W _ cabs1_pos _ _ _ _ Hx) as HW. destruct Hx as [A1 A2].
      pose proof (HE gm (or_introl eq_refl)) as He. pose proof (cabs1_pos (X gm)). pose proof (cabs1_pos x).
      pose proof (cabs1_mul x (X gm)) as M.
      assert (N1 : (cabs1 x * cabs1 (X gm) <= W * E gm)%R) by (apply Rmult_le_compat; auto).
      split; [lra|].
      replace (0 - x * X gm)%r with ((0 - x) * X gm)%r by ring.
      pose proof (cabs1_mul (0 - x)%r (X gm)) as M2. pose proof (cabs1_pos (0 - x)%r).
      assert (N2 : (cabs1 (0 - x)%r * cabs1 (X gm) <= (G - 1) * W * E gm)%R) by (apply Rmult_le_compat; auto).
      assert (0 <= W * E gm)%R by (apply Rmult_le_pos; lra).
      set (g := (H * (1 + u) ^ 2)%R) in *.
      assert (0 <= (G * g - 1) * (4 * w))%R by (apply Rmult_le_pos; nra).
      assert (0 <= (G * (g - 1)) * (W * E gm))%R by (apply Rmult_le_pos; nra).
      nra.
  Qed.

  Lemma fprod_approx n row col H (E : list Z * mat R -> R) (X : list Z * mat R -> CR) gs : forall ss G W p x q,
    (1 <= H)%R -> (1 <= G)%R -> groups_ok n gs -> structs_of gs ss ->
    (forall gm, In gm gs -> approxC H (E gm) (group_entry n row col gm) (X gm)) -> approxC G W p x ->
    fprod u w n row col (combine (map fst gs) ss) p q ->
    approxC (G * (H * (1 + u) ^ 2) ^ length gs) (grow E gs W) q (x * prod gs X)%r.
  Proof.
    induction gs as [|[g m] gs IH]; intros ss G W p x q HH HG Hgs Hss HE Hp Hf.
    - cbn [map combine] in Hf. inversion Hf; subst. cbn [length pow grow fold_left prod].
      replace (x * 1)%r with x by ring. replace (G * 1)%R with G by ring. exact Hp.
    - unfold structs_of in Hss. cbn [map snd mmap] in Hss.
      destruct (Hgs g m (or_introl eq_refl)) as [Hq Hm].
      destruct (build_struct_ok m (zlen g) Hm) as (s & Es & Hs). rewrite Es in Hss. cbn [bind] in Hss.
      destruct (mmap build_struct (map snd gs)) as [ss'|] eqn:Ess; [|discriminate].
      cbn [bind] in Hss. inversion Hss; subst ss. clear Hss.
      cbn [map fst combine] in Hf.
      assert (Hgs' : groups_ok n gs) by (intros g' m' Hin; apply Hgs; right; auto).
      assert (H1 : (1 <= (1 + u) ^ 2)%R) by (apply pow1_ge; auto).
      assert (H2 : (1 <= H * (1 + u) ^ 2)%R) by nra.
      assert (HE' : forall gm, In gm gs -> approxC H (E gm) (group_entry n row col gm) (X gm)) by (intros; apply HE; right; auto).
      pose proof (HE (g, m) (or_introl eq_refl)) as He.
      assert (Hsub : c_submat n row col g = Ok (reg n g row, reg n g col)) by (apply c_submat_ok; auto).
      assert (Hent : calc_mat_entry s (reg n g row) (reg n g col) = Ok (group_entry n row col (g, m)))
        by (apply Hs; apply reg_range).
      change (length ((g, m) :: gs)) with (S (length gs)). rewrite <- tech_pow_Rmult.
      change (grow E ((g, m) :: gs) W) with (grow E gs (W * E (g, m) + 4 * w)%R). cbn [prod].
      replace (x * (X (g, m) * prod gs X))%r with (x * X (g, m) * prod gs X)%r by ring.
      replace (G * (H * (1 + u) ^ 2 * (H * (1 + u) ^ 2) ^ length gs))%R
        with (G * H * (1 + u) ^ 2 * (H * (1 + u) ^ 2) ^ length gs)%R by ring.
      assert (HGH : (1 <= G * H * (1 + u) ^ 2)%R) by nra.
      inversion Hf as [|group ms gs0 p0 ij e p' Ei Ee Hmul Hz|group ms gs0 p0 ij e p' q0 Ei Ee Hmul Hz Hrest]; subst.
      + rewrite Hsub in Ei. injection Ei as <-. cbn [fst snd] in Ee. rewrite Hent in Ee. injection Ee as <-.
        pose proof (approx_mul u w Hu Hw G H W (E (g, m)) _ _ _ _ _ HG HH Hp He Hmul) as Hn.
        apply zero_prod; auto. intros gm Hin. apply (HE' gm Hin).
      + rewrite Hsub in Ei. injection Ei as <-. cbn [fst snd] in Ee. rewrite Hent in Ee. injection Ee as <-.
        pose proof (approx_mul u w Hu Hw G H W (E (g, m)) _ _ _ _ _ HG HH Hp He Hmul) as Hn.
        eapply IH; eauto.
  Qed.

  Lemma c_columns_ok n F row : 0 <= n -> qubits_ok n F -> 0 <= row < 2 ^ n ->
    c_columns n F row = Ok (map (setreg n F row) (zrange 0 (2 ^ zlen F))).
  Proof.
    intros Hn HF Hrow. unfold c_columns. set (body := fun '(acc, colbits) i => _).
    destruct (mfold_zrange_inv
      (fun t st => 0 <= snd st < 2 ^ n /\ agree_off n F row (snd st) = true /\ fst st = map (setreg n F row) (zrange 0 t))
      body 0 (2 ^ zlen F) ([], row)) as ([acc x] & Em & _ & _ & Hs).
    - lia.
    - cbn [fst snd]. repeat split; try lia. apply agree_off_spec; auto.
    - intros i [acc x] Hi (Hx & Ha & Hs). cbn [fst snd] in *. unfold body.
      rewrite (c_set_columns n F row) by auto. cbn [bind]. eexists; split; [reflexivity|]. cbn [fst snd].
      split; [apply setreg_range; auto|]. split; [apply setreg_agree|].
      rewrite (zrange_snoc 0 (i + 1)), map_app by lia. replace (i + 1 - 1) with i by lia. rewrite Hs. reflexivity.
    - rewrite Em. cbn [bind]. cbn [fst] in *. f_equal. exact Hs.
  Qed.

  (** one row, with reference entries [X] of sizes [E] instead of the stored ones *)
  Lemma frow_approx n gs ss vec ioff row H (E : Z -> list Z * mat R -> R) (X : Z -> list Z * mat R -> CR) s :
    0 <= n -> 0 <= row < 2 ^ n -> groups_ok n gs -> structs_of gs ss -> (1 <= H)%R ->
    let cols := filter (agree_off n (flat_of gs) row) (zrange 0 (2 ^ n)) in
    (forall c gm, In c cols -> In gm gs -> approxC H (E c gm) (group_entry n row c gm) (X c gm)) ->
    frow u w n (combine (map fst gs) ss) (flat_of gs) vec ioff row s ->
    approxC ((H * (1 + u) ^ 2) ^ length gs * (1 + u) ^ (2 + length cols))
      (sum cols (fun c => (grow (E c) gs 1 * cabs1 (slice_at ioff vec c) + 6 * w)%R)) s
      (sum cols (fun c => prod gs (X c) * slice_at ioff vec c)%r).
  Proof.
    intros Hn Hrow Hgs Hss HH cols HE (cols' & t & Ec & Ht & Hs). cbv zeta in Ht, Hs.
    pose proof (flat_ok n gs Hgs) as HF. set (F := flat_of gs) in *.
    rewrite c_columns_ok in Ec by auto. injection Ec as <-.
    set (p := fun c => negb ((c - ioff <? 0) || (zlen vec <=? c - ioff))) in *.
    assert (HP : Permutation (filter p (map (setreg n F row) (zrange 0 (2 ^ zlen F)))) (filter p cols)).
    { unfold cols. apply filter_Permutation. apply columns_perm; auto. }
    set (used := filter p (map (setreg n F row) (zrange 0 (2 ^ zlen F)))) in *.
    assert (Hin : forall c, In c used -> In c cols /\ p c = true).
    { intros c Hc. apply (Permutation_in _ HP) in Hc. apply filter_In in Hc. tauto. }
    set (GG := ((H * (1 + u) ^ 2) ^ length gs * (1 + u) ^ 2)%R).
    assert (H1 : (1 <= (1 + u) ^ 2)%R) by (apply pow1_ge; auto).
    assert (H2 : (1 <= H * (1 + u) ^ 2)%R) by nra.
    assert (H3 : (1 <= (H * (1 + u) ^ 2) ^ length gs)%R) by (apply pow_R1_Rle; auto).
    assert (HGG : (1 <= GG)%R) by (unfold GG; nra).
    assert (Hgrow : forall c, In c cols -> (0 <= grow (E c) gs 1)%R).
    { intros c Hc. assert (G0 : forall l W, (0 <= W)%R -> (forall gm, In gm l -> (0 <= E c gm)%R) -> (0 <= grow (E c) l W)%R).
      { induction l as [|gm l IH]; intros W HW Hl; cbn [grow fold_left]; auto. apply IH; [|intros; apply Hl; right; auto].
        pose proof (Hl gm (or_introl eq_refl)). pose proof (Rmult_le_pos _ _ HW H0). lra. }
      apply G0; [lra|]. intros gm Hgm. eapply (approx_W _ cabs1_pos); eauto. }
    assert (Hterm : forall c, In c used ->
      approxC GG (grow (E c) gs 1 * cabs1 (slice_at ioff vec c) + 4 * w) (t c) (prod gs (X c) * slice_at ioff vec c)%r).
    { intros c Hc. destruct (Ht c Hc) as (q & x & Hq & Hx & Hm). destruct (Hin c Hc) as [Hcc Hp].
      assert (Hp1 : approxC 1 1 1%r 1%r).
      { pose proof (approx_refl (A := CR) cabs1 cabs1_0 1%r) as Hr. rewrite cabs1_1 in Hr. exact Hr. }
      pose proof (fprod_approx n row c H (E c) (X c) gs ss 1 1 1%r 1%r q HH (Rle_refl 1) Hgs Hss
        (fun gm Hgm => HE c gm Hcc Hgm) Hp1 Hq) as HA.
      replace (1 * prod gs (X c))%r with (prod gs (X c)) in HA by ring. rewrite Rmult_1_l in HA.
      assert (Hxv : x = slice_at ioff vec c).
      { unfold slice_at. rewrite (cget_ok 0%r) in Hx; [injection Hx as <-; auto|]. unfold p in Hp. lia. }
      pose proof (approx_mul u w Hu Hw _ 1 _ _ _ _ _ _ _ H3 (Rle_refl 1) HA (approx_refl cabs1 cabs1_0 x) Hm) as HB.
      rewrite Rmult_1_r in HB. rewrite Hxv in HB. exact HB. }
    pose proof (fsum_approx (A := CR) cabs1 cabs1_0 cabs1_pos cabs1_add u w Hu Hw (fadd u w) 2 ltac:(lra)
      (fadd_err u w) GG _ t _ used s HGG Hterm Hs) as HS.
    assert (Elen : (length used <= length cols)%nat).
    { rewrite (Permutation_length HP). clear. induction cols as [|c cols IH]; cbn; [lia|]. destruct (p c); cbn; lia. }
    assert (Ex : sum used (fun c => prod gs (X c) * slice_at ioff vec c)%r = sum cols (fun c => prod gs (X c) * slice_at ioff vec c)%r).
    { rewrite (sum_perm _ _ _ HP), sum_filter. apply sum_ext. intros c Hc. destruct (p c) eqn:Ep; auto.
      unfold slice_at. rewrite znth_out; [ring|]. unfold p in Ep. lia. }
    rewrite Ex in HS. eapply approx_mono; [exact cabs1_pos| | | |exact HS].
    - pose proof (pow1_ge u (length used) Hu). nra.
    - rewrite pow_add, <- Rmult_assoc. fold GG. apply Rmult_le_compat_l; [lra|]. apply pow1_mono; auto.
    - rewrite <- (sumR_const used (2 * w)).
      rewrite <- sumR_add. rewrite (sum_perm _ _ _ HP).
      eapply Rle_trans; [|apply (sumR_filter_le p cols)].
      + apply sumR_le. intros c _. lra.
      + intros c Hc. pose proof (Hgrow c Hc). pose proof (cabs1_pos (slice_at ioff vec c)).
        pose proof (Rmult_le_pos _ _ H0 H4). lra.
  Qed.
End Row.
