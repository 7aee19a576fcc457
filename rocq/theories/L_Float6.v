(** Rounding errors: one operation, and a sequence of operations. *)
From Coq Require Import Reals Lra.
From Verif Require Import Base BaseR S_Bits M_Bits L_Bits M_Kron S_Kron L_Kron L_Kron2 L_Kron3 L_Alg M_Ops S_Ops L_Ops1 L_Ops2 L_Ops3 L_Ops4 M_Float S_Float L_Float1 L_Float2 L_Float3 L_Float4 L_Float5.
Local Open Scope Z_scope.

Section Linear.
  Context {K : Type} {OK : OrdRing K}.
  Add Ring CRing6a : (@rth (Cx K) _).
  Lemma mapply_sub n (X : Z -> Z -> Cx K) f g r :
    mapply n X (fun c => (f c - g c)%r) r = (mapply n X f r - mapply n X g r)%r.
  Proof.
    unfold mapply. rewrite (sum_ext _ _ (fun c => (X r c * f c + (- (1)) * (X r c * g c))%r)) by (intros; ring).
    rewrite sum_add, sum_mul_l. ring.
  Qed.
  Lemma sub_add3 (a b c d : Cx K) : d = (b - c)%r -> (a - c = (a - b) + d)%r.
  Proof. intros ->. ring. Qed.
  Lemma sub_add2 (a b : Cx K) : (a = (a - b) + b)%r.
  Proof. ring. Qed.
End Linear.

Section Steps.
  Variables u w delta : R.
  Hypothesis Hu : (0 <= u)%R.
  Hypothesis Hw : (0 <= w)%R.
  Hypothesis Hd : (0 <= delta)%R.
  Add Ring CRing6 : (@rth CR _).
  Notation cols n mats r := (filter (agree_off n (touched mats) r) (zrange 0 (2 ^ n))).
  Notation F n mats := (fentry n (map ef (mats_groups mats))).

  Lemma near_groups mats mats' : near delta mats mats' -> map fst (mats_groups mats') = map fst (mats_groups mats).
  Proof.
    intros [E _]. unfold same_keys in E. unfold mats_groups. rewrite !map_map.
    transitivity (map key_group (map fst mats')); [rewrite map_map; apply map_ext; intros [k m]; reflexivity|].
    rewrite E, map_map. apply map_ext. intros [k m]; reflexivity.
  Qed.
  Lemma near_entry n mats mats' gm' r c : keys_ok mats -> near delta mats mats' -> In gm' (mats_groups mats') ->
    let gm := ref_of (mats_groups mats) (fst gm') in
    In gm (mats_groups mats) /\ (cabs1 (group_entry n r c gm' - group_entry n r c gm)%r <= delta)%R.
  Proof.
    intros [_ ND] HN Hin gm. pose proof HN as [EK HE].
    unfold mats_groups in Hin. apply in_map_iff in Hin as ([k m'] & E & Hin). subst gm'. cbn [fst] in gm.
    apply In_nth_error in Hin as (j & Ej').
    assert (Ej : exists m, nth_error mats j = Some (k, m)).
    { assert (Hf : nth_error (map fst mats') j = Some k) by (rewrite nth_error_map, Ej'; reflexivity).
      unfold same_keys in EK. rewrite EK, nth_error_map in Hf. destruct (nth_error mats j) as [[k0 m]|] eqn:E; [|discriminate].
      cbn in Hf. injection Hf as ->. eauto. }
    destruct Ej as (m & Ej).
    assert (Hin : In (key_group k, m) (mats_groups mats)).
    { unfold mats_groups. apply in_map_iff. exists (k, m). split; auto. eapply nth_error_In; eauto. }
    assert (Eg : gm = (key_group k, m)).
    { unfold gm. apply (ref_of_in (mats_groups mats) (key_group k, m)); auto.
      unfold mats_groups. rewrite map_map. erewrite map_ext; [exact ND|]. intros [a b]; reflexivity. }
    rewrite Eg. split; auto. unfold group_entry. cbn [fst snd]. apply (HE j k m m' Ej Ej'); apply reg_range.
  Qed.

  Lemma grow_const gs : forall W, (0 <= W)%R ->
    (grow w (fun _ => (3 / 2)%R) gs W <= (3 / 2) ^ length gs * (W + 8 * w) - 8 * w)%R.
  Proof.
    induction gs as [|g gs IH]; intros W HW; [cbn; lra|].
    change (grow w (fun _ => (3 / 2)%R) (g :: gs) W) with (grow w (fun _ => (3 / 2)%R) gs (W * (3 / 2) + 4 * w)%R).
    change (length (g :: gs)) with (S (length gs)). rewrite <- tech_pow_Rmult.
    eapply Rle_trans; [apply IH; nra|]. apply Req_le. field.
  Qed.

  Lemma amp_slice (v : list CR) c : slice_at 0 v c = amp v c.
  Proof. unfold slice_at, amp. f_equal. lia. Qed.

  (** one operation on its own: distance to the exact operation on the same vector *)
  Lemma own_error n mats mats' v V M : (1 <= M)%R -> (vnorm n (amp v) <= M)%R -> 0 <= n -> unitary_step n mats -> mats_wf n mats' -> near delta mats mats' ->
    zlen v = 2 ^ n -> fkron u w mats' v n (2 ^ n) 0 0 V ->
    (vnorm n (fun r => (amp V r - mapply n (F n mats) (amp v) r)%r) <= step_error u w delta n mats * M)%R.
  Proof.
    intros HM1 HM Hn HS HW' HN HV HK. destruct (step_facts n mats Hn HS) as (HW & HSm & _).
    pose proof (near_groups mats mats' HN) as EG.
    assert (ET : touched mats' = touched mats) by (unfold touched; rewrite EG; auto).
    assert (EW : width mats' = width mats) by (unfold width; rewrite ET; auto).
    assert (EL : length mats' = length mats).
    { rewrite <- (map_length fst mats'), <- (map_length fst mats). f_equal. apply HN. }
    pose proof (fkron_inv u w n mats' v (2 ^ n) 0 0 V Hn HW' HK) as (Hg' & _).
    set (N := INR (2 ^ width mats)). set (g := length mats).
    set (Gm := ((1 + delta) ^ g * (1 + u) ^ (2 * g + 2 + 2 ^ width mats))%R).
    assert (HGm : (1 <= Gm)%R).
    { unfold Gm. pose proof (pow_R1_Rle (1 + delta) g ltac:(lra)). pose proof (pow1_ge u (2 * g + 2 + 2 ^ width mats) Hu). nra. }
    set (A := ((3 / 2) ^ g * (1 + 8 * w))%R).
    assert (HA : (0 <= A)%R).
    { unfold A. apply Rmult_le_pos; [apply pow_le; lra|lra]. }
    assert (HNp : (0 <= N)%R) by apply pos_INR.
    assert (HSg : forall r c gm, In gm (mats_groups mats) -> (cabs1 (group_entry n r c gm) <= 3 / 2)%R).
    { intros r c gm Hin. unfold mats_groups in Hin. apply in_map_iff in Hin as ([k m] & <- & Hin). unfold group_entry. cbn [fst snd].
      apply (HSm k m Hin); apply reg_range. }
    assert (HC : forall r, length (cols n mats r) = (2 ^ width mats)%nat).
    { intros r. rewrite <- ET, <- EW. apply columns_count; auto. }
    assert (Hrow : forall r, 0 <= r < 2 ^ n ->
      (cnorm (amp V r - mapply n (F n mats) (amp v) r)%r
        <= (Gm - 1) * A * sum (cols n mats r) (fun c => cabs1 (amp v c)) + (Gm - 1) * (6 * w * N))%R).
    { intros r Hr. eapply Rle_trans; [apply cnorm_cabs1|].
      pose proof (fkron_rows u w Hu Hw n mats' v (2 ^ n) 0 0 V (1 + delta) (fun _ _ _ => (3 / 2)%R)
        (fun r c gm => group_entry n r c (ref_of (mats_groups mats) (fst gm))) Hn (Z.le_refl 0) HW' HK ltac:(lra)) as HF.
      specialize (HF ltac:(
        intros r0 c0 gm Hr0 Hc0 _ Hin; destruct (near_entry n mats mats' gm r0 c0 (proj1 HW) HN Hin) as [Hin' He]; split;
        [apply HSg; auto
        |eapply Rle_trans; [exact He|]; lra]) r Hr).
      cbv zeta in HF. rewrite Z.add_0_r, ET, EW, EL in HF. destruct HF as [_ HF].
      replace (mapply n (F n mats) (amp v) r) with
        (sum (cols n mats r) (fun c => prod (mats_groups mats') (fun gm => group_entry n r c (ref_of (mats_groups mats) (fst gm))) * slice_at 0 v c)%r).
      2:{ rewrite <- kron_mapply, kron_columns. apply sum_ext. intros c _. rewrite amp_slice. f_equal.
          apply (prod_ref (mats_groups mats) (mats_groups mats') (group_entry n r c)); auto.
          unfold mats_groups. rewrite map_map. erewrite map_ext; [exact (proj2 (proj1 HW))|]. intros [a b]; reflexivity. }
      change (amp V r) with (znth 0%r V r). eapply Rle_trans; [exact HF|].
      replace (((1 + delta) * (1 + u) ^ 2) ^ length mats * (1 + u) ^ (2 + 2 ^ width mats))%R with Gm.
      2:{ unfold Gm, g. rewrite Rpow_mult_distr, <- pow_mult, Rmult_assoc, <- pow_add. f_equal. f_equal. lia. }
      rewrite Rmult_assoc, <- Rmult_plus_distr_l. apply Rmult_le_compat_l; [lra|].
      rewrite <- sumR_scale. replace (6 * w * N)%R with (INR (length (cols n mats r)) * (6 * w))%R.
      2:{ rewrite HC. unfold N. ring. }
      rewrite <- sumR_const, <- sumR_add. apply sumR_le. intros c _. rewrite amp_slice.
      pose proof (grow_const (mats_groups mats') 1 ltac:(lra)) as HGr. pose proof (cabs1_pos (amp v c)).
      assert (EL2 : length (mats_groups mats') = g) by (unfold mats_groups; rewrite map_length; auto). rewrite EL2 in HGr.
      assert (grow w (fun _ => (3 / 2)%R) (mats_groups mats') 1 <= A)%R by (unfold A; lra). nra. }
    assert (Hsp : forall f, (l2 (zrange 0 (2 ^ n)) (fun r => sum (cols n mats r) f) <= N * l2 (zrange 0 (2 ^ n)) f)%R).
    { intros f. unfold N. rewrite <- EW. rewrite <- ET. apply rows_spread; auto. }
    assert (Hc1 : (l2 (zrange 0 (2 ^ n)) (fun c => cabs1 (amp v c)) <= 3 / 2 * vnorm n (amp v))%R).
    { unfold vnorm. rewrite <- l2_scale by lra. apply l2_mono. intros c _. split; [apply cabs1_pos|apply cabs1_cnorm]. }
    assert (E2n : INR (length (zrange 0 (2 ^ n))) = IZR (2 ^ n)).
    { rewrite length_zrange, Z.sub_0_r, INR_IZR_INZ, Z2Nat.id; auto. apply Z.pow_nonneg; lia. }
    unfold vnorm at 1. eapply Rle_trans.
    { apply (l2_mono _ _ (fun r => (((Gm - 1) * A) * sum (cols n mats r) (fun c => cabs1 (amp v c)) + (Gm - 1) * (6 * w * N))%R)).
      intros r Hr. apply in_zrange in Hr. split; [apply cnorm_pos|]. apply Hrow; auto. }
    eapply Rle_trans; [apply l2_add|].
    assert (P1 : (0 <= (Gm - 1) * A)%R) by (apply Rmult_le_pos; lra).
    assert (P2 : (0 <= (Gm - 1) * (6 * w * N))%R) by (apply Rmult_le_pos; [lra|]; apply Rmult_le_pos; lra).
    rewrite l2_scale by auto.
    pose proof (l2_const (zrange 0 (2 ^ n)) ((Gm - 1) * (6 * w * N))%R P2) as Q2. rewrite E2n in Q2.
    pose proof (vnorm_pos n (amp v)) as Pv.
    assert (Q1 : ((Gm - 1) * A * l2 (zrange 0 (2 ^ n)) (fun r => sum (cols n mats r) (fun c => cabs1 (amp v c)))
      <= (Gm - 1) * A * (N * (3 / 2 * vnorm n (amp v))))%R).
    { apply Rmult_le_compat_l; auto. eapply Rle_trans; [apply Hsp|]. apply Rmult_le_compat_l; auto. }
    unfold step_error. cbv zeta. fold g. fold Gm. fold N.
    replace ((3 / 2) ^ (g + 1) * (1 + 8 * w))%R with (3 / 2 * A)%R by (unfold A; rewrite pow_add; cbn [pow]; ring).
    assert (P3 : (0 <= IZR (2 ^ n))%R) by (apply IZR_le, Z.pow_nonneg; lia).
    set (T := IZR (2 ^ n)) in *. set (x := vnorm n (amp v)) in *.
    assert (R1 : ((Gm - 1) * A * (N * (3 / 2 * x)) <= (Gm - 1) * N * (3 / 2 * A) * M)%R).
    { replace ((Gm - 1) * A * (N * (3 / 2 * x)))%R with ((Gm - 1) * N * (3 / 2 * A) * x)%R by ring.
      apply Rmult_le_compat_l; auto. apply Rmult_le_pos; [apply Rmult_le_pos|]; lra. }
    assert (R2 : ((Gm - 1) * (6 * w * N) * T <= (Gm - 1) * N * (6 * w * T) * M)%R).
    { replace ((Gm - 1) * (6 * w * N) * T)%R with ((Gm - 1) * N * (6 * w * T) * 1)%R by ring.
      apply Rmult_le_compat_l; auto. apply Rmult_le_pos; [apply Rmult_le_pos|apply Rmult_le_pos]; lra. }
    eapply Rle_trans; [apply Rplus_le_compat; [exact Q1|exact Q2]|]. lra.
  Qed.

  Lemma step_error_pos n mats : 0 <= n -> (0 <= step_error u w delta n mats)%R.
  Proof.
    intros Hn. unfold step_error. cbv zeta. apply Rmult_le_pos; [apply Rmult_le_pos; [|apply pos_INR]|].
      - pose proof (pow_R1_Rle (1 + delta) (length mats) ltac:(lra)).
        pose proof (pow1_ge u (2 * length mats + 2 + 2 ^ width mats) Hu). nra.
      - assert (0 <= (3 / 2) ^ (length mats + 1))%R by (apply pow_le; lra).
        assert (0 <= IZR (2 ^ n))%R by (apply IZR_le, Z.pow_nonneg; lia).
        pose proof (Rmult_le_pos _ _ H (ltac:(lra) : (0 <= 1 + 8 * w)%R)).
        pose proof (Rmult_le_pos _ _ (ltac:(lra) : (0 <= 6 * w)%R) H0). lra. 
  Qed.
  (** C89: one operation after others *)
  Lemma step_distance n mats mats' v v' V V' : 0 <= n -> unitary_step n mats -> mats_wf n mats' -> near delta mats mats' ->
    zlen v' = 2 ^ n -> norm2 n v = 1%R -> applied n mats v V -> fkron u w mats' v' n (2 ^ n) 0 0 V' ->
    (dist n V' V + 1 <= (dist n v' v + 1) * (1 + step_error u w delta n mats))%R.
  Proof.
    intros Hn HS HW' HN Hv' H1 HA HK. destruct (step_facts n mats Hn HS) as (HW & _ & HI).
    destruct (applied_spec n mats v V Hn HW HA) as (Lv & LV & EV).
    rewrite !dist_vnorm. set (e := vnorm n (fun r => (amp v' r - amp v r)%r)).
    set (X := F n mats) in *.
    assert (T1 : (vnorm n (fun r => (amp V' r - amp V r)%r)
      <= vnorm n (fun r => (amp V' r - mapply n X (amp v') r)%r) + vnorm n (mapply n X (fun r => (amp v' r - amp v r)%r)))%R).
    { eapply Rle_trans; [|apply vnorm_add]. apply Req_le. apply vnorm_ext. intros r Hr. rewrite EV by auto.
      apply (sub_add3 (OK := ROrdRing)). apply (mapply_sub (OK := ROrdRing)). }
    rewrite (isometry_vnorm n X) in T1 by exact HI. fold e in T1.
    assert (T3 : (vnorm n (amp v') <= e + 1)%R).
    { assert (Ev : vnorm n (amp v) = 1%R).
      { pose proof (norm2_vnorm n v) as E. rewrite H1 in E. pose proof (vnorm_pos n (amp v)). nra. }
      rewrite <- Ev. unfold e. eapply Rle_trans; [|apply vnorm_add]. apply Req_le. apply vnorm_ext. intros r _. apply (sub_add2 (OK := ROrdRing)). }
    pose proof (own_error n mats mats' v' V' (e + 1) ltac:(pose proof (vnorm_pos n (fun r => (amp v' r - amp v r)%r)); unfold e; lra) T3 Hn HS HW' HN Hv' HK) as T2. fold X in T2.
    pose proof (vnorm_pos n (amp v')). assert (0 <= e)%R by apply vnorm_pos.
    lra.
  Qed.

  Lemma run_distance n ms : forall ms' v v' V V', 0 <= n -> Forall (unitary_step n) ms -> Forall (mats_wf n) ms' ->
    Forall2 (near delta) ms ms' -> zlen v' = 2 ^ n -> norm2 n v = 1%R -> applied_all n ms v V -> fkron_all u w n ms' v' V' ->
    (dist n V' V + 1 <= (dist n v' v + 1) * prod ms (fun m => (1 + step_error u w delta n m)%R))%R /\ norm2 n V = 1%R /\ zlen V' = 2 ^ n.
  Proof.
    induction ms as [|m ms IH]; intros ms' v v' V V' Hn HS HW HN Hv' H1 HA HK.
    - inversion HN; subst. cbn [applied_all fkron_all] in *. subst. split; [|auto]. apply Req_le. symmetry. apply Rmult_1_r.
    - inversion HN as [|? m' ? ms0 Hm HN']; subst. inversion HS as [|? ? Hs HS']; subst. inversion HW as [|? ? Hw' HW']; subst.
      destruct HA as (W & A1 & A2). destruct HK as (W' & K1 & K2).
      pose proof (step_distance n m m' v v' W W' Hn Hs Hw' Hm Hv' H1 A1 K1) as D.
      destruct (step_facts n m Hn Hs) as (HWm & _ & HI).
      assert (HW1 : norm2 n W = 1%R).
      { destruct (applied_spec n m v W Hn HWm A1) as (_ & _ & EV). rewrite norm2_vnorm.
        rewrite (vnorm_ext n (amp W) (mapply n (F n m) (amp v))) by exact EV.
        rewrite (isometry_vnorm n (F n m)) by exact HI. rewrite <- norm2_vnorm. exact H1. }
      assert (LW : zlen W' = 2 ^ n) by (apply (fkron_inv u w n m' v' (2 ^ n) 0 0 W' Hn Hw' K1)).
      destruct (IH ms0 W W' V V' Hn HS' HW' HN' LW HW1 A2 K2) as (D2 & HR). split; [|exact HR].
      eapply Rle_trans; [exact D2|]. cbn [prod]. change (@rmul R RCRing) with Rmult.
      rewrite <- Rmult_assoc. apply Rmult_le_compat_r; [|exact D].
      clear - Hu Hw Hd Hn. induction ms as [|m ms IH]; [cbn; cbv [rI RCRing]; lra|]. cbn [prod]. apply Rmult_le_pos; [|exact IH].
      pose proof (step_error_pos n m Hn). lra.
  Qed.
End Steps.
