(** The 32-bit kernels agree with the unbounded ones up to 30 qubits: bits and matrix application. *)
From Coq Require Import ZifyBool.
From Verif Require Import Base S_Bits M_Bits L_Bits M_Kron S_Kron L_Kron L_Kron2 L_Kron3 M_Measure M_Int S_Int.

(** ** the range of an int *)
Lemma pow2_30 n : n <= 30 -> 2 ^ n <= 2 ^ 30.
Proof. intros. apply Z.pow_le_mono_r; lia. Qed.
Lemma fits_ok z : - 2 ^ 31 <= z < 2 ^ 31 -> fits z = true.
Proof. intros. unfold fits. lia. Qed.
Lemma ck_ok z : - 2 ^ 31 <= z < 2 ^ 31 -> ck z = Ok z.
Proof. intros. unfold ck. rewrite fits_ok; auto. Qed.
Lemma int_arg_ok z : - 2 ^ 31 <= z < 2 ^ 31 -> int_arg z = Ok z.
Proof. intros. unfold int_arg. rewrite fits_ok; auto. Qed.
Lemma w32_ok z : - 2 ^ 31 <= z < 2 ^ 31 -> w32 z = z.
Proof. intros. unfold w32. rewrite Z.mod_small; lia. Qed.
Lemma shr_ok x k : 0 <= k <= 31 -> shr x k = Ok (Z.shiftr x k).
Proof. intros. unfold shr. destruct (Z.ltb_spec k 0), (Z.ltb_spec 31 k); try lia. reflexivity. Qed.
Lemma shl_1 k : 0 <= k <= 30 -> shl 1 k = Ok (Z.shiftl 1 k).
Proof.
  intros. unfold shl. destruct (Z.ltb_spec k 0), (Z.ltb_spec 31 k); try lia. cbn [orb].
  apply ck_ok. rewrite Z.shiftl_1_l. pose proof (pow2_30 k). pose proof (Z.pow_pos_nonneg 2 k). lia.
Qed.
Lemma get_bit32_ok num b : 0 <= b <= 31 -> get_bit32 num b = cget_bit num b.
Proof.
  intros. unfold get_bit32, cget_bit. rewrite shr_ok by lia. destruct (Z.ltb_spec b 0); [lia|]. reflexivity.
Qed.
Lemma set_bit32_ok num b v : 0 <= b <= 30 -> set_bit32 num b v = cset_bit num b v.
Proof.
  intros. unfold set_bit32, cset_bit. rewrite shl_1 by lia. destruct (Z.ltb_spec b 0); [lia|]. reflexivity.
Qed.

(** two loops that agree on all states satisfying an invariant *)
Lemma mfold_same {S I} (Inv : S -> Prop) (f g : S -> I -> res S) l s :
  Inv s -> (forall s i, In i l -> Inv s -> f s i = g s i /\ forall s', g s i = Ok s' -> Inv s') ->
  mfold f l s = mfold g l s /\ forall s', mfold g l s = Ok s' -> Inv s'.
Proof.
  revert s. induction l as [|i l IH]; intros s Hs H; cbn [mfold].
  - split; auto. intros s' E. injection E as <-. auto.
  - destruct (H s i (or_introl eq_refl) Hs) as [E HI]. rewrite E.
    destruct (g s i) as [s'|e] eqn:Eg; cbn [bind].
    + apply IH; auto. intros; apply H; auto. right; auto.
    + split; [auto|discriminate].
Qed.
Lemma mfold_ext {S I} (f g : S -> I -> res S) l s :
  (forall s i, In i l -> f s i = g s i) -> mfold f l s = mfold g l s.
Proof. intros H. apply (mfold_same (fun _ => True)); auto. Qed.
Lemma bind_ext {A B} (x : res A) (f g : A -> res B) :
  (forall a, x = Ok a -> f a = g a) -> bind x f = bind x g.
Proof. destruct x; cbn; auto. Qed.

(** ** entwine_bit *)
Lemma entwine32_ok n k vi vn mask :
  1 <= n <= 31 -> 0 <= k <= n -> rank (Z.testbit mask) n = k ->
  entwine_bit32 k (n - k) vi vn mask = Ok (entwine_bit k (n - k) vi vn mask).
Proof.
  intros Hn Hk Hr. unfold entwine_bit32, entwine_bit. replace (k + (n - k)) with n by lia.
  rewrite ck_ok by lia. cbn [bind]. rewrite !shl_1 by lia. cbn [bind].
  set (st0 := (0, k, n - k, _, _, _)).
  pose (P := fun j (st : Z*Z*Z*Z*Z*Z) =>
    let '(m, ni, nn, im, nm, bs) := st in
    st = fold_left (entwine_step n vi vn mask) (zrange 0 j) st0 /\
    0 <= m < 2 ^ j /\
    ni = rank (Z.testbit mask) (n - j) /\
    nn = rank (fun i => negb (Z.testbit mask i)) (n - j) /\
    (0 < ni -> im = 2 ^ (ni - 1)) /\ (0 < nn -> nm = 2 ^ (nn - 1)) /\
    (j < n -> bs = 2 ^ (n - 1 - j))).
  destruct (mfold_zrange_inv P (entwine_step32 n vi vn mask) 0 n st0) as (st & E & HP); [lia| | |].
  - unfold P, st0. pose proof (rank_compl (Z.testbit mask) n ltac:(lia)).
    replace (n - 0) with n by lia. rewrite zrange_empty by lia. cbn [fold_left].
    repeat split; try lia; intros; rewrite Z.shiftl_1_l; f_equal; lia.
  - intros j [[[[[m ni] nn] im] nm] bs] Hj (Est & Hm & -> & -> & Him & Hnm & Hbs).
    assert (Hfold : fold_left (entwine_step n vi vn mask) (zrange 0 (j + 1)) st0 =
      entwine_step n vi vn mask (m, rank (Z.testbit mask) (n - j), rank (fun i => negb (Z.testbit mask i)) (n - j),
        im, nm, bs) j).
    { rewrite (zrange_snoc 0 (j + 1)) by lia. replace (j + 1 - 1) with j by lia.
      rewrite fold_left_app. cbn [fold_left]. rewrite <- Est. reflexivity. }
    pose (FL := fold_left (entwine_step n vi vn mask) (zrange 0 (j + 1)) st0). fold FL in Hfold.
    clear Est. rewrite Hbs in * by lia. clear Hbs.
    unfold entwine_step32. unfold entwine_step in Hfold.
    pose proof (rank_succ (Z.testbit mask) (n - 1 - j) ltac:(lia)) as R1.
    pose proof (rank_succ (fun i => negb (Z.testbit mask i)) (n - 1 - j) ltac:(lia)) as R2.
    replace (n - 1 - j + 1) with (n - j) in R1, R2 by lia. cbv beta in R2.
    pose proof (rank_nonneg (Z.testbit mask) (n - 1 - j)).
    pose proof (rank_nonneg (fun i => negb (Z.testbit mask i)) (n - 1 - j)).
    pose proof (rank_compl (Z.testbit mask) (n - 1 - j) ltac:(lia)) as RC.
    assert (Hp : 2 ^ (j + 1) = 2 * 2 ^ j) by (rewrite Z.pow_add_r by lia; lia).
    assert (Hp30 : 2 ^ j <= 2 ^ 30) by (apply pow2_30; lia).
    unfold shl. destruct (Z.ltb_spec 1 0); [lia|]. destruct (Z.ltb_spec 31 1); [lia|]. cbn [orb].
    rewrite Z.shiftl_mul_pow2 in * by lia. change (2 ^ 1) with 2 in *. rewrite ck_ok by lia. cbn [bind].
    rewrite shr_ok by lia. cbn [bind].
    rewrite land_pow2_shift in * by lia.
    destruct (Z.testbit mask (n - 1 - j)) eqn:Eb; cbn [Z.b2z negb] in *.
    + change (1 =? 0) with false in *. cbn [negb] in *.
      rewrite Him in * by lia. rewrite R1 in *.
      replace (rank (Z.testbit mask) (n - 1 - j) + 1 - 1) with (rank (Z.testbit mask) (n - 1 - j)) in * by lia.
      rewrite shr_ok by lia. cbn [bind].
      rewrite land_pow2_shift in * by lia.
      set (t := Z.testbit vi _) in *. assert (Ht : 0 <= Z.b2z t <= 1) by (destruct t; cbn; lia).
      rewrite ck_ok by lia. cbn [bind]. eexists; split; [reflexivity|].
      unfold P. fold FL. rewrite Hfold. rewrite R2.
      replace (n - (j + 1)) with (n - 1 - j) by lia.
      repeat split; try lia.
      * intros. apply pow2_shiftr1. lia.
      * intros. rewrite Hnm by lia. f_equal. lia.
      * intros. rewrite pow2_shiftr1 by lia. f_equal; lia.
    + change (0 =? 0) with true in *. cbn [negb] in *.
      rewrite Hnm in * by lia. rewrite R2 in *.
      set (rn := rank (fun i => negb (Z.testbit mask i)) (n - 1 - j)) in *.
      replace (rn + 1 - 1) with rn in * by lia.
      rewrite shr_ok by lia. cbn [bind].
      rewrite land_pow2_shift in * by lia.
      set (t := Z.testbit vn _) in *. assert (Ht : 0 <= Z.b2z t <= 1) by (destruct t; cbn; lia).
      rewrite ck_ok by lia. cbn [bind]. eexists; split; [reflexivity|].
      unfold P. fold FL. rewrite Hfold. rewrite R1.
      replace (n - (j + 1)) with (n - 1 - j) by lia.
      repeat split; try lia.
      * intros. rewrite Him by lia. f_equal. lia.
      * intros. apply pow2_shiftr1. lia.
      * intros. rewrite pow2_shiftr1 by lia. f_equal; lia.
  - rewrite E. cbn [bind]. destruct st as [[[[[m ni] nn] im] nm] bs]. destruct HP as [<- _]. reflexivity.
Qed.

Lemma qubits_len n g : 0 <= n -> qubits_ok n g -> zlen g <= n.
Proof.
  intros Hn [ND Hq]. rewrite <- (Z.sub_0_r n). rewrite <- (zlen_zrange 0 n) by lia. unfold zlen.
  apply inj_le. apply NoDup_incl_length; auto. intros q H. apply in_zrange. auto.
Qed.

Section LI1.
  Context {K : Type} {OK : OrdRing K}.
  Notation C := (Cx K).

  (** ** structs *)
  Lemma struct32_ok (m : mat K) k : mat_ok k m -> k <= 30 -> array_rows_small m ->
    exists s, build_struct m = Ok s /\ build_struct32 m = Ok s /\
      forall i j, 0 <= i < 2 ^ k -> 0 <= j < 2 ^ k -> calc_mat_entry32 s i j = calc_mat_entry s i j.
  Proof.
    revert k. induction m as [r c d|m IH|n|r c g]; cbn [mat_ok build_struct build_struct32 array_rows_small]; intros k Hm Hk HS.
    - destruct Hm as (Hk0 & -> & -> & Hd). rewrite int_arg_ok by (pose proof (pow2_30 k); lia). cbn [bind].
      eexists; split; [reflexivity|]. split; [reflexivity|].
      intros i j Hi Hj. cbn [calc_mat_entry calc_mat_entry32].
      assert (i * 2 ^ k <= (2 ^ 15 - 1) * 2 ^ 15) by nia. change (2 ^ 15) with 32768 in *.
      rewrite ck_ok by lia. cbn [bind]. rewrite ck_ok by lia. reflexivity.
    - destruct Hm as [Hk1 Hm]. destruct (IH (k - 1) Hm ltac:(lia) HS) as (s & E & E32 & Hs). rewrite E, E32. cbn [bind].
      cbn [mat_shape]. pose proof (mat_ok_shape _ _ Hm) as [-> _]. cbn [fst].
      assert (E2 : 2 ^ k = 2 * 2 ^ (k - 1)).
      { replace k with (k - 1 + 1) at 1 by lia. rewrite Z.pow_add_r by lia. lia. }
      pose proof (pow2_30 k Hk). pose proof (Z.pow_pos_nonneg 2 (k - 1) ltac:(lia) ltac:(lia)).
      rewrite int_arg_ok by lia. cbn [bind].
      eexists; split; [reflexivity|]. split; [reflexivity|].
      intros i j Hi Hj. cbn [calc_mat_entry calc_mat_entry32].
      replace (Z.shiftr (2 ^ (k - 1) * 2) 1) with (2 ^ (k - 1)).
      2:{ rewrite Z.shiftr_div_pow2 by lia. change (2 ^ 1) with 2. rewrite Z.div_mul; lia. }
      destruct (_ && _); auto.
      destruct (Z.leb_spec (2 ^ (k-1)) i), (Z.leb_spec (2 ^ (k-1)) j); cbn [andb]; auto.
      rewrite !ck_ok by lia. cbn [bind]. apply Hs; lia.
    - destruct Hm as [Hn ->]. rewrite int_arg_ok by lia. cbn [bind].
      eexists; split; [reflexivity|]. split; [reflexivity|]. intros i j Hi Hj.
      cbn [calc_mat_entry calc_mat_entry32].
      unfold shl. destruct (Z.ltb_spec n 0), (Z.ltb_spec 31 n); try lia. cbn [orb].
      rewrite ck_ok.
      2:{ rewrite Z.shiftl_mul_pow2 by lia. pose proof (pow2_30 n ltac:(lia)). pose proof (Z.pow_pos_nonneg 2 n). lia. }
      cbn [bind]. rewrite !shr_ok by lia. reflexivity.
    - tauto.
  Qed.

  Lemma c_submat32_ok n row col g : 0 <= n <= 30 -> (forall q, In q g -> 0 <= q < n) -> zlen g <= 30 ->
    c_submat32 n row col g = c_submat n row col g.
  Proof.
    intros Hn Hg HL. unfold c_submat32, c_submat. apply mfold_ext. intros [a b] i Hi. apply in_zrange in Hi.
    rewrite (cget_ok 0) by lia. cbn [bind].
    assert (0 <= znth 0 g i < n) by (apply Hg, znth_in; lia).
    rewrite !get_bit32_ok by lia.
    apply bind_ext. intros bi _. rewrite set_bit32_ok by lia. apply bind_ext. intros x _.
    apply bind_ext. intros bj _. rewrite set_bit32_ok by lia. reflexivity.
  Qed.

  (** the groups with their structs *)
  Definition groups32 (gs : list (list Z * mat K)) : Prop :=
    forall g m, In (g, m) gs -> zlen g <= 30 /\ array_rows_small m.
  Lemma structs32_ok n (gs : list (list Z * mat K)) : groups_ok n gs -> groups32 gs ->
    exists ss, mmap build_struct (map snd gs) = Ok ss /\ mmap build_struct32 (map snd gs) = Ok ss /\
      forall row col p, 0 <= n <= 30 -> c_prod32 n row col (combine (map fst gs) ss) p = c_prod n row col (combine (map fst gs) ss) p.
  Proof.
    induction gs as [|[g m] gs IH]; intros HG H32.
    - exists []. repeat split; reflexivity.
    - destruct IH as (ss & E & E32 & Hs).
      { intros g' m' Hin. apply HG. right; auto. }
      { intros g' m' Hin. apply H32. right; auto. }
      destruct (HG g m (or_introl eq_refl)) as [Hq Hm]. destruct (H32 g m (or_introl eq_refl)) as [HL HA].
      destruct (struct32_ok m (zlen g) Hm HL HA) as (s & Es & Es32 & Hc).
      exists (s :: ss). cbn [map snd mmap fst combine]. rewrite Es, Es32, E, E32. cbn [bind].
      repeat split; auto. intros row col p Hn. cbn [c_prod32 c_prod].
      rewrite c_submat32_ok by auto. rewrite c_submat_ok by auto. cbn [bind fst snd].
      rewrite Hc by apply reg_range. apply bind_ext. intros e _.
      destruct (cx_is0 _); auto.
  Qed.

  Lemma c_row32_ok n gs flat (vec : list C) io row :
    0 <= n <= 30 -> qubits_ok n flat -> 0 <= io -> zlen vec + io <= 2 ^ n -> 0 <= row < 2 ^ n ->
    (forall row col p, c_prod32 n row col gs p = c_prod n row col gs p) ->
    c_row32 n gs flat vec io row = c_row n gs flat vec io row.
  Proof.
    intros Hn HF Hio Hv Hrow Hgs. unfold c_row32, c_row.
    pose proof (qubits_len n flat ltac:(lia) HF) as HL. pose proof (zlen_nonneg flat). pose proof (zlen_nonneg vec).
    pose proof (pow2_30 n ltac:(lia)). pose proof (pow2_30 (zlen flat) ltac:(lia)).
    pose proof (Z.pow_pos_nonneg 2 (zlen flat) ltac:(lia) ltac:(lia)).
    rewrite (w32_ok (zlen vec)) by lia. rewrite w32_ok by lia.
    f_equal.
    apply (mfold_same (fun st => 0 <= snd st < 2 ^ n)); auto.
    intros [s colbits] i Hi Hc. cbn [snd] in Hc. apply in_zrange in Hi.
    match goal with |- bind ?x _ = bind ?y _ /\ _ => assert (Hcol : x = y /\ forall c, y = Ok c -> 0 <= c < 2 ^ n) end.
    { apply mfold_same; auto. intros c j Hj Hcr. apply in_zrange in Hj. rewrite (cget_ok 0) by lia. cbn [bind].
      assert (0 <= znth 0 flat j < n) by (apply HF, znth_in; lia).
      rewrite get_bit32_ok by lia. split.
      - apply bind_ext. intros b _. apply set_bit32_ok. lia.
      - intros c'. unfold cget_bit, cset_bit. destruct (Z.ltb_spec (zlen flat - 1 - j) 0); [lia|]. cbn [bind].
        destruct (Z.ltb_spec (n - 1 - znth 0 flat j) 0); [lia|]. intros E. injection E as <-.
        apply set_bit_range; lia. }
    destruct Hcol as [Ecol Hrange]. rewrite Ecol.
    match goal with |- bind ?y _ = _ /\ _ => destruct y as [c|e] eqn:Ey end; cbn [bind].
    2:{ split; [auto|discriminate]. }
    pose proof (Hrange c eq_refl) as Hc'. rewrite ck_ok by lia. cbn [bind].
    destruct (_ || _).
    - split; auto. intros s' E. injection E as <-. auto.
    - rewrite Hgs. split; auto. destruct (c_prod _ _ _ _ _); cbn [bind]; [|discriminate].
      destruct (cget vec _); cbn [bind]; [|discriminate]. intros s' E. injection E as <-. auto.
  Qed.

  (** ** cdot_loop and kronselect_dot *)
  Lemma cdot32_ok sched (gs : mats_t K) vec n out io oo :
    0 <= n <= 30 -> 0 <= io -> 0 <= oo -> zlen vec + io <= 2 ^ n -> zlen out + oo <= 2 ^ n ->
    groups_ok n gs -> groups32 gs -> (forall r, In r sched -> 0 <= r < zlen out) ->
    cdot_loop32 sched (map fst gs) (map snd gs) vec n out io oo = cdot_loop sched (map fst gs) (map snd gs) vec n out io oo.
  Proof.
    intros Hn Hio Hoo Hv Ho HG H32 HS. unfold cdot_loop32, cdot_loop.
    destruct (structs32_ok n gs HG H32) as (ss & E & E32 & Hs).
    pose proof (flat_ok n gs HG) as HF. unfold flat_of in HF.
    destruct (map fst gs) as [|g0 gs'] eqn:Eg; auto.
    destruct (negb _); auto. rewrite <- Eg in *.
    pose proof (pow2_30 n ltac:(lia)). pose proof (zlen_nonneg vec). pose proof (zlen_nonneg out).
    rewrite !int_arg_ok by lia. cbn [bind]. rewrite E, E32. cbn [bind].
    apply mfold_ext. intros L r Hr. apply HS in Hr. rewrite ck_ok by lia. cbn [bind].
    rewrite c_row32_ok by (auto; lia). reflexivity.
  Qed.

  Lemma w32_neg z : 2 ^ 31 <= z < 2 ^ 32 -> w32 z = z - 2 ^ 32.
  Proof. intros. unfold w32. replace (z + 2 ^ 31) with (z - 2 ^ 31 + 1 * 2 ^ 32) by lia. rewrite Z_mod_plus_full, Z.mod_small; lia. Qed.

  Lemma small_groups (mats : mats_arg K) : mats_small mats -> groups32 (mats_groups mats).
  Proof.
    intros H g m Hin. unfold mats_groups in Hin. apply in_map_iff in Hin as ([k m'] & E & Hin).
    injection E as <- <-. apply H in Hin. auto.
  Qed.
  Lemma kron32_ok mats vec n out io oo sched :
    0 <= n <= 30 -> 0 <= io -> 0 <= oo -> mats_wf n mats -> mats_small mats ->
    Permutation sched (zrange 0 (w32 (zlen out))) ->
    kronselect_dot32 mats vec n out io oo sched = kronselect_dot mats vec n out io oo (Cython sched).
  Proof.
    intros Hn Hio Hoo HW HS HP. unfold kronselect_dot32, kronselect_dot.
    destruct (Z.ltb_spec (2 ^ n) (zlen vec + io)); auto.
    destruct (Z.ltb_spec (2 ^ n) (zlen out + oo)); auto.
    apply bind_ext. intros gs Egs.
    pose proof (norm_mats_inv mats gs Egs) as Hsh.
    rewrite norm_mats_ok in Egs by (auto; apply HW). injection Egs as <-.
    apply cdot32_ok; auto.
    - apply mats_wf_groups; auto.
    - apply small_groups; auto.
    - intros r Hr. apply (Permutation_in _ HP) in Hr. apply in_zrange in Hr.
      pose proof (pow2_30 n ltac:(lia)). pose proof (zlen_nonneg out). rewrite w32_ok in Hr by lia. lia.
  Qed.
  Lemma kron32_spec mats vec n out io oo sched :
    0 <= n <= 30 -> 0 <= io -> 0 <= oo -> mats_wf n mats -> mats_small mats ->
    accepted mats vec n out io oo -> rectangular (map fst (mats_groups mats)) = true ->
    Permutation sched (zrange 0 (w32 (zlen out))) ->
    kronselect_dot32 mats vec n out io oo sched = Ok (kron_result n mats vec io oo (zlen out)).
  Proof.
    intros Hn Hio Hoo HW HS HA HR HP. rewrite kron32_ok by auto.
    assert (HP' : Permutation sched (zrange 0 (zlen out))).
    { destruct HA as (_ & HA & _). pose proof (pow2_30 n ltac:(lia)). pose proof (zlen_nonneg out).
      rewrite w32_ok in HP by lia. exact HP. }
    destruct (proj2 (kron_accept_c mats vec n out io oo sched (proj1 Hn) Hio Hoo HW HP') (conj HA HR)) as [R E].
    rewrite E. f_equal. exact (kron_partial_correct mats vec n out io oo (Cython sched) R (proj1 Hn) Hio Hoo HW HP' E).
  Qed.
End LI1.
