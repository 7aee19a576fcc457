(** Both dot implementations compute the specified operator. *)
From Coq Require Import ZifyBool.
From Verif Require Import Base S_Bits M_Bits L_Bits M_Kron S_Kron.

(** ** sorted_set *)
Lemma in_insert_uniq x y l : In y (insert_uniq x l) <-> y = x \/ In y l.
Proof.
  induction l as [|z l IH]; cbn; [intuition|].
  destruct (Z.ltb_spec x z); cbn; [intuition|].
  destruct (Z.eqb_spec x z); cbn; [subst; intuition|]. rewrite IH. intuition.
Qed.
Lemma in_sorted_set x l : In x (sorted_set l) <-> In x l.
Proof.
  unfold sorted_set. assert (G : forall acc, In x (fold_left (fun acc x => insert_uniq x acc) l acc)
    <-> In x l \/ In x acc).
  { induction l as [|y l IH]; cbn; intros acc; [intuition|]. rewrite IH, in_insert_uniq. intuition. }
  rewrite G. cbn. intuition.
Qed.
Inductive ssorted : list Z -> Prop :=
| ss_nil : ssorted []
| ss_cons x l : (forall y, In y l -> x < y) -> ssorted l -> ssorted (x :: l).
Lemma insert_uniq_sorted x l : ssorted l -> ssorted (insert_uniq x l).
Proof.
  induction 1 as [|y l Hy Hl IH]; cbn.
  - constructor; [cbn; tauto|constructor].
  - destruct (Z.ltb_spec x y).
    + constructor; [|constructor; auto]. intros z [->|Hz]; auto. apply Hy in Hz. lia.
    + destruct (Z.eqb_spec x y); [constructor; auto|]. constructor; auto.
      intros z Hz. apply in_insert_uniq in Hz as [->|Hz]; auto. lia.
Qed.
Lemma sorted_set_sorted l : ssorted (sorted_set l).
Proof.
  unfold sorted_set. assert (G : forall acc, ssorted acc ->
    ssorted (fold_left (fun acc x => insert_uniq x acc) l acc)).
  { induction l; cbn; auto using insert_uniq_sorted. }
  apply G. constructor.
Qed.
Lemma ssorted_nodup l : ssorted l -> NoDup l.
Proof.
  induction 1; constructor; auto. intros Hx. apply H in Hx. lia.
Qed.
Lemma sorted_set_nodup l : NoDup (sorted_set l).
Proof. apply ssorted_nodup, sorted_set_sorted. Qed.

Lemma enumerate_map {A} (d : A) l : enumerate l = map (fun j => (j, znth d l j)) (zrange 0 (zlen l)).
Proof.
  unfold enumerate. rewrite (list_as_map d l) at 2.
  rewrite <- (map_id (zrange 0 (zlen l))) at 1. apply combine_map_same.
Qed.

Section LK.
  Context {K : Type} {OK : OrdRing K}.
  Notation C := (Cx K).
  Add Ring CRingLK : (@rth C _).

  (** ** matrix entries *)
  Lemma mat_ok_shape (m : mat K) k : mat_ok k m -> mat_shape m = (2 ^ k, 2 ^ k) /\ 0 <= k.
  Proof.
    revert k. induction m as [r c d|m IH|n|r c g]; cbn [mat_ok mat_shape]; intros k.
    - intros (Hk & -> & -> & H). split; auto.
    - intros [Hk H]. apply IH in H as [-> H]. cbn [fst snd].
      replace (2 ^ (k - 1) * 2) with (2 ^ k); [split; auto; lia|].
      replace k with (k - 1 + 1) at 1 by lia. rewrite Z.pow_add_r by lia. reflexivity.
    - intros [Hn ->]. split; auto. lia.
    - tauto.
  Qed.
  Lemma lnot_shift n : 0 <= n -> Z.lnot (Z.shiftl (-1) n) = Z.ones n.
  Proof.
    intros. rewrite Z.shiftl_mul_pow2 by auto. rewrite Z.ones_equiv. unfold Z.lnot. lia.
  Qed.
  Lemma swap_cond n i j : 0 <= n -> 0 <= i < 2 ^ (2 * n) -> 0 <= j < 2 ^ (2 * n) ->
    (Z.land i (Z.lnot (Z.shiftl (-1) n)) =? Z.shiftr j n) &&
    (Z.land j (Z.lnot (Z.shiftl (-1) n)) =? Z.shiftr i n)
    = (i =? (j mod 2 ^ n) * 2 ^ n + j / 2 ^ n).
  Proof.
    intros Hn Hi Hj. rewrite lnot_shift, !Z.land_ones, !Z.shiftr_div_pow2 by auto.
    replace (2 * n) with (n + n) in * by lia. rewrite Z.pow_add_r in * by lia.
    set (B := 2 ^ n) in *. assert (0 < B) by (unfold B; lia).
    assert (0 <= j / B < B) by (split; [apply Z.div_pos; lia|apply Z.div_lt_upper_bound; lia]).
    assert (0 <= i / B < B) by (split; [apply Z.div_pos; lia|apply Z.div_lt_upper_bound; lia]).
    pose proof (Z.mod_pos_bound i B ltac:(lia)). pose proof (Z.mod_pos_bound j B ltac:(lia)).
    pose proof (Z.div_mod i B ltac:(lia)). pose proof (Z.div_mod j B ltac:(lia)).
    destruct (Z.eqb_spec i (j mod B * B + j / B)) as [E|E].
    - assert (i / B = j mod B /\ i mod B = j / B) as [-> ->].
      { split; symmetry.
        - apply Z.div_unique with (j / B); lia.
        - apply Z.mod_unique with (j mod B); lia. }
      rewrite !Z.eqb_refl. reflexivity.
    - apply andb_false_iff.
      destruct (Z.eqb_spec (i mod B) (j / B)); auto. right.
      apply Z.eqb_neq. intros E2. apply E. lia.
  Qed.
  Lemma mat_get_ok (m : mat K) k i j : mat_ok k m -> 0 <= i < 2 ^ k -> 0 <= j < 2 ^ k ->
    mat_get m i j = Ok (mentry k m i j).
  Proof.
    revert k i j. induction m as [r c d|m IH|n|r c g]; cbn [mat_ok]; intros k i j Hm Hi Hj.
    - destruct Hm as (Hk & -> & -> & Hd). cbn [mat_get mentry]. unfold np_index.
      destruct (Z.ltb_spec i 0); [lia|]. destruct (Z.ltb_spec i 0); [lia|].
      destruct (Z.leb_spec (2 ^ k) i); [lia|]. cbn [orb bind].
      destruct (Z.ltb_spec j 0); [lia|]. destruct (Z.ltb_spec j 0); [lia|].
      destruct (Z.leb_spec (2 ^ k) j); [lia|]. cbn [orb bind].
      apply cget_ok. nia.
    - destruct Hm as [Hk Hm]. cbn [mat_get mentry].
      pose proof (mat_ok_shape _ _ Hm) as [-> _].
      assert (E2 : 2 ^ k = 2 * 2 ^ (k - 1)).
      { replace k with (k - 1 + 1) at 1 by lia. rewrite Z.pow_add_r by lia. lia. }
      destruct (Z.ltb_spec i (2 ^ (k-1))), (Z.ltb_spec j (2 ^ (k-1)));
        destruct (Z.leb_spec (2 ^ (k-1)) i), (Z.leb_spec (2 ^ (k-1)) j); try lia; cbn [andb]; auto.
      apply IH; auto; lia.
    - destruct Hm as [Hn ->]. cbn [mat_get mentry]. rewrite swap_cond by auto. reflexivity.
    - tauto.
  Qed.
  Lemma build_struct_ok (m : mat K) k : mat_ok k m -> exists s, build_struct m = Ok s /\
    forall i j, 0 <= i < 2 ^ k -> 0 <= j < 2 ^ k -> calc_mat_entry s i j = Ok (mentry k m i j).
  Proof.
    revert k. induction m as [r c d|m IH|n|r c g]; cbn [mat_ok build_struct]; intros k Hm.
    - destruct Hm as (Hk & -> & -> & Hd). eexists; split; [reflexivity|].
      intros i j Hi Hj. cbn [calc_mat_entry mentry]. apply cget_ok. nia.
    - destruct Hm as [Hk Hm]. destruct (IH _ Hm) as (s & E & Hs). rewrite E. cbn [bind].
      eexists; split; [reflexivity|]. intros i j Hi Hj. cbn [calc_mat_entry mentry].
      cbn [mat_shape]. pose proof (mat_ok_shape _ _ Hm) as [-> _]. cbn [fst].
      assert (E2 : 2 ^ k = 2 * 2 ^ (k - 1)).
      { replace k with (k - 1 + 1) at 1 by lia. rewrite Z.pow_add_r by lia. lia. }
      replace (Z.shiftr (2 ^ (k - 1) * 2) 1) with (2 ^ (k - 1)).
      2:{ rewrite Z.shiftr_div_pow2 by lia. change (2 ^ 1) with 2. rewrite Z.div_mul; lia. }
      destruct (Z.ltb_spec i (2 ^ (k-1))), (Z.ltb_spec j (2 ^ (k-1)));
        destruct (Z.leb_spec (2 ^ (k-1)) i), (Z.leb_spec (2 ^ (k-1)) j); try lia; cbn [andb]; auto.
      + destruct (i =? j); auto.
      + apply Hs; lia.
    - destruct Hm as [Hn ->]. eexists; split; [reflexivity|]. intros i j Hi Hj.
      cbn [calc_mat_entry mentry]. rewrite swap_cond by auto.
      destruct (i =? _); reflexivity.
    - tauto.
  Qed.

  (** ** enumeration of the columns *)
  Lemma agree_off_spec n g r c : agree_off n g r c = true <->
    (forall q, 0 <= q < n -> ~ In q g -> qbit n r q = qbit n c q).
  Proof.
    unfold agree_off. rewrite forallb_forall. split.
    - intros H q Hq Hn. specialize (H q (proj2 (in_zrange 0 n q) Hq)).
      apply orb_true_iff in H as [H|H].
      + apply existsb_exists in H as (x & Hx & E). apply Z.eqb_eq in E. subst. tauto.
      + apply Bool.eqb_prop; auto.
    - intros H q Hq. apply in_zrange in Hq. apply orb_true_iff.
      destruct (in_dec Z.eq_dec q g) as [Hin|Hout].
      + left. apply existsb_exists. exists q. split; auto. apply Z.eqb_refl.
      + right. rewrite H by auto. apply Bool.eqb_reflx.
  Qed.
  Lemma agree_off_ext n g g' r c : (forall q, In q g <-> In q g') -> agree_off n g r c = agree_off n g' r c.
  Proof.
    intros H. apply eq_true_iff_eq. rewrite !agree_off_spec. split; intros A q Hq Hn; apply A; auto;
      rewrite H in *; auto.
  Qed.

  Lemma setreg_agree n g r v : agree_off n g r (setreg n g r v) = true.
  Proof. apply agree_off_spec. intros. symmetry. apply qbit_setreg_out; auto. Qed.

  (** sum over the columns that agree with [r] off [F] *)
  Lemma sum_columns n F r (f : Z -> C) :
    0 <= n -> qubits_ok n F ->
    (forall c, 0 <= c < 2 ^ n -> agree_off n F r c = false -> f c = 0%r) ->
    sum (zrange 0 (2 ^ n)) f = sum (zrange 0 (2 ^ zlen F)) (fun i => f (setreg n F r i)).
  Proof.
    intros Hn HF Hf.
    apply (sum_reindex_supp (zrange 0 (2 ^ n)) (agree_off n F r) (zrange 0 (2 ^ zlen F)) (setreg n F r)).
    - apply zrange_nodup.
    - apply zrange_nodup.
    - intros j Hj. split; [apply in_zrange; apply setreg_range; auto|apply setreg_agree].
    - intros j j' Hj Hj' E. apply in_zrange in Hj, Hj'. eapply setreg_inj_v; eauto.
    - intros c Hc Ha. apply in_zrange in Hc. exists (reg n F c). split.
      + apply in_zrange. apply reg_range.
      + apply setreg_reg; auto. apply agree_off_spec; auto.
    - intros c Hc. apply in_zrange in Hc. auto.
  Qed.

  Lemma bits_get_map (f : Z -> Z * Z) F q : In q F -> bits_get (map (fun q => (q, f q)) F) q = Ok (f q).
  Proof.
    induction F as [|x F IH]; cbn; [tauto|]. destruct (Z.eqb_spec x q).
    - intros _. subst; auto.
    - intros [->|H]; [congruence|auto].
  Qed.

  Definition bitlist n x := map Z.b2z (map (qbit n x) (zrange 0 n)).
  Lemma uint_bitlist n x : 0 <= n -> uint_to_bitarray x n = bitlist n x.
  Proof. intros. rewrite uint_to_bitarray_spec by auto. reflexivity. Qed.
  Lemma zlen_bitlist n x : 0 <= n -> zlen (bitlist n x) = n.
  Proof. intros. unfold bitlist. rewrite !zlen_map, zlen_zrange; lia. Qed.
  Lemma znth_bitlist n x q : 0 <= q < n -> znth 0 (bitlist n x) q = Z.b2z (qbit n x q).
  Proof.
    intros. unfold bitlist. rewrite map_map, znth_map_zrange by lia. reflexivity.
  Qed.
  Lemma bitlist_uint n x : 0 <= n -> 0 <= x < 2 ^ n -> bitarray_to_uint (bitlist n x) = Ok x.
  Proof.
    intros. rewrite bitarray_to_uint_spec. unfold bitlist. rewrite map_b2z_truth.
    f_equal. apply reg_full; auto.
  Qed.

  Lemma set_columns n F row x i :
    0 <= n -> qubits_ok n F -> agree_off n F row x = true ->
    mfold (fun colbits '(j, indx) =>
        do b <- pyget (uint_to_bitarray i (zlen F)) j; pyset colbits indx b)
      (enumerate F) (bitlist n x)
    = Ok (bitlist n (setreg n F row i)).
  Proof.
    intros Hn HF Ha. pose proof (zlen_nonneg F) as HL.
    rewrite (enumerate_map 0), mfold_map.
    destruct (mfold_zrange_inv
      (fun j L => zlen L = n /\ forall q, 0 <= q < n -> znth 0 L q =
         match idx q F with
         | Some k => if (k <? j) then Z.b2z (Z.testbit i (zlen F - 1 - k)) else Z.b2z (qbit n x q)
         | None => Z.b2z (qbit n x q) end)
      (fun s j => do b <- pyget (uint_to_bitarray i (zlen F)) j; pyset s (znth 0 F j) b)
      0 (zlen F) (bitlist n x)) as (L & E & HlenL & HL').
    - auto.
    - split; [apply zlen_bitlist; auto|]. intros q Hq. rewrite znth_bitlist by auto.
      destruct (idx q F) as [k|] eqn:Ek; auto. apply idx_some in Ek as [Hk _].
      destruct (Z.ltb_spec k 0); auto; lia.
    - intros j L Hj [HlenL HLq].
      rewrite uint_bitlist by auto. rewrite (pyget_ok 0) by (rewrite zlen_bitlist by auto; auto).
      cbn [bind]. rewrite znth_bitlist by auto.
      assert (Hq : 0 <= znth 0 F j < n) by (apply HF, znth_in; auto).
      rewrite pyset_ok by lia. eexists; split; [reflexivity|]. split.
      + rewrite zlen_upd; auto.
      + intros q Hq'. rewrite znth_upd by lia. destruct (Z.eqb_spec q (znth 0 F j)) as [->|Hne].
        * rewrite idx_znth by (auto; apply HF). destruct (Z.ltb_spec j (j+1)); [|lia].
          unfold qbit. reflexivity.
        * rewrite HLq by auto. destruct (idx q F) as [k|] eqn:Ek; auto.
          assert (k <> j). { intros ->. apply idx_some in Ek as [_ Ek]. congruence. }
          destruct (Z.ltb_spec k j), (Z.ltb_spec k (j+1)); auto; lia.
    - rewrite E. f_equal. apply list_eq_znth with (d:=0).
      + rewrite zlen_bitlist; auto.
      + rewrite HlenL. intros q Hq. rewrite HL' by auto. rewrite znth_bitlist by auto.
        unfold setreg. rewrite qbit_mkstate by auto.
        destruct (idx q F) as [k|] eqn:Ek.
        * apply idx_some in Ek as [Hk _]. destruct (Z.ltb_spec k (zlen F)); auto; lia.
        * f_equal. symmetry. apply (proj1 (agree_off_spec n F row x) Ha); auto. apply idx_none; auto.
  Qed.

  Definition mijs_of n F row c : list (Z * (Z * Z)) :=
    map (fun q => (q, (Z.b2z (qbit n row q), Z.b2z (qbit n c q)))) F.

  Lemma gen_valid_ok row F n :
    0 <= n -> 0 <= row < 2 ^ n -> qubits_ok n F ->
    gen_valid_col_and_matcol row F n
    = Ok (map (fun i => ((row, setreg n F row i), mijs_of n F row (setreg n F row i)))
              (zrange 0 (2 ^ zlen F))).
  Proof.
    intros Hn Hrow HF. pose proof (zlen_nonneg F) as HL. unfold gen_valid_col_and_matcol.
    rewrite uint_bitlist by auto.
    rewrite mmap_ok with (g := fun q => Z.b2z (qbit n row q)).
    2:{ intros q Hq. apply HF in Hq. rewrite (pyget_ok 0) by (rewrite zlen_bitlist; auto).
        rewrite znth_bitlist; auto. }
    cbn [bind].
    set (body := fun '(colbits, acc) i => _).
    destruct (mfold_zrange_inv
      (fun i st => exists x, agree_off n F row x = true /\
        st = (bitlist n x, map (fun i => ((row, setreg n F row i), mijs_of n F row (setreg n F row i)))
                            (zrange 0 i))) body 0 (2 ^ zlen F) (bitlist n row, [])) as (st & E & x & _ & ->).
    - lia.
    - exists row. split; auto. apply agree_off_spec; auto.
    - intros i st Hi (x & Hx & ->). unfold body.
      rewrite (set_columns n F row) by auto. cbn [bind].
      rewrite bitlist_uint by (auto using setreg_range). cbn [bind].
      rewrite mmap_ok with (g := fun '(j, item) => (znth 0 F j, item)).
      2:{ intros [j item] Hin. rewrite (enumerate_map (0,0)) in Hin. apply in_map_iff in Hin as (j' & E' & Hj').
          inversion E'; subst. apply in_zrange in Hj'. rewrite (pyget_ok 0); auto.
          assert (HLe : zlen (combine (map (fun q => Z.b2z (qbit n row q)) F) (uint_to_bitarray i (zlen F))) <= zlen F).
          { unfold zlen. rewrite combine_length, map_length. lia. }
          lia. }
      cbn [bind]. eexists; split; [reflexivity|].
      exists (setreg n F row i). split; [apply setreg_agree|]. f_equal.
      rewrite (zrange_snoc 0 (i + 1)), map_app by lia. replace (i + 1 - 1) with i by lia.
      cbn [map]. do 2 f_equal. f_equal.
      (* the dictionary *)
      unfold mijs_of. rewrite uint_bitlist by auto.
      set (cb := combine _ _).
      assert (Ecb : cb = map (fun j => (Z.b2z (qbit n row (znth 0 F j)), Z.b2z (qbit n (setreg n F row i) (znth 0 F j)))) (zrange 0 (zlen F))).
      { unfold cb. rewrite (list_as_map 0 F) at 1. rewrite map_map. unfold bitlist. rewrite map_map.
        rewrite combine_map_same. apply map_zrange_ext. intros j Hj. f_equal.
        rewrite qbit_setreg_in by auto. reflexivity. }
      rewrite (enumerate_map (0,0)). rewrite Ecb. rewrite zlen_map, zlen_zrange by lia.
      replace (zlen F - 0) with (zlen F) by lia. rewrite map_map.
      rewrite (map_znth 0 _ F). apply map_zrange_ext. intros j Hj.
      rewrite znth_map_zrange by lia. replace (0 + j) with j by lia. reflexivity.
    - fold body. rewrite E. cbn [bind snd]. reflexivity.
  Qed.

  (** ** the product over the groups *)
  Lemma zlist_eqb_eq a b : zlist_eqb a b = true <-> a = b.
  Proof.
    revert b. induction a as [|x a IH]; destruct b as [|y b]; cbn; split; try discriminate; auto.
    - intros H. apply andb_true_iff in H as [H1 H2]. apply Z.eqb_eq in H1. apply IH in H2. congruence.
    - intros E. inversion E; subst. rewrite Z.eqb_refl. apply IH; auto.
  Qed.
  Lemma dict_get_in (d : mats_t K) g m : NoDup (map fst d) -> In (g, m) d -> dict_get d g = Ok m.
  Proof.
    induction d as [|[g' m'] d IH]; cbn; [tauto|]. intros ND [E|Hin]; inversion ND; subst.
    - inversion E; subst. rewrite (proj2 (zlist_eqb_eq g g)); auto.
    - destruct (zlist_eqb g' g) eqn:Eq; [|auto]. apply zlist_eqb_eq in Eq. subst.
      exfalso. apply H1. apply in_map_iff. exists (g, m). auto.
  Qed.

  Definition flat_of (gs : list (list Z * mat K)) := sorted_set (concat (map fst gs)).
  Lemma flat_ok n gs : groups_ok n gs -> qubits_ok n (flat_of gs).
  Proof.
    intros H. split; [apply sorted_set_nodup|]. intros q Hq. unfold flat_of in Hq. apply (proj1 (in_sorted_set _ _)) in Hq.
    apply in_concat in Hq as (g & Hg & Hq). apply in_map_iff in Hg as ([g' m] & <- & Hin).
    destruct (H _ _ Hin) as [H1 _]. auto.
  Qed.
  Lemma in_flat (gs : list (list Z * mat K)) g m q : In (g, m) gs -> In q g -> In q (flat_of gs).
  Proof.
    intros. unfold flat_of. apply (proj2 (in_sorted_set _ _)). apply in_concat. exists g. split; auto.
    apply in_map_iff. exists (g, m). auto.
  Qed.
  Lemma submat_reg n F row c (g : list Z) (sel : Z * Z -> Z) (f : Z -> bool) :
    (forall q, In q g -> In q F) ->
    (forall q, sel (Z.b2z (qbit n row q), Z.b2z (qbit n c q)) = Z.b2z (f q)) ->
    (do is_ <- mmap (fun index => do ij <- bits_get (mijs_of n F row c) index; Ok (sel ij)) g;
     bitarray_to_uint is_) = Ok (val (map f g)).
  Proof.
    intros Hg Hf. rewrite mmap_ok with (g := fun q => Z.b2z (f q)).
    - cbn [bind]. rewrite bitarray_to_uint_spec, map_map. do 2 f_equal. apply map_ext. intros.
      apply b2z_truth.
    - intros q Hq. unfold mijs_of.
      rewrite (bits_get_map (fun q => (Z.b2z (qbit n row q), Z.b2z (qbit n c q)))) by auto.
      cbn [bind]. rewrite Hf. auto.
  Qed.

  Lemma dot_loop_ok (gs : mats_t K) vec n out ioff ooff :
    0 <= n -> 0 <= ooff -> zlen out + ooff <= 2 ^ n ->
    groups_ok n gs -> NoDup (map fst gs) ->
    dot_loop gs vec n out ioff ooff
    = Ok (map (fun r => kron_apply n gs (slice_at ioff vec) (r + ooff)) (zrange 0 (zlen out))).
  Proof.
    intros Hn Hoo Hlo Hgs ND. unfold dot_loop. fold (flat_of gs).
    pose proof (flat_ok n gs Hgs) as HF. set (F := flat_of gs) in *.
    set (body := fun output outputrow => _).
    assert (Hbody : forall L r, zlen L = zlen out -> 0 <= r < zlen out ->
       body L r = Ok (upd L (Z.to_nat r) (kron_apply n gs (slice_at ioff vec) (r + ooff)))).
    { intros L r HL Hr. unfold body. rewrite gen_valid_ok by (auto; lia). cbn [bind].
      set (row := r + ooff) in *.
      rewrite mfold_map.
      rewrite mfold_ok with (g := fun s i => (s + (prod gs (group_entry n row (setreg n F row i)) *
                                               slice_at ioff vec (setreg n F row i)))%r).
      - cbn [bind]. rewrite pyset_ok by lia. do 2 f_equal.
        rewrite fold_left_sum. unfold kron_apply.
        rewrite (sum_columns n F row) by
          (auto; intros c Hc Ha; unfold kron_entry;
           rewrite (agree_off_ext n _ F) by (intros; unfold F, flat_of; symmetry; apply in_sorted_set);
           rewrite Ha; ring).
        transitivity (sum (zrange 0 (2 ^ zlen F)) (fun i => (prod gs (group_entry n row (setreg n F row i)) * slice_at ioff vec (setreg n F row i))%r)); [ring|].
        apply sum_ext. intros i _. unfold kron_entry.
        rewrite (agree_off_ext n _ F) by (intros; unfold F, flat_of; symmetry; apply in_sorted_set).
        rewrite setreg_agree. reflexivity.
      - intros s i Hi. apply in_zrange in Hi. set (c := setreg n F row i).
        destruct (Z.ltb_spec (c - ioff) 0) as [H1|H1]; [|destruct (Z.leb_spec (zlen vec) (c - ioff)) as [H2|H2]]; cbn [orb].
        + f_equal. unfold slice_at. rewrite znth_out by lia. ring.
        + f_equal. unfold slice_at. rewrite znth_out by lia. ring.
        + assert (Ep : forall gs' p, (forall x, In x gs' -> In x gs) ->
            mfold (fun p indices =>
              do m <- dict_get gs indices;
              do is_ <- mmap (fun index => do ij <- bits_get (mijs_of n F row c) index; Ok (fst ij)) indices;
              do js <- mmap (fun index => do ij <- bits_get (mijs_of n F row c) index; Ok (snd ij)) indices;
              do submati <- bitarray_to_uint is_;
              do submatj <- bitarray_to_uint js;
              do e <- mat_get m submati submatj;
              Ok (p * e)%r) (map fst gs') p = Ok (p * prod gs' (group_entry n row c))%r).
          { induction gs' as [|[g m] gs' IH]; intros p Hin.
            - cbn. f_equal. ring.
            - assert (Hgm : In (g, m) gs) by (apply Hin; cbn; auto).
              destruct (Hgs _ _ Hgm) as [Hq Hm].
              assert (HgF : forall q, In q g -> In q F) by (intros; eapply in_flat; eauto).
              cbn [map fst mfold]. rewrite (dict_get_in gs g m) by auto. cbn [bind].
              pose proof (submat_reg n F row c g fst (qbit n row) HgF (fun _ => eq_refl)) as E1.
              pose proof (submat_reg n F row c g snd (qbit n c) HgF (fun _ => eq_refl)) as E2.
              destruct (mmap (fun index => do ij <- bits_get (mijs_of n F row c) index; Ok (fst ij)) g) as [is_|]; [|discriminate].
              destruct (mmap (fun index => do ij <- bits_get (mijs_of n F row c) index; Ok (snd ij)) g) as [js|]; [|discriminate].
              cbn [bind] in *. rewrite E1, E2. cbn [bind].
              change (val (map (qbit n row) g)) with (reg n g row).
              change (val (map (qbit n c) g)) with (reg n g c).
              rewrite (mat_get_ok m (zlen g)) by (auto using reg_range). cbn [bind].
              rewrite IH by (intros; apply Hin; cbn; auto). f_equal.
              cbn [prod]. unfold group_entry at 2. cbn [fst snd]. ring. }
          rewrite Ep by auto. cbn [bind].
          rewrite (pyget_ok 0%r) by lia. cbn [bind]. f_equal. unfold slice_at. ring. }
    destruct (mfold_zrange_inv
      (fun j L => zlen L = zlen out /\ forall r, 0 <= r < j ->
           znth 0%r L r = kron_apply n gs (slice_at ioff vec) (r + ooff))
      body 0 (zlen out) out) as (L & E & HL & Hr).
    - apply zlen_nonneg.
    - split; auto. lia.
    - intros j L Hj [HL Hr]. rewrite Hbody by auto. eexists; split; [reflexivity|]. split.
      + rewrite zlen_upd; auto.
      + intros r Hr'. rewrite znth_upd by lia. destruct (Z.eqb_spec r j); [subst; auto|]. apply Hr; lia.
    - rewrite E. f_equal. apply list_eq_znth with (d:=0%r).
      + rewrite HL, zlen_map, zlen_zrange; [lia|apply zlen_nonneg].
      + rewrite HL. intros r Hr'. rewrite Hr by auto. rewrite znth_map_zrange by lia. reflexivity.
  Qed.
End LK.
