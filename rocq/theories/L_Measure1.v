(** Measured qubits, masks and marginals. *)
From Verif Require Import Base S_Bits M_Bits L_Bits M_Kron L_Kron M_Measure S_Measure.

Lemma filter_map {A B} (f : A -> B) p (l : list A) : filter p (map f l) = map f (filter (fun a => p (f a)) l).
Proof. induction l as [|a l IH]; cbn; auto. destruct (p (f a)); cbn; congruence. Qed.
Lemma filter_rev' {A} p (l : list A) : filter p (rev l) = rev (filter p l).
Proof.
  induction l as [|a l IH]; cbn [rev filter]; auto. rewrite filter_app, IH. cbn [filter].
  destruct (p a); cbn [rev]; auto. apply app_nil_r.
Qed.
Lemma rev_zrange n : rev (zrange 0 n) = map (fun i => n - 1 - i) (zrange 0 n).
Proof.
  destruct (Z.leb_spec n 0). { rewrite zrange_empty by lia. reflexivity. }
  apply list_eq_znth with (d := 0).
  - rewrite zlen_rev, zlen_map. reflexivity.
  - rewrite zlen_rev, zlen_zrange by lia. intros j Hj. rewrite znth_rev by (rewrite zlen_zrange; lia).
    rewrite zlen_zrange by lia. rewrite znth_map_zrange by lia.
    pose proof (znth_map_zrange 0 (fun i => i) 0 n (n - 0 - 1 - j) ltac:(lia)) as E. rewrite map_id in E.
    rewrite E. lia.
Qed.
Lemma existsb_eqb q l : existsb (Z.eqb q) l = true <-> In q l.
Proof.
  rewrite existsb_exists. split.
  - intros (x & H & E). apply Z.eqb_eq in E. subst. auto.
  - intros H. exists q. split; auto. apply Z.eqb_refl.
Qed.

(** ** The mask *)
Definition masked (n : Z) (indices : list Z) (mask : Z) : Prop :=
  0 <= mask < 2 ^ n /\ forall b, 0 <= b -> Z.testbit mask b = existsb (Z.eqb (n - 1 - b)) indices.

Lemma make_row_mask_ok n indices : 0 <= n -> qubits_ok n indices ->
  exists mask, make_row_mask indices n = Ok mask /\ masked n indices mask.
Proof.
  intros Hn [_ Hr]. unfold make_row_mask.
  assert (G : forall l (seen : list Z) m0, (forall q, In q l -> 0 <= q < n) -> masked n seen m0 ->
    exists mask, mfold (fun row_mask q => cset_bit row_mask ((n - 1) - q) 1) l m0 = Ok mask /\
                 masked n (seen ++ l) mask).
  { induction l as [|q l IH]; intros seen m0 Hl Hm.
    - exists m0. rewrite app_nil_r. auto.
    - cbn [mfold]. unfold cset_bit at 1. assert (0 <= q < n) by (apply Hl; left; auto).
      destruct (Z.ltb_spec (n - 1 - q) 0); [lia|]. cbn [bind].
      destruct (IH (seen ++ [q]) (set_bit m0 (n - 1 - q) 1)) as (mask & E & HM).
      + intros; apply Hl; right; auto.
      + destruct Hm as [Hm1 Hm2]. split; [apply set_bit_range; lia|].
        intros b Hb. rewrite set_bit_spec by lia. rewrite existsb_app, Hm2 by auto. cbn [existsb].
        rewrite orb_false_r. destruct (Z.eqb_spec b (n - 1 - q)), (Z.eqb_spec (n - 1 - b) q); try lia;
          rewrite ?orb_true_r, ?orb_false_r; reflexivity.
      + exists mask. split; auto. rewrite <- app_assoc in HM. exact HM. }
  destruct (G indices [] 0) as (mask & E & HM); auto.
  - split; [split; [lia|apply Z.pow_pos_nonneg; lia]|]. intros. rewrite Z.bits_0. reflexivity.
  - exists mask. auto.
Qed.

Section Masked.
  Variables (n : Z) (indices : list Z) (mask : Z).
  Hypotheses (Hn : 0 <= n) (HI : qubits_ok n indices) (HM : masked n indices mask).
  Let k := zlen indices.
  Notation mo := (measured_order n indices).
  Notation uo := (unmeasured_order n indices).

  Lemma mo_perm : Permutation mo indices.
  Proof.
    apply NoDup_Permutation; [apply NoDup_filter, zrange_nodup|apply HI|].
    intros q. unfold measured_order. rewrite filter_In, existsb_eqb, in_zrange. split; [tauto|].
    intros H. split; auto. apply HI; auto.
  Qed.
  Lemma zlen_mo : zlen mo = k.
  Proof. unfold zlen. rewrite (Permutation_length mo_perm). reflexivity. Qed.

  Lemma mask_filter p p' : (forall q, 0 <= q < n -> p (n - 1 - q) = p' q) ->
    rev (filter p (zrange 0 n)) = map (fun q => n - 1 - q) (filter p' (zrange 0 n)).
  Proof.
    intros H. rewrite <- filter_rev', rev_zrange, filter_map. f_equal. apply filter_ext_in.
    intros q Hq. apply in_zrange in Hq. auto.
  Qed.
  Lemma mask_mo : rev (filter (Z.testbit mask) (zrange 0 n)) = map (fun q => n - 1 - q) mo.
  Proof.
    apply mask_filter. intros q Hq. rewrite (proj2 HM) by lia. replace (n - 1 - (n - 1 - q)) with q by lia. reflexivity.
  Qed.
  Lemma mask_uo : rev (filter (fun i => negb (Z.testbit mask i)) (zrange 0 n)) = map (fun q => n - 1 - q) uo.
  Proof.
    apply mask_filter. intros q Hq. rewrite (proj2 HM) by lia. replace (n - 1 - (n - 1 - q)) with q by lia. reflexivity.
  Qed.
  Lemma rank_mask : rank (Z.testbit mask) n = k.
  Proof.
    unfold rank. rewrite <- zlen_rev. rewrite mask_mo, zlen_map. apply zlen_mo.
  Qed.
  Lemma k_range : 0 <= k <= n.
  Proof.
    split; [apply zlen_nonneg|]. rewrite <- rank_mask.
    pose proof (rank_compl (Z.testbit mask) n Hn). pose proof (rank_nonneg (fun i => negb (Z.testbit mask i)) n). lia.
  Qed.
  Lemma pext_reg x : pext (Z.testbit mask) n x = reg n mo x.
  Proof.
    unfold pext, reg. f_equal. rewrite mask_mo, map_map. reflexivity.
  Qed.
  Lemma pext_unreg x : pext (fun i => negb (Z.testbit mask i)) n x = reg n uo x.
  Proof.
    unfold pext, reg. f_equal. rewrite mask_uo, map_map. reflexivity.
  Qed.
  Lemma zlen_uo : zlen uo = n - k.
  Proof.
    assert (E : zlen uo = rank (fun i => negb (Z.testbit mask i)) n).
    { unfold rank. rewrite <- (zlen_rev (filter (fun i => negb (Z.testbit mask i)) _)). rewrite mask_uo, zlen_map. reflexivity. }
    rewrite E. apply rank_compl_eq; [apply k_range|apply rank_mask].
  Qed.

  Notation ent v w := (entwine_bit k (n - k) v w mask).
  Lemma ent_range v w : 0 <= ent v w < 2 ^ n.
  Proof. apply entwine_range; [apply k_range|apply rank_mask]. Qed.
  Lemma ent_reg v w : 0 <= v < 2 ^ k -> 0 <= w < 2 ^ (n - k) -> reg n mo (ent v w) = v /\ reg n uo (ent v w) = w.
  Proof.
    intros Hv Hw. pose proof (ent_range v w) as Hx.
    destruct (entwine_surj n k mask (ent v w) k_range rank_mask Hx) as (H1 & H2 & H3).
    rewrite <- pext_reg, <- pext_unreg.
    apply (entwine_inj n k mask); auto using k_range, rank_mask.
  Qed.
  Lemma ent_of x : 0 <= x < 2 ^ n -> ent (reg n mo x) (reg n uo x) = x.
  Proof.
    intros Hx. rewrite <- pext_reg, <- pext_unreg. apply entwine_surj; auto using k_range, rank_mask.
  Qed.
  Lemma reg_mo_range x : 0 <= reg n mo x < 2 ^ k.
  Proof. rewrite <- zlen_mo. apply reg_range. Qed.
  Lemma reg_uo_range x : 0 <= reg n uo x < 2 ^ (n - k).
  Proof. rewrite <- zlen_uo. apply reg_range. Qed.
  Lemma ent_mod v w : 0 <= w -> ent v w = ent v (w mod 2 ^ (n - k)).
  Proof.
    intros Hw. pose proof k_range. apply (bits_ext_below n); auto using ent_range.
    intros b Hb. rewrite !entwine_bits by auto using k_range, rank_mask.
    destruct (Z.testbit mask b) eqn:E; auto.
    rewrite Z.mod_pow2_bits_low; auto. rewrite <- (rank_compl_eq n k mask k_range rank_mask).
    apply rank_lt; auto. rewrite E. reflexivity.
  Qed.

  Lemma sum_ent {A} {RA : CRing A} v (f : Z -> A) : 0 <= v < 2 ^ k ->
    sum (zrange 0 (2 ^ (n - k))) (fun w => f (ent v w)) =
    sum (zrange 0 (2 ^ n)) (fun x => if (reg n mo x =? v) then f x else 0%r).
  Proof.
    intros Hv. symmetry.
    rewrite (sum_reindex_supp _ (fun x => reg n mo x =? v) (zrange 0 (2 ^ (n - k))) (fun w => ent v w)).
    - apply sum_ext. intros w Hw. apply in_zrange in Hw. rewrite (proj1 (ent_reg v w Hv Hw)), Z.eqb_refl. reflexivity.
    - apply zrange_nodup.
    - apply zrange_nodup.
    - intros w Hw. apply in_zrange in Hw. split; [apply in_zrange, ent_range|].
      rewrite (proj1 (ent_reg v w Hv Hw)). apply Z.eqb_refl.
    - intros w w' Hw Hw' E. apply in_zrange in Hw, Hw'.
      rewrite <- (proj2 (ent_reg v w Hv Hw)), <- (proj2 (ent_reg v w' Hv Hw')). congruence.
    - intros x Hx E. apply in_zrange in Hx. apply Z.eqb_eq in E. exists (reg n uo x). split.
      + apply in_zrange, reg_uo_range.
      + rewrite <- E. apply ent_of. auto.
    - intros x _ E. rewrite E. reflexivity.
  Qed.

  (** the test (i & row_mask) ^ measured_entwine *)
  Lemma mask_test i m : 0 <= i < 2 ^ n -> 0 <= m < 2 ^ k ->
    (Z.lxor (Z.land i mask) (ent m 0) =? 0) = (reg n mo i =? m).
  Proof.
    intros Hi Hm. pose proof k_range as Hk. pose proof rank_mask as Hr.
    assert (E : Z.land i mask = ent (reg n mo i) 0).
    { apply (bits_ext_below n); auto using ent_range.
      - split; [apply Z.land_nonneg; lia|]. apply bits_bound; auto; [apply Z.land_nonneg; lia|].
        intros b Hb. rewrite Z.land_spec, (testbit_high i n) by auto. reflexivity.
      - intros b Hb. rewrite Z.land_spec, entwine_bits by auto. destruct (Z.testbit mask b) eqn:E.
        + rewrite andb_true_r. rewrite <- pext_reg, pext_testbit; auto.
        + rewrite andb_false_r. symmetry. apply Z.bits_0. }
    rewrite E. destruct (Z.eqb_spec (reg n mo i) m) as [->|Hne].
    - rewrite Z.lxor_nilpotent. reflexivity.
    - apply Z.eqb_neq. intros X. apply Z.lxor_eq in X. apply Hne.
      pose proof (reg_mo_range i).
      assert (0 < 2 ^ (n - k)) by (apply Z.pow_pos_nonneg; lia).
      apply (entwine_inj n k mask) in X; auto; try lia.
  Qed.
End Masked.
