(** Distributed reduce_measure: the workers that take part, and their parts. *)
From Coq Require Import Sorted.
From Verif Require Import Base M_Bits S_Bits L_Bits M_Kron S_Kron M_Feed M_Measure S_Measure L_Measure1 L_Measure2 L_Measure3 L_Measure4 M_Pool S_Pool M_Net S_Net L_Net M_Worker S_Worker L_Worker1 L_Worker2 L_Worker3 L_Worker4 L_Worker5 L_Worker6 L_Worker9 L_Worker10 L_Worker13.

(** ** Grouping *)
Definition sel (thr : Z) (a : range) (w : wid) : bool := range_eqb (fst w) a && (fst (snd w) <=? thr).
Lemma groups_snoc thr l w : get_workers_up_to_output (l ++ [w]) thr =
  let acc := get_workers_up_to_output l thr in
  if (thr <? fst (snd w)) then acc
  else if existsb (fun g : range * list wid => range_eqb (fst g) (fst w)) acc
       then map (fun g : range * list wid => if range_eqb (fst g) (fst w) then (fst g, snd g ++ [w]) else g) acc
       else acc ++ [(fst w, [w])].
Proof. unfold get_workers_up_to_output. rewrite fold_left_app. reflexivity. Qed.
Lemma groups_inv thr l : let gs := get_workers_up_to_output l thr in
  NoDup (map fst gs) /\ (forall g, In g gs -> snd g = filter (sel thr (fst g)) l) /\
  (forall a, In a (map fst gs) <-> exists w, In w l /\ sel thr a w = true).
Proof.
  induction l as [|w l IH] using rev_ind; [cbn; repeat split; auto; [constructor|intros _ []|intros []|intros (w & [] & _)]|].
  rewrite groups_snoc. cbv zeta in *. generalize dependent (get_workers_up_to_output l thr). intros gs IH. destruct IH as (H1 & H2 & H3).
  destruct (Z.ltb_spec thr (fst (snd w))) as [Hw|Hw].
  { assert (Hs : forall a, sel thr a w = false) by (intros a; unfold sel; destruct (Z.leb_spec (fst (snd w)) thr); [lia|apply andb_false_r]).
    split; [exact H1|]. split.
    - intros g Hg. rewrite filter_app. cbn [filter]. rewrite Hs, app_nil_r. apply H2, Hg.
    - intros a. rewrite H3. split; intros (x & Hx & E); exists x; (split; [|exact E]); [apply in_or_app; auto|]. apply in_app_or in Hx. destruct Hx as [Hx|[<-|[]]]; [exact Hx|]. rewrite Hs in E. discriminate. }
  assert (Hs : forall a, sel thr a w = range_eqb (fst w) a) by (intros a; unfold sel; destruct (Z.leb_spec (fst (snd w)) thr); [apply andb_true_r|lia]).
  assert (Hk : existsb (fun g => range_eqb (fst g) (fst w)) gs = true <-> In (fst w) (map fst gs)).
  { rewrite existsb_exists, in_map_iff. split; intros (g & A & B); exists g; [apply range_eqb_ok in B|rewrite range_eqb_ok]; auto. }
  destruct (existsb _ gs) eqn:Ex.
  - assert (Hin : In (fst w) (map fst gs)) by (apply Hk; reflexivity). clear Hk Ex.
    assert (Em : map fst (map (fun g : range * list wid => if range_eqb (fst g) (fst w) then (fst g, snd g ++ [w]) else g) gs) = map fst gs).
    { rewrite map_map. apply map_ext. intros g. destruct (range_eqb (fst g) (fst w)); reflexivity. }
    rewrite Em. split; [exact H1|]. split.
    + intros g Hg. apply in_map_iff in Hg. destruct Hg as (g0 & <- & Hg). rewrite filter_app. cbn [filter]. destruct (range_eqb (fst g0) (fst w)) eqn:E; cbn [fst snd]; rewrite Hs.
      * apply range_eqb_ok in E. rewrite E, range_eqb_refl. rewrite H2, E by exact Hg. reflexivity.
      * assert (E' : range_eqb (fst w) (fst g0) = false) by (apply range_eqb_ne; intros E2; rewrite E2, range_eqb_refl in E; discriminate). rewrite E', app_nil_r. apply H2, Hg.
    + intros a. rewrite H3. split; intros (x & Hx & E).
      * exists x. split; [apply in_or_app; auto|exact E].
      * apply in_app_or in Hx. destruct Hx as [Hx|[<-|[]]]; [eauto|]. rewrite Hs in E. apply range_eqb_ok in E. subst a. apply H3, Hin.
  - assert (Hni : ~ In (fst w) (map fst gs)) by (intros H; apply Hk in H; discriminate). clear Hk Ex.
    rewrite map_app. cbn [map fst]. split; [|split].
    + eapply Permutation_NoDup; [apply Permutation_cons_append|]. constructor; assumption.
    + intros g Hg. rewrite filter_app. cbn [filter]. rewrite Hs. apply in_app_or in Hg. destruct Hg as [Hg|[<-|[]]].
      * assert (E' : range_eqb (fst w) (fst g) = false) by (apply range_eqb_ne; intros E; apply Hni; rewrite E; apply in_map, Hg). rewrite E', app_nil_r. apply H2, Hg.
      * cbn [fst snd]. rewrite range_eqb_refl. destruct (filter (sel thr (fst w)) l) as [|x r] eqn:E; [reflexivity|]. exfalso. apply Hni, H3. exists x. apply filter_In. rewrite E. left. reflexivity.
    + intros a. rewrite in_app_iff, H3. cbn [In]. split.
      * intros [(x & Hx & E)|[<-|[]]]; [exists x; split; [apply in_or_app; auto|exact E]|]. exists w. split; [apply in_or_app; right; left; reflexivity|]. rewrite Hs. apply range_eqb_refl.
      * intros (x & Hx & E). apply in_app_or in Hx. destruct Hx as [Hx|[<-|[]]]; [left; eauto|]. right. left. rewrite Hs in E. apply range_eqb_ok in E. exact E.
Qed.

Lemma find_filter {A} (f : A -> bool) l : find f l = hd_error (filter f l).
Proof. induction l as [|x l IH]; cbn [find filter]; [reflexivity|]. destruct (f x); [reflexivity|exact IH]. Qed.
Lemma first_of_ok thr l a w : find (sel thr a) l = Some w -> first_of (get_workers_up_to_output l thr) a = Ok w.
Proof.
  intros E. destruct (groups_inv thr l) as (H1 & H2 & H3). cbv zeta in *. set (gs := get_workers_up_to_output l thr) in *.
  assert (Hin : In a (map fst gs)) by (apply H3; exists w; apply find_some; exact E).
  unfold first_of. destruct (find (fun g => range_eqb (fst g) a) gs) as [[b l']|] eqn:Ef.
  - apply find_some in Ef. destruct Ef as [Hg Eb]. cbn [fst] in Eb. apply range_eqb_ok in Eb. subst b. assert (E2 := H2 _ Hg). cbn [fst snd] in E2. subst l'. rewrite find_filter in E. destruct (filter (sel thr a) l); [discriminate|]. cbn in E. congruence.
  - exfalso. apply in_map_iff in Hin. destruct Hin as (g & Eg & Hg). apply (find_none _ _ Ef) in Hg. rewrite Eg, range_eqb_refl in Hg. discriminate.
Qed.
Lemma NoDup_app' {A} (l l' : list A) : NoDup l -> NoDup l' -> (forall x, In x l -> In x l' -> False) -> NoDup (l ++ l').
Proof.
  induction l as [|x l IH]; intros H1 H2 H3; cbn [app]; [exact H2|]. inversion H1; subst. constructor.
  - intros H. apply in_app_or in H. destruct H as [H|H]; [contradiction|]. apply (H3 x); [left; reflexivity|exact H].
  - apply IH; auto. intros y Hy. apply H3. right. exact Hy.
Qed.
Lemma concat_nodup {A B} (f : A -> B) (gs : list (B * list A)) : NoDup (map fst gs) -> (forall g, In g gs -> NoDup (snd g) /\ forall x, In x (snd g) -> f x = fst g) -> NoDup (concat (map snd gs)).
Proof.
  induction gs as [|g gs IH]; intros H1 H2; cbn [map concat]; [constructor|]. inversion H1 as [|? ? Hn H1']. subst.
  apply NoDup_app'; [apply H2; left; reflexivity|apply IH; [exact H1'|intros g' Hg'; apply H2; right; exact Hg']|].
  intros x Hx Hy. apply Hn. rewrite <- (proj2 (H2 g (or_introl eq_refl)) x Hx). apply in_concat in Hy. destruct Hy as (l & Hl & Hy). apply in_map_iff in Hl. destruct Hl as (g' & <- & Hg').
  rewrite (proj2 (H2 g' (or_intror Hg')) x Hy). apply in_map. exact Hg'.
Qed.
Lemma all_reduction thr l : NoDup l -> NoDup (concat (map snd (get_workers_up_to_output l thr))) /\
  forall w, In w (concat (map snd (get_workers_up_to_output l thr))) <-> In w l /\ fst (snd w) <= thr.
Proof.
  intros Hn. destruct (groups_inv thr l) as (H1 & H2 & H3). cbv zeta in *. set (gs := get_workers_up_to_output l thr) in *. split.
  - apply (@concat_nodup wid range fst gs); [exact H1|]. intros g Hg. rewrite (H2 g Hg). split; [apply NoDup_filter, Hn|]. intros x Hx. apply filter_In in Hx. destruct Hx as [_ Hx]. unfold sel in Hx. apply andb_prop in Hx. destruct Hx as [Hx _]. apply range_eqb_ok in Hx. exact Hx.
  - intros w. rewrite in_concat. split.
    + intros (l' & Hl & Hw). apply in_map_iff in Hl. destruct Hl as (g & <- & Hg). rewrite (H2 g Hg) in Hw. apply filter_In in Hw. destruct Hw as [Hw E]. split; [exact Hw|]. unfold sel in E. apply andb_prop in E. lia.
    + intros [Hw Hle]. assert (E : sel thr (fst w) w = true) by (unfold sel; rewrite range_eqb_refl; cbn [andb]; lia).
      assert (Hin : In (fst w) (map fst gs)) by (apply H3; eauto). apply in_map_iff in Hin. destruct Hin as (g & Eg & Hg). exists (snd g). split; [apply in_map, Hg|]. rewrite (H2 g Hg), Eg. apply filter_In. auto.
Qed.

(** ** The input ranges in order *)
Lemma insert_range_perm r l : Permutation (r :: l) (insert_range r l).
Proof. induction l as [|x l IH]; cbn [insert_range]; [apply Permutation_refl|]. destruct (range_ltb r x); [apply Permutation_refl|]. eapply perm_trans; [apply perm_swap|]. apply perm_skip, IH. Qed.
Lemma sort_ranges_perm l : Permutation l (sort_ranges l).
Proof.
  unfold sort_ranges. assert (G : forall l acc, Permutation (acc ++ l) (fold_left (fun acc r => insert_range r acc) l acc)).
  { clear. induction l as [|x l IH]; intros acc; cbn [fold_left]; [rewrite app_nil_r; apply Permutation_refl|]. eapply perm_trans; [|apply IH]. eapply perm_trans; [apply Permutation_sym, Permutation_middle|]. change (x :: acc ++ l) with ((x :: acc) ++ l). apply Permutation_app_tail, insert_range_perm. }
  exact (G l []).
Qed.
(** sorting blocks is sorting their diagonal workers *)
Section SortRanges.
  Context (size : Z).
  Hypothesis Hs : 0 < size.
  Let DD (a : range) : wid := (a, a).
  Lemma ltb_DD a b : range_ltb a b = wid_ltb (DD a) (DD b).
  Proof. unfold wid_ltb, DD. cbn [fst snd]. destruct (range_ltb a b); [reflexivity|]. cbn [orb]. rewrite andb_false_r. reflexivity. Qed.
  Lemma insert_DD a l : map DD (insert_range a l) = insert_wid (DD a) (map DD l).
  Proof. induction l as [|x l IH]; cbn [insert_range insert_wid map]; [reflexivity|]. rewrite <- ltb_DD. destruct (range_ltb a x); cbn [map]; [reflexivity|]. rewrite IH. reflexivity. Qed.
  Lemma sort_DD l : map DD (sort_ranges l) = sort_wids (map DD l).
  Proof.
    unfold sort_ranges, sort_wids. change (@nil wid) with (map DD []) at 1. generalize (@nil range) as acc. induction l as [|x l IH]; intros acc; cbn [fold_left map]; [reflexivity|]. rewrite IH, insert_DD. reflexivity.
  Qed.
End SortRanges.
Lemma sort_blks n bq l : 0 <= bq <= n -> Permutation l (blks (2 ^ bq) (2 ^ (n - bq))) -> sort_ranges l = blks (2 ^ bq) (2 ^ (n - bq)).
Proof.
  intros Hbq Pm. assert (E : map (fun a : range => (a, a)) (sort_ranges l) = dg n bq).
  { rewrite sort_DD. apply sorted_unique.
    - apply (sort_sorted (2 ^ bq) (size_pos n bq Hbq)).
      + eapply Permutation_Forall; [|apply dg_diag]. unfold dg. apply Permutation_map, Permutation_sym, Pm.
      + eapply Permutation_NoDup; [|apply (dg_nodup n bq Hbq)]. unfold dg. apply Permutation_map, Permutation_sym, Pm.
    - apply dg_sorted. exact Hbq.
    - eapply perm_trans; [apply Permutation_sym, sort_wids_perm|]. unfold dg. apply Permutation_map, Pm. }
  apply (f_equal (map fst)) in E. unfold dg in E. rewrite !map_map in E. cbn [fst] in E. rewrite !map_id in E. exact E.
Qed.

(** ** The part of one worker *)
Section Part.
  Context {K : Type} {OK : OrdRing K}.
  Notation C := (Cx K).
  Context (n : Z) (indices : list Z).
  Hypothesis Hn : 0 <= n.
  Hypothesis HI : qubits_ok n indices.
  Let k := zlen indices.
  Let mo := measured_order n indices.
  Let uo := unmeasured_order n indices.
  Context (rsqrt : K -> K) (u acc0 : K) (io oo : Z) (vec out : list C) (m : Z) (p : K).
  Hypothesis Hm : 0 <= m < 2 ^ k.
  Hypothesis Hp0 : rlt 0%r p.
  Hypothesis Hp1 : rle p 1%r.
  Hypothesis Hoo : 0 <= oo.

  (** the basis state with outcome m and the given values of the other qubits *)
  Definition row (mask i : Z) : Z := entwine_bit k (n - k) m i mask.
  Definition part (mask : Z) : list C :=
    map (fun i => if row mask (i + oo) <? io then 0%r else (znth 0%r vec (row mask (i + oo) - io) * creal (rsqrt p))%r) (zrange 0 (zlen out)).
  Lemma row_ok mask i : masked n indices mask -> 0 <= i -> 0 <= row mask i < 2 ^ n /\ reg n mo (row mask i) = m /\ reg n uo (row mask i) = i mod 2 ^ (n - k).
  Proof.
    intros HM Hi. unfold row, k. split; [apply (ent_range n indices mask Hn HI HM)|]. assert (Hk := L_Measure1.k_range n indices mask Hn HI HM). assert (H2 : 0 < 2 ^ (n - zlen indices)) by (apply Z.pow_pos_nonneg; lia).
    rewrite (ent_mod n indices mask Hn HI HM m i) by exact Hi. apply (ent_reg n indices mask Hn HI HM); [exact Hm|apply Z.mod_pos_bound; exact H2].
  Qed.
  Lemma reduce_unfold mask : make_row_mask indices n = Ok mask ->
    reduce_measure rsqrt u acc0 indices n vec out io oo (Some m) (Some p) =
    do out <- mfold (fun out i =>
        let vec_row := row mask i in
        if (vec_row <? io) || (k + vec_row <? vec_row) then cset out (i - oo) 0%r
        else do x <- cget vec (vec_row - io); cset out (i - oo) (x * creal (rsqrt p))%r)
      (zrange oo (zlen out + oo)) out;
    Ok ((m, p), out).
  Proof.
    intros Em. unfold reduce_measure.
    assert (B1 : bad_measured indices (Some m) = false). { cbn [bad_measured]. fold k. destruct (Z.leb_spec 0 m); [|lia]. destruct (Z.ltb_spec m (2 ^ k)); [reflexivity|lia]. }
    assert (B2 : bad_prob (Some p) = false). { cbn [bad_prob]. unfold rlt in Hp0. unfold rle in Hp1. rewrite Hp0, Hp1. reflexivity. }
    rewrite B1, B2. cbn [choose bind fst snd]. unfold mult. assert (Hpn : p <> 0%r) by (intros E; rewrite E in Hp0; exact (rlt_irrefl _ Hp0)).
    rewrite (proj2 (reqb_neq p 0%r) Hpn). cbn [bind]. rewrite Em. reflexivity.
  Qed.
  Lemma part_ok mask : masked n indices mask -> make_row_mask indices n = Ok mask -> (forall x, 0 <= x < 2 ^ n -> reg n mo x = m -> x < io + zlen vec) ->
    reduce_measure rsqrt u acc0 indices n vec out io oo (Some m) (Some p) = Ok ((m, p), part mask).
  Proof.
    intros HM Em Hx. rewrite (reduce_unfold mask Em). pose proof (zlen_nonneg out) as LO. pose proof (zlen_nonneg indices) as LI. fold k in LI.
    match goal with |- context [mfold ?ff (zrange oo (zlen out + oo)) out] =>
      destruct (mfold_zrange_inv (fun h (o : list C) => zlen o = zlen out /\ forall i, 0 <= i < h - oo ->
        znth 0%r o i = if row mask (i + oo) <? io then 0%r else (znth 0%r vec (row mask (i + oo) - io) * creal (rsqrt p))%r) ff oo (zlen out + oo) out)
        as (o & Eo & HL & HO) end.
    - lia.
    - split; auto. intros; lia.
    - intros i o Hi [HL HO]. destruct (row_ok mask i HM ltac:(lia)) as (R & R1 & _). assert (R2 := Hx _ R R1). cbv zeta.
      destruct (Z.ltb_spec (k + row mask i) (row mask i)); [lia|]. rewrite orb_false_r.
      destruct (Z.ltb_spec (row mask i) io) as [Hlt|Hge].
      + rewrite cset_ok by lia. eexists; split; [reflexivity|]. rewrite zlen_upd. split; auto. intros j Hj. rewrite znth_upd by lia. destruct (Z.eqb_spec j (i - oo)) as [Ei|Ei].
        * replace (j + oo) with i by lia. destruct (Z.ltb_spec (row mask i) io); [reflexivity|lia].
        * apply HO. lia.
      + rewrite (cget_ok 0%r) by lia. cbn [bind]. rewrite cset_ok by lia. eexists; split; [reflexivity|]. rewrite zlen_upd. split; auto. intros j Hj. rewrite znth_upd by lia. destruct (Z.eqb_spec j (i - oo)) as [Ei|Ei].
        * replace (j + oo) with i by lia. destruct (Z.ltb_spec (row mask i) io); [lia|reflexivity].
        * apply HO. lia.
    - rewrite Eo. cbn [bind]. f_equal. f_equal. apply list_eq_znth with (d := 0%r).
      + unfold part. rewrite zlen_map, zlen_zrange; lia.
      + intros i Hi. rewrite HO by lia. unfold part. rewrite znth_map_zrange by lia. rewrite Z.add_0_l. reflexivity.
  Qed.
  Lemma part_only_oob : only_oob (reduce_measure rsqrt u acc0 indices n vec out io oo (Some m) (Some p)).
  Proof.
    destruct (make_row_mask_ok n indices Hn HI) as (mask & Em & HM). rewrite (reduce_unfold mask Em). apply oob_bind; [|intros; apply oob_ok].
    apply (oob_mfold _ (fun _ => True)); [|exact I]. intros o i _. split; [|auto]. cbv zeta. destruct (_ || _); [apply oob_cset|]. apply oob_bind; [apply oob_cget|]. intros; apply oob_cset.
  Qed.
  Lemma part_oob x : 0 <= x < 2 ^ n -> reg n mo x = m -> io + zlen vec <= x -> oo <= reg n uo x < oo + zlen out ->
    reduce_measure rsqrt u acc0 indices n vec out io oo (Some m) (Some p) = Raise OOB.
  Proof.
    intros Hx E1 H1 H2. assert (Ho := part_only_oob). destruct (reduce_measure _ _ _ _ _ _ _ _ _ _ _) as [r|e] eqn:E; [|rewrite (Ho e eq_refl); reflexivity].
    exfalso. clear Ho. destruct (make_row_mask_ok n indices Hn HI) as (mask & Em & HM). rewrite (reduce_unfold mask Em) in E.
    match type of E with bind ?y _ = _ => destruct y as [o|] eqn:Eo; [|discriminate] end.
    destruct (mfold_each _ _ _ _ Eo (reg n uo x)) as (s & s' & E2); [apply in_zrange; lia|]. cbv zeta in E2.
    assert (Er : row mask (reg n uo x) = x). { unfold row. rewrite <- E1. apply (ent_of n indices mask Hn HI HM x Hx). }
    rewrite Er in E2. pose proof (zlen_nonneg vec). pose proof (zlen_nonneg indices) as LI. fold k in LI. destruct (Z.ltb_spec x io); [lia|]. destruct (Z.ltb_spec (k + x) x); [lia|]. cbn [orb] in E2.
    destruct (cget vec (x - io)) as [y|] eqn:Ec; [|discriminate]. apply cget_inv in Ec. lia.
  Qed.
End Part.
