(** Operator algebra for kronselect_dot: C06-C09. *)
From Verif Require Import Base S_Bits L_Bits M_Kron S_Kron L_Kron L_Kron2 L_Kron3 L_Alg S_Ops.

Section LOps1.
  Context {K : Type} {OK : OrdRing K}.
  Notation C := (Cx K).
  Add Ring CRing_lo1 : (@rth C _).
  Notation F n mats := (fentry n (map ef (mats_groups mats))).

  Lemma applied_spec n (mats : mats_arg K) v W :
    0 <= n -> mats_wf n mats -> applied n mats v W ->
    zlen v = 2 ^ n /\ zlen W = 2 ^ n /\ (forall r, 0 <= r < 2 ^ n -> amp W r = mapply n (F n mats) (amp v) r).
  Proof.
    intros Hn Hw (Hv & out & i & Hout & Hi & E). split; auto.
    apply kron_partial_correct in E; auto; try lia. subst W. unfold kron_result. split.
    - rewrite zlen_map, zlen_zrange; lia.
    - intros r Hr. unfold amp at 1. rewrite znth_map_zrange by lia.
      rewrite Z.add_0_r, Z.add_0_l. rewrite kron_mapply. apply mapply_ext; auto.
      intros c _. unfold slice_at, amp. f_equal. lia.
  Qed.
  Lemma vec_ext n (v w : list C) :
    zlen v = 2 ^ n -> zlen w = 2 ^ n -> (forall r, 0 <= r < 2 ^ n -> amp v r = amp w r) -> v = w.
  Proof. intros H1 H2 H. apply (list_eq_znth 0%r); [lia|]. rewrite H1. exact H. Qed.

  Lemma nth_error_ext_map {A B} (f : A -> B) l j : nth_error (map f l) j = option_map f (nth_error l j).
  Proof. revert j; induction l; destruct j; cbn; auto. Qed.

  (** composition on the same groups *)
  Lemma mapply_same n (b a p : mats_arg K) v r :
    0 <= n -> 0 <= r < 2 ^ n -> disjoint_groups n a -> products b a p ->
    mapply n (F n b) (mapply n (F n a) v) r = mapply n (F n p) v r.
  Proof.
    intros Hn Hr Hd (Kb & Kp & HP). rewrite mapply_mcomp.
    set (ts := map (fun ba => (key_group (fst (snd ba)),
        (mentry (zlen (key_group (fst (snd ba)))) (snd (fst ba)), mentry (zlen (key_group (fst (snd ba)))) (snd (snd ba)))))
        (combine b a)).
    assert (Eb : map gA ts = map ef (mats_groups b)).
    { unfold ts, mats_groups. rewrite !map_map. clear - Kb. unfold same_keys in Kb. revert a Kb.
      induction b as [|[kb mb] b IH]; destruct a as [|[ka ma] a]; intros E; cbn in *; try discriminate; auto.
      assert (kb = ka) by congruence. subst. f_equal. apply IH. congruence. }
    assert (Ea : map gB ts = map ef (mats_groups a)).
    { unfold ts, mats_groups. rewrite !map_map. clear - Kb. unfold same_keys in Kb. revert a Kb.
      induction b as [|[kb mb] b IH]; destruct a as [|[ka ma] a]; intros E; cbn in *; try discriminate; auto.
      assert (kb = ka) by congruence. subst. f_equal. apply IH. congruence. }
    assert (Et : map fst ts = map fst (mats_groups a)).
    { transitivity (map fst (map gB ts)); [rewrite map_map; reflexivity|]. rewrite Ea, map_map. reflexivity. }
    apply mapply_ext; auto. intros c Hc.
    rewrite <- Eb, <- Ea. rewrite fentry_same; auto; [|unfold disjoint_groups in Hd; rewrite Et; auto].
    apply fentry_ext. unfold ts, mats_groups. rewrite !map_map. clear - Kb Kp HP. unfold same_keys in *.
    revert a p Kb Kp HP. induction b as [|[kb mb] b IH]; destruct a as [|[ka ma] a]; intros p Kb Kp HP; cbn in Kb; try discriminate.
    - destruct p; [constructor|discriminate].
    - destruct p as [|[kp mp] p]; [discriminate|]. cbn in Kp. assert (kb = ka) by congruence.
      assert (kp = ka) by congruence. subst. cbn [combine map]. constructor.
      + cbn [gAB ef fst snd]. split; auto. intros i j Hi Hj. symmetry.
        apply (HP O ka mb ma mp); auto.
      + apply IH; try congruence. intros j k mb' ma' mp' H1 H2 H3. apply (HP (S j) k mb' ma' mp'); auto.
  Qed.

  Lemma compose n (b a p : mats_arg K) v W X Y :
    0 <= n -> mats_wf n a -> mats_wf n b -> mats_wf n p -> disjoint_groups n a -> products b a p ->
    applied n a v W -> applied n b W X -> applied n p v Y -> X = Y.
  Proof.
    intros Hn Wa Wb Wp Hd HP HA HB HC.
    apply applied_spec in HA as (_ & LW & EW); auto. apply applied_spec in HB as (_ & LX & EX); auto.
    apply applied_spec in HC as (_ & LY & EY); auto.
    apply (vec_ext n); auto. intros r Hr. rewrite EX, EY by auto.
    rewrite <- (mapply_same n b a p); auto. apply mapply_ext; auto.
  Qed.

  (** identity of dagger * op *)
  Lemma mapply_dagger n (a : mats_arg K) (d : mats_arg K) v r :
    0 <= n -> 0 <= r < 2 ^ n -> disjoint_groups n a -> adjoints a d -> all_unitary a ->
    mapply n (F n d) (mapply n (F n a) v) r = v r.
  Proof.
    intros Hn Hr Hd (Kd & HA) HU. rewrite mapply_mcomp.
    set (ts := map (fun ka => (key_group (fst ka),
        (econj (mentry (zlen (key_group (fst ka))) (snd ka)), mentry (zlen (key_group (fst ka))) (snd ka)))) a).
    assert (Ea : map gB ts = map ef (mats_groups a)).
    { unfold ts, mats_groups. rewrite !map_map. apply map_ext. intros [k m]; reflexivity. }
    assert (Et : map fst ts = map fst (mats_groups a)).
    { transitivity (map fst (map gB ts)); [rewrite map_map; reflexivity|]. rewrite Ea, map_map. reflexivity. }
    rewrite <- (mapply_delta n v r) by auto. apply mapply_ext; auto. intros c Hc.
    transitivity (mcomp n (fentry n (map gA ts)) (fentry n (map gB ts)) r c).
    - rewrite Ea. apply sum_ext. intros x Hx. f_equal. apply fentry_ext.
      unfold ts, mats_groups. rewrite !map_map. clear - Kd HA. unfold same_keys in *.
      revert d Kd HA. induction a as [|[ka ma] a IH]; destruct d as [|[kd md] d]; intros Kd HA; cbn in Kd; try discriminate.
      + constructor.
      + assert (kd = ka) by congruence. subst. cbn [map]. constructor.
        * cbn [gA ef fst snd]. split; auto. intros i j Hi Hj. unfold econj. apply (HA O ka ma md); auto.
        * apply IH; try congruence. intros j k ma' md' H1 H2. apply (HA (S j) k ma' md'); auto.
    - rewrite fentry_same; auto; [|unfold disjoint_groups in Hd; rewrite Et; auto].
      rewrite <- (fentry_delta n (map (fun ka => key_group (fst ka)) a)) by auto.
      apply fentry_ext. unfold ts. rewrite !map_map. clear - HU.
      induction a as [|[ka ma] a IH]; [constructor|]. cbn [map]. constructor.
      + cbn [gAB fst snd]. split; auto. intros i j Hi Hj. apply (HU ka ma); auto. left; auto.
      + apply IH. intros k m Hin. apply HU. right; auto.
  Qed.
  Lemma dagger_undoes n (a d : mats_arg K) v W X :
    0 <= n -> mats_wf n a -> mats_wf n d -> disjoint_groups n a -> adjoints a d -> all_unitary a ->
    applied n a v W -> applied n d W X -> X = v.
  Proof.
    intros Hn Wa Wd Hd HA HU H1 H2.
    apply applied_spec in H1 as (Lv & LW & EW); auto. apply applied_spec in H2 as (_ & LX & EX); auto.
    apply (vec_ext n); auto. intros r Hr. rewrite EX by auto. rewrite <- (mapply_dagger n a d (amp v) r); auto.
    apply mapply_ext; auto.
  Qed.

  (** inner products *)
  Lemma unitary_inner n (a : mats_arg K) v w V W :
    0 <= n -> mats_wf n a -> disjoint_groups n a -> all_unitary a ->
    applied n a v V -> applied n a w W -> inprod n V W = inprod n v w.
  Proof.
    intros Hn Wa Hd HU H1 H2.
    apply applied_spec in H1 as (Lv & LV & EV); auto. apply applied_spec in H2 as (Lw & LW & EW); auto.
    change (inner n (amp V) (amp W) = inner n (amp v) (amp w)).
    rewrite (inner_ext n _ _ _ _ EV EW). rewrite inner_adjoint.
    apply inner_ext; auto. intros r Hr.
    set (gs := mats_groups a) in *.
    rewrite <- (mapply_delta n (amp w) r) by auto. rewrite mapply_mcomp. apply mapply_ext; auto. intros c Hc.
    set (ts := map (fun ge => (fst ge, (econj (snd ge), snd ge))) (map ef gs) : list (list Z * ((Z -> Z -> C) * (Z -> Z -> C)))).
    assert (Eb : map gB ts = map ef gs).
    { unfold ts. rewrite !map_map. apply map_ext. intros [k m]; reflexivity. }
    assert (Et : map fst ts = map fst gs).
    { unfold ts. rewrite !map_map. apply map_ext. intros [k m]; reflexivity. }
    transitivity (mcomp n (fentry n (map gA ts)) (fentry n (map gB ts)) r c).
    - rewrite Eb. apply sum_ext. intros x Hx. f_equal. unfold econj at 1. rewrite <- fentry_dag.
      f_equal. unfold ts. rewrite !map_map. reflexivity.
    - rewrite fentry_same; auto; [|unfold disjoint_groups in Hd; rewrite Et; auto].
      rewrite <- (fentry_delta n (map fst gs)) by auto.
      apply fentry_ext. unfold ts, gs, mats_groups. rewrite !map_map. clear - HU.
      induction a as [|[ka ma] a IH]; [constructor|]. cbn [map]. constructor.
      + cbn [gAB ef fst snd]. split; auto. intros i j Hi Hj. apply (HU ka ma); auto. left; auto.
      + apply IH. intros k m Hin. apply HU. right; auto.
  Qed.
  Lemma inprod_norm n (v : list C) : inprod n v v = creal (norm2 n v).
  Proof.
    unfold inprod, norm2. rewrite <- sum_creal. apply sum_ext. intros. apply cconj_norm.
  Qed.
  Lemma unitary_norm n (a : mats_arg K) v V :
    0 <= n -> mats_wf n a -> disjoint_groups n a -> all_unitary a ->
    applied n a v V -> norm2 n V = norm2 n v.
  Proof.
    intros. apply creal_inj. rewrite <- !inprod_norm. eapply unitary_inner; eauto.
  Qed.

  (** disjoint dictionaries *)
  Lemma qs_ef gs : concat (map fst (map (@ef K OK) gs)) = concat (map fst gs).
  Proof. rewrite map_map. reflexivity. Qed.
  Lemma wf_in_n n (a : mats_arg K) : mats_wf n a -> forall q, In q (touched a) -> 0 <= q < n.
  Proof.
    intros [_ H] q Hq. unfold touched, mats_groups in Hq. rewrite map_map in Hq.
    apply in_concat in Hq as (g & Hg & Hq). apply in_map_iff in Hg as ([k m] & <- & Hin).
    apply (H k m Hin); auto.
  Qed.
  Lemma mats_groups_app (a b : mats_arg K) : mats_groups (a ++ b) = mats_groups a ++ mats_groups b.
  Proof. apply map_app. Qed.

  Lemma merge n (a b : mats_arg K) v W X Y :
    0 <= n -> mats_wf n a -> mats_wf n b -> mats_wf n (a ++ b) ->
    (forall q, In q (touched a) -> ~ In q (touched b)) ->
    applied n a v W -> applied n b W X -> applied n (a ++ b) v Y -> X = Y.
  Proof.
    intros Hn Wa Wb Wab Hd HA HB HC.
    apply applied_spec in HA as (_ & LW & EW); auto. apply applied_spec in HB as (_ & LX & EX); auto.
    apply applied_spec in HC as (_ & LY & EY); auto.
    apply (vec_ext n); auto. intros r Hr. rewrite EX, EY by auto.
    transitivity (mapply n (F n b) (mapply n (F n a) (amp v)) r); [apply mapply_ext; auto|].
    rewrite mapply_mcomp. apply mapply_ext; auto. intros c Hc.
    rewrite fentry_disjoint; auto.
    - apply fentry_perm. rewrite mats_groups_app, map_app. apply Permutation_app_comm.
    - unfold in_n. rewrite qs_ef. apply (wf_in_n n b Wb).
    - unfold in_n. rewrite qs_ef. apply (wf_in_n n a Wa).
    - rewrite !qs_ef. intros q H1 H2. apply (Hd q); auto.
  Qed.
  Lemma commute n (a b : mats_arg K) v W X W' X' :
    0 <= n -> mats_wf n a -> mats_wf n b ->
    (forall q, In q (touched a) -> ~ In q (touched b)) ->
    applied n a v W -> applied n b W X -> applied n b v W' -> applied n a W' X' -> X = X'.
  Proof.
    intros Hn Wa Wb Hd HA HB HA' HB'.
    apply applied_spec in HA as (_ & LW & EW); auto. apply applied_spec in HB as (_ & LX & EX); auto.
    apply applied_spec in HA' as (_ & LW' & EW'); auto. apply applied_spec in HB' as (_ & LX' & EX'); auto.
    apply (vec_ext n); auto. intros r Hr. rewrite EX, EX' by auto.
    transitivity (mapply n (F n b) (mapply n (F n a) (amp v)) r); [apply mapply_ext; auto|].
    transitivity (mapply n (F n a) (mapply n (F n b) (amp v)) r); [|apply mapply_ext; auto; intros; symmetry; auto].
    rewrite !mapply_mcomp. apply mapply_ext; auto. intros c Hc.
    assert (Na : in_n n (concat (map fst (map ef (mats_groups a))))) by (unfold in_n; rewrite qs_ef; apply (wf_in_n n a Wa)).
    assert (Nb : in_n n (concat (map fst (map ef (mats_groups b))))) by (unfold in_n; rewrite qs_ef; apply (wf_in_n n b Wb)).
    rewrite !fentry_disjoint; auto.
    - apply fentry_perm. apply Permutation_app_comm.
    - rewrite !qs_ef. exact Hd.
    - rewrite !qs_ef. intros q H1 H2. apply (Hd q); auto.
  Qed.

  (** order of the groups, order inside the groups *)
  Lemma order_groups n (a b : mats_arg K) v W X :
    0 <= n -> mats_wf n a -> Permutation a b -> applied n a v W -> applied n b v X -> W = X.
  Proof.
    intros Hn Wa P HA HB.
    assert (Wb : mats_wf n b).
    { destruct Wa as [[K1 K2] K3]. split; [split|].
      - intros k m Hin. apply (K1 k m). eapply Permutation_in; [apply Permutation_sym; eauto|auto].
      - eapply Permutation_NoDup; [|exact K2]. apply Permutation_map; auto.
      - intros k m Hin. apply (K3 k m). eapply Permutation_in; [apply Permutation_sym; eauto|auto]. }
    apply applied_spec in HA as (_ & LW & EW); auto. apply applied_spec in HB as (_ & LX & EX); auto.
    apply (vec_ext n); auto. intros r Hr. rewrite EW, EX by auto. apply mapply_ext; auto.
    intros c Hc. apply fentry_perm. unfold mats_groups. rewrite !map_map. apply Permutation_map; auto.
  Qed.

  Lemma reg_map n g pi x :
    (forall i, In i pi -> 0 <= i < zlen g) -> reg n (map (znth 0 g) pi) x = reg (zlen g) pi (reg n g x).
  Proof.
    intros H. unfold reg at 1 2. rewrite map_map. f_equal. apply map_ext_in. intros i Hi.
    unfold qbit at 2. rewrite reg_testbit; auto.
  Qed.
  Lemma order_indices n (a b : mats_arg K) v W X :
    0 <= n -> mats_wf n a -> mats_wf n b -> Forall2 reordered a b -> applied n a v W -> applied n b v X -> W = X.
  Proof.
    intros Hn Wa Wb P HA HB.
    apply applied_spec in HA as (_ & LW & EW); auto. apply applied_spec in HB as (_ & LX & EX); auto.
    apply (vec_ext n); auto. intros r Hr. rewrite EW, EX by auto. apply mapply_ext; auto.
    intros c Hc. unfold fentry. rewrite !qs_ef. unfold mats_groups. rewrite !map_map.
    assert (Q : forall l l', Forall2 reordered l l' -> forall q,
      In q (concat (map (fun x : key * mat K => fst (let '(k, m) := x in (key_group k, m))) l)) <->
      In q (concat (map (fun x : key * mat K => fst (let '(k, m) := x in (key_group k, m))) l'))).
    { induction 1 as [|[k m] [k' m'] l l' (pi & Pp & Eg & _) H IH]; intros q; [tauto|].
      cbn [map concat fst snd] in *. rewrite !in_app_iff, (IH q), Eg.
      assert (In q (key_group k) <-> In q (map (znth 0 (key_group k)) pi)); [|tauto].
      rewrite in_map_iff. split.
      - intros Hq. apply (in_znth 0) in Hq as (i & Hi & E). exists i. split; auto.
        eapply Permutation_in; [apply Permutation_sym; eauto|]. apply in_zrange; auto.
      - intros (i & E & Hi). subst q. apply znth_in. apply in_zrange. eapply Permutation_in; eauto. }
    rewrite (agree_off_ext n _ _ r c (Q _ _ P)).
    destruct (agree_off _ _ _ _); auto. unfold fprod. rewrite !prod_map. clear - P.
    induction P as [|[k m] [k' m'] l l' (pi & Pp & Eg & Em) H IH]; auto.
    cbn [prod]. rewrite IH. f_equal. cbn [ef fst snd] in *.
    assert (HI : forall i, In i pi -> 0 <= i < zlen (key_group k)).
    { intros i Hi. apply in_zrange. eapply Permutation_in; eauto. }
    assert (Lk : zlen (key_group k') = zlen (key_group k)).
    { rewrite Eg, zlen_map. unfold zlen. rewrite (Permutation_length Pp), zrange_length. unfold zlen. lia. }
    rewrite Lk, Eg, !reg_map by auto. symmetry. apply Em; apply reg_range.
  Qed.
End LOps1.
