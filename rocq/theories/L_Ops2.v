(** makemats: controlled ops, swaps, single-qubit gates. *)
From Coq Require Import ZifyBool.
From Verif Require Import Base S_Bits L_Bits M_Kron S_Kron L_Kron L_Kron2 L_Kron3 L_Alg M_Ops S_Ops L_Ops1.

Section LOps2.
  Context {K : Type} {OK : OrdRing K}.
  Notation C := (Cx K).
  Add Ring CRing_lo2 : (@rth C _).
  Add Ring KRing_lo2 : (@rth K _).
  Notation F n mats := (fentry n (map ef (mats_groups mats))).

  (** ** the dictionaries *)
  Lemma kdict_set_new (d : mats_arg K) k m :
    (forall k' m', In (k', m') d -> key_eqb k' k = false) -> kdict_set d k m = d ++ [(k, m)].
  Proof.
    induction d as [|[k' m'] d IH]; cbn [kdict_set app]; auto. intros H.
    rewrite (H k' m') by (left; auto). rewrite IH; auto. intros; eapply H; right; eauto.
  Qed.
  Lemma per_index_nodup (m : mat K) groups :
    NoDup (concat groups) -> per_index m groups = map (fun i => (KInt i, m)) (concat groups).
  Proof.
    intros ND. unfold per_index.
    assert (G : forall l acc, NoDup (acc ++ l) ->
      fold_left (fun d i => kdict_set d (KInt i) m) l (map (fun i => (KInt i, m)) acc)
      = map (fun i => (KInt i, m)) (acc ++ l)).
    { induction l as [|i l IH]; intros acc N; cbn [fold_left]; [rewrite app_nil_r; auto|].
      rewrite kdict_set_new.
      - change [(KInt i, m)] with (map (fun i => (KInt i, m)) [i]). rewrite <- map_app, IH.
        + rewrite <- app_assoc. auto.
        + rewrite <- app_assoc. auto.
      - intros k' m' Hin. apply in_map_iff in Hin as (j & E & Hj). inversion E; subst. cbn [key_eqb].
        apply NoDup_remove_2 in N. destruct (Z.eqb_spec j i) as [->|]; auto. exfalso. apply N, in_app_iff; auto. }
    apply (G _ []). auto.
  Qed.

  Definition ctrl_mats (c : Z) (opm : mats_arg K) : mats_arg K :=
    map (fun km => (KTuple (c :: key_group (fst km)), MC (snd km))) opm.
  Lemma makemats_C o c gs opm :
    makemats o gs = Ok opm -> keys_ok opm -> makemats (OC o) ([c] :: gs) = Ok (ctrl_mats c opm).
  Proof.
    intros E [HK ND]. cbn [makemats tl]. rewrite E. cbn [bind]. unfold ctrl_mats.
    set (f := fun km : key * mat K => _).
    assert (G : forall l acc, NoDup (map (fun km => key_group (fst km)) (acc ++ l)) -> (forall k m, In (k, m) l -> k <> KOther) ->
      mfold (fun newdict '(indices, m) => do c0 <- pyget ([c] :: gs) 0; do idx <- key_flat indices;
        Ok (kdict_set newdict (KTuple (c0 ++ idx)) (MC m))) l (map f acc) = Ok (map f (acc ++ l))).
    { induction l as [|[k m] l IH]; intros acc N NO; cbn [mfold]; [rewrite app_nil_r; auto|].
      change (pyget ([c] :: gs) 0) with (Ok [c]). cbn [bind].
      assert (key_flat k = Ok (key_group k)) as ->.
      { destruct k; cbn; auto. exfalso. apply (NO KOther m); auto. left; auto. }
      cbn [bind]. rewrite kdict_set_new.
      - change [(KTuple ([c] ++ key_group k), MC m)] with (map f [(k, m)]). rewrite <- map_app, IH.
        + rewrite <- app_assoc. auto.
        + rewrite <- app_assoc. auto.
        + intros; eapply NO; right; eauto.
      - intros k' m' Hin. apply in_map_iff in Hin as ([j mj] & Ej & Hj). unfold f in Ej. cbn [fst snd] in Ej.
        inversion Ej; subst. cbn [key_eqb]. destruct (zlist_eqb (c :: key_group j) ([c] ++ key_group k)) eqn:Eq; auto.
        apply zlist_eqb_eq in Eq. cbn [app] in Eq. assert (key_group j = key_group k) as Ek by congruence.
        exfalso. rewrite map_app in N. cbn [map fst] in N. apply NoDup_remove_2 in N. apply N.
        apply in_app_iff. left. apply in_map_iff. exists (j, mj). auto. }
    apply (G opm []); auto.
  Qed.
  Lemma makemats_C_inv o c gs cm :
    makemats (OC o) ([c] :: gs) = Ok cm -> exists opm, makemats o gs = Ok opm.
  Proof. cbn [makemats tl]. destruct (makemats o gs) as [opm|]; [eauto|discriminate]. Qed.

  Lemma ctrl_keys_ok c opm : keys_ok opm -> keys_ok (ctrl_mats c opm).
  Proof.
    intros [HK ND]. split.
    - intros k m Hin. apply in_map_iff in Hin as (km & E & _). inversion E. discriminate.
    - unfold ctrl_mats. rewrite map_map. cbn [fst key_group].
      rewrite <- (map_map (fun km : key * mat K => key_group (fst km)) (cons c)).
      apply NoDup_map_inj; auto. intros; congruence.
  Qed.
  Lemma ctrl_wf n c opm : 0 <= c < n -> mats_wf n opm -> mats_wf n (ctrl_mats c opm).
  Proof.
    intros Hc [HK HW]. split; [apply ctrl_keys_ok; auto|].
    intros k m Hin. apply in_map_iff in Hin as ([k' m'] & E & Hin). inversion E; subst.
    destruct (HW k' m' Hin) as [H1 H2]. split; auto. cbn [key_group fst]. intros q [<-|Hq]; auto.
  Qed.
  Lemma ctrl_shape c opm : (forall km, In km opm -> shape_ok km) -> forall km, In km (ctrl_mats c opm) -> shape_ok km.
  Proof.
    intros H km Hin. apply in_map_iff in Hin as ([k m] & <- & Hin). apply H in Hin. unfold shape_ok in *.
    cbn [fst snd key_group mat_shape] in *. rewrite Hin. cbn [fst snd]. rewrite zlen_cons.
    rewrite Z.pow_add_r by (try apply zlen_nonneg; lia). f_equal; lia.
  Qed.
  Lemma ctrl_rect c opm : rectangular (map fst (mats_groups (ctrl_mats c opm))) = rectangular (map fst (mats_groups opm)).
  Proof.
    unfold ctrl_mats, mats_groups. rewrite !map_map. destruct opm as [|[k0 m0] opm]; auto.
    cbn [map fst snd key_group rectangular]. unfold rectangular.
    cbn [forallb]. f_equal; [rewrite !zlen_cons; lia|].
    induction opm as [|[k m] opm IH]; auto. cbn [map forallb fst snd key_group]. f_equal; auto.
    rewrite !zlen_cons. lia.
  Qed.

  Lemma qbit_lt_reg n c g x :
    reg n (c :: g) x = Z.b2z (qbit n x c) * 2 ^ zlen g + reg n g x.
  Proof. unfold reg. cbn [map]. rewrite val_cons, zlen_map. auto. Qed.

  Lemma mentry_ctrl n c g (m : mat K) r s :
    mentry (zlen (c :: g)) (MC m) (reg n (c :: g) r) (reg n (c :: g) s)
    = if qbit n r c then (if qbit n s c then mentry (zlen g) m (reg n g r) (reg n g s) else 0%r)
      else (if qbit n s c then 0%r else delta (reg n g r) (reg n g s)).
  Proof.
    cbn [mentry]. rewrite !qbit_lt_reg, zlen_cons.
    replace (zlen g + 1 - 1) with (zlen g) by lia.
    pose proof (reg_range n g r). pose proof (reg_range n g s). set (h := 2 ^ zlen g) in *.
    unfold delta.
    destruct (qbit n r c), (qbit n s c); cbn [Z.b2z].
    - destruct (Z.ltb_spec (1 * h + reg n g r) h); [lia|].
      destruct (Z.leb_spec h (1 * h + reg n g r)); [|lia].
      destruct (Z.leb_spec h (1 * h + reg n g s)); [|lia]. cbn [andb]. f_equal; lia.
    - destruct (Z.ltb_spec (1 * h + reg n g r) h); [lia|].
      destruct (Z.leb_spec h (0 * h + reg n g s)); [lia|]. cbn [andb]. rewrite andb_false_r. auto.
    - destruct (Z.ltb_spec (1 * h + reg n g s) h); [lia|]. rewrite andb_false_r.
      destruct (Z.leb_spec h (0 * h + reg n g r)); [lia|]. auto.
    - destruct (Z.ltb_spec (0 * h + reg n g r) h); [|lia].
      destruct (Z.ltb_spec (0 * h + reg n g s) h); [|lia]. cbn [andb].
      destruct (Z.eqb_spec (0 * h + reg n g r) (0 * h + reg n g s)), (Z.eqb_spec (reg n g r) (reg n g s)); auto; lia.
  Qed.

  (** ** C(op) *)
  Definition cgroups (c : Z) (gs : list (list Z * mat K)) := map (fun gm => (c :: fst gm, MC (snd gm))) gs.
  Lemma in_qs_c c (gs : list (list Z * mat K)) q :
    In q (concat (map fst (cgroups c gs))) <-> (gs <> [] /\ q = c) \/ In q (concat (map fst gs)).
  Proof.
    unfold cgroups. rewrite map_map. induction gs as [|gm gs IH]; cbn [map concat fst].
    - cbn. intuition.
    - rewrite !in_app_iff, IH. cbn [In]. split; intros H.
      + destruct H as [[H|H]|[[H1 H2]|H]]; auto; left; split; auto; discriminate.
      + destruct H as [[H1 H2]|[H|H]]; auto.
  Qed.

  Lemma ctrl_entry n c (gs : list (list Z * mat K)) :
    0 <= n -> 0 <= c < n -> ~ In c (concat (map fst gs)) -> gs <> [] ->
    meq n (fentry n (map ef (cgroups c gs)))
          (fun r s => if qbit n r c then fentry n (map ef gs) r s else delta r s).
  Proof.
    intros Hn Hc Hnin Hne r s Hr Hs.
    assert (EP : fprod n (map ef (cgroups c gs)) r s =
      prod gs (fun gm => if qbit n r c then (if qbit n s c then mentry (zlen (fst gm)) (snd gm) (reg n (fst gm) r) (reg n (fst gm) s) else 0%r)
      else (if qbit n s c then 0%r else delta (reg n (fst gm) r) (reg n (fst gm) s)))).
    { unfold fprod, cgroups. rewrite !prod_map. apply prod_ext. intros [g m] _. cbn [ef fst snd]. apply mentry_ctrl. }
    unfold fentry. rewrite EP. rewrite !qs_ef.
    assert (AC : agree_off n (concat (map fst (cgroups c gs))) r s = true <->
       (forall q, 0 <= q < n -> q <> c -> ~ In q (concat (map fst gs)) -> qbit n r q = qbit n s q)).
    { rewrite agree_off_spec. split; intros H q Hq H1.
      - intros H2. apply H; auto. rewrite in_qs_c. intuition.
      - rewrite in_qs_c in H1. apply H; auto; intuition. }
    destruct (qbit n r c) eqn:Er.
    - destruct (qbit n s c) eqn:Es.
      + assert (agree_off n (concat (map fst (cgroups c gs))) r s = agree_off n (concat (map fst gs)) r s) as ->.
        { apply eq_true_iff_eq. rewrite AC, agree_off_spec. split; intros H q Hq; [|intros; apply H; auto].
          intros H1. destruct (Z.eq_dec q c) as [->|]; [congruence|]. apply H; auto. }
        destruct (agree_off n (concat (map fst gs)) r s); auto. unfold fprod. rewrite prod_map. reflexivity.
      + assert (agree_off n (concat (map fst gs)) r s = false) as ->.
        { destruct (agree_off n (concat (map fst gs)) r s) eqn:E; auto. exfalso.
          assert (X := proj1 (agree_off_spec _ _ _ _) E c Hc Hnin). congruence. }
        destruct (agree_off _ _ _ _); auto. destruct gs as [|gm gs]; [contradiction|]. cbn [prod]. ring.
    - destruct (qbit n s c) eqn:Es.
      + unfold delta. destruct (Z.eqb_spec r s); [subst; congruence|].
        destruct (agree_off _ _ _ _); auto. destruct gs as [|gm gs]; [contradiction|]. cbn [prod]. ring.
      + assert (agree_off n (concat (map fst (cgroups c gs))) r s = agree_off n (concat (map fst gs)) r s) as ->.
        { apply eq_true_iff_eq. rewrite AC, agree_off_spec. split; intros H q Hq; [|intros; apply H; auto].
          intros H1. destruct (Z.eq_dec q c) as [->|]; [congruence|]. apply H; auto. }
        rewrite <- (fentry_delta n (map fst gs) Hn r s Hr Hs). unfold fentry, fprod.
        rewrite !map_map, prod_map. reflexivity.
  Qed.
End LOps2.
