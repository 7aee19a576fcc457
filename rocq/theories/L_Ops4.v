(** C06, C07, C10-C12 at the level of ops. *)
From Coq Require Import ZifyBool.
From Verif Require Import Base S_Bits L_Bits M_Kron S_Kron L_Kron L_Kron2 L_Kron3 L_Alg M_Ops S_Ops L_Ops1 L_Ops2 L_Ops3.

Section LOps4.
  Context {K : Type} {OK : OrdRing K}.
  Notation C := (Cx K).
  Add Ring CRing_lo4 : (@rth C _).
  Add Ring KRing_lo4 : (@rth K _).
  Notation F n mats := (fentry n (map ef (mats_groups mats))).

  Lemma op_ms_plain (o : op K) groups mats : op_ms o false groups = Ok mats <-> makemats o groups = Ok mats.
  Proof. unfold op_ms. destruct (makemats o groups); cbn [bind]; tauto. Qed.

  Lemma op_accepted n (o : op K) groups (v out : list C) i :
    0 <= n -> op_fits o groups -> qubits_ok n (concat groups) ->
    zlen v = 2 ^ n -> zlen out = 2 ^ n -> impl_sched_ok i (zlen out) ->
    exists mats W, op_ms o false groups = Ok mats /\ kronselect_dot mats v n out 0 0 i = Ok W.
  Proof.
    intros Hn HF HQ Hv Ho Hi. destruct (op_mats_ok n o groups Hn HF HQ) as (mats & E & Hwf & Hsh & _ & Hre & _).
    exists mats. eexists. split; [apply op_ms_plain; auto|].
    apply kronselect_dot_ok; auto; try lia.
    - apply Hwf.
    - apply mats_wf_groups; auto.
    - destruct i; cbn in *; auto.
  Qed.

  Lemma op_isometry n (o : op K) groups mats v w V W :
    0 <= n -> op_fits o groups -> qubits_ok n (concat groups) -> op_scalars_ok o -> op_ms o false groups = Ok mats ->
    applied n mats v V -> applied n mats w W -> inprod n V W = inprod n v w.
  Proof.
    intros Hn HF HQ HS HM H1 H2. apply op_ms_plain in HM.
    destruct (op_mats_ok n o groups Hn HF HQ) as (mats' & E & Hwf & _ & _ & _ & _ & Hiso).
    rewrite HM in E. inversion E; subst mats'.
    apply applied_spec in H1 as (Lv & LV & EV); auto. apply applied_spec in H2 as (Lw & LW & EW); auto.
    change (inner n (amp V) (amp W) = inner n (amp v) (amp w)).
    rewrite (inner_ext n _ _ _ _ EV EW). apply isometry_inner; auto.
  Qed.
  Lemma op_norm n (o : op K) groups mats v V :
    0 <= n -> op_fits o groups -> qubits_ok n (concat groups) -> op_scalars_ok o -> op_ms o false groups = Ok mats ->
    applied n mats v V -> norm2 n V = norm2 n v.
  Proof. intros. apply creal_inj. rewrite <- !inprod_norm. eapply op_isometry; eauto. Qed.

  (** ** adjoints *)
  Lemma zdivmod a b k : 0 <= b < k -> (a * k + b) mod k = b /\ (a * k + b) / k = a.
  Proof.
    intros. split.
    - symmetry. apply Z.mod_unique_pos with (q := a); lia.
    - symmetry. apply Z.div_unique_pos with (r := b); lia.
  Qed.
  Lemma znth_map_cconj (d : list C) i : znth 0%r (map cconj d) i = cconj (znth 0%r d i).
  Proof.
    destruct (Z.ltb_spec i 0); [rewrite !znth_out by lia; symmetry; apply cconj_0|].
    destruct (Z.ltb_spec i (zlen d)).
    - rewrite znth_map with (d := 0%r) by lia. auto.
    - rewrite !znth_out by (rewrite ?zlen_map; lia). symmetry; apply cconj_0.
  Qed.
  Lemma mat_adjoint (m m1 m2 : mat K) k :
    mat_ok k m -> mat_conj m = Ok m1 -> mat_T m1 = Ok m2 ->
    mat_wf m2 /\ mat_shape m2 = mat_shape m /\ is_adjoint k m m2.
  Proof.
    revert k m1 m2. induction m as [r c d|m IH|s|]; cbn [mat_ok mat_conj]; intros k m1 m2 Hok E1 E2; try discriminate.
    - inversion E1; subst. cbn [mat_T] in E2. inversion E2; subst. destruct Hok as (Hk & -> & -> & Hd).
      assert (0 < 2 ^ k) by (apply Z.pow_pos_nonneg; lia).
      split; [|split; [reflexivity|]].
      + cbn. rewrite zlen_map, zlen_zrange by nia. lia.
      + intros i j Hi Hj. cbn [mentry]. rewrite znth_map_zrange by nia. rewrite Z.add_0_l.
        destruct (zdivmod i j (2 ^ k) Hj) as [-> ->]. apply znth_map_cconj.
    - destruct (mat_conj m) as [mc|] eqn:Ec; [|discriminate]. cbn [bind] in E1. inversion E1; subst.
      cbn [mat_T] in E2. destruct (mat_T mc) as [mt|] eqn:Et; [|discriminate]. cbn [bind] in E2. inversion E2; subst.
      destruct Hok as [Hk Hok]. destruct (IH (k - 1) mc mt Hok eq_refl Et) as (W & S & A).
      split; [exact W|]. split; [cbn [mat_shape]; rewrite S; auto|].
      intros i j Hi Hj. cbn [mentry]. set (h := 2 ^ (k - 1)).
      assert (2 ^ k = 2 * h) as Eh by (unfold h; rewrite <- Z.pow_succ_r by lia; f_equal; lia).
      destruct (Z.ltb_spec i h), (Z.ltb_spec j h), (Z.leb_spec h i), (Z.leb_spec h j); try lia; cbn [andb];
        try (symmetry; apply cconj_0).
      + rewrite Z.eqb_sym. destruct (j =? i); symmetry; [apply cconj_1|apply cconj_0].
      + apply A; fold h; lia.
  Qed.

  Fixpoint no_swap (m : mat K) : bool :=
    match m with MNum _ _ _ => true | MC m => no_swap m | _ => false end.
  Lemma no_swap_adjoint m : (exists m1 m2, mat_conj m = Ok m1 /\ mat_T m1 = Ok m2) <-> no_swap m = true.
  Proof.
    induction m as [r c d|m IH|s|]; cbn [mat_conj no_swap].
    - split; auto. intros _. eexists. eexists. split; reflexivity.
    - rewrite <- IH. split.
      + intros (m1 & m2 & H1 & H2). destruct (mat_conj m) as [mc|]; [|discriminate]. cbn [bind] in H1.
        inversion H1; subst. cbn [mat_T] in H2. destruct (mat_T mc) eqn:Et; [|discriminate]. eauto.
      + intros (m1 & m2 & H1 & H2). rewrite H1. cbn [bind]. eexists. eexists. split; [reflexivity|].
        cbn [mat_T]. rewrite H2. reflexivity.
    - split; [intros (? & ? & H & _); discriminate|discriminate].
    - split; [intros (? & ? & H & _); discriminate|discriminate].
  Qed.
  Lemma op_no_swap (o : op K) groups mats :
    op_fits o groups -> NoDup (concat groups) -> makemats o groups = Ok mats ->
    mats <> [] /\ forall k m, In (k, m) mats -> no_swap m = negb (has_swap o).
  Proof.
    revert groups mats. induction o as [| | |h|e|k|o IH]; intros groups mats HF ND E;
      try (cbn [makemats] in E; rewrite per_index_nodup in E by auto; inversion E; subst; split;
           [cbn in HF; destruct (concat groups); [contradiction|discriminate]|];
           intros k m Hin; apply in_map_iff in Hin as (i & Ei & _); inversion Ei; reflexivity).
    - destruct HF as (a & b & -> & _). cbn in E. inversion E; subst. split; [discriminate|].
      intros k' m [Ei|[]]. inversion Ei. reflexivity.
    - destruct HF as (c & gs & -> & HF). destruct (makemats_C_inv _ _ _ _ E) as [opm Eo].
      assert (ND' : NoDup (concat gs)) by (cbn in ND; inversion ND; auto).
      destruct (IH gs opm HF ND' Eo) as [Hne H].
      assert (Q : exists n, 0 <= n /\ qubits_ok n (concat gs) \/ True) by (exists 0; auto).
      clear Q. cbn [makemats tl] in E. rewrite Eo in E. cbn [bind] in E.
      change (pyget ([c] :: gs) 0) with (Ok [c]) in E. cbn [bind] in E.
      assert (G : forall (l acc : mats_arg K) d,
        mfold (fun newdict '(indices, m) => do idx <- key_flat indices; Ok (kdict_set newdict (KTuple ([c] ++ idx)) (MC m))) l acc = Ok d ->
        (forall k m, In (k, m) l -> no_swap m = negb (has_swap o)) ->
        (forall k m, In (k, m) acc -> no_swap m = negb (has_swap o)) ->
        (l <> [] \/ acc <> [] -> d <> []) /\ forall k m, In (k, m) d -> no_swap m = negb (has_swap o)).
      { induction l as [|[k m] l IHl]; intros acc d Ed H1 H2; cbn [mfold] in Ed.
        - inversion Ed; subst. split; auto. intros [?|?]; auto.
        - destruct (key_flat k) as [idx|]; [|discriminate]. cbn [bind] in Ed. apply IHl in Ed as [E1 E2].
          + split; auto. intros _. apply E1. right. clear. destruct acc as [|[? ?] ?]; cbn [kdict_set]; [discriminate|].
            destruct (key_eqb _ _); discriminate.
          + intros; eapply H1; right; eauto.
          + intros k' m' Hin. assert (Hm : no_swap (MC m) = negb (has_swap o)) by (cbn; eapply H1; left; eauto).
            clear - Hin H2 Hm. induction acc as [|[ka ma] acc IHa]; cbn [kdict_set] in Hin.
            * destruct Hin as [Hin|[]]. inversion Hin; subst. exact Hm.
            * destruct (key_eqb ka _).
              -- destruct Hin as [Hin|Hin]; [inversion Hin; subst; exact Hm|]. apply (H2 k' m'); right; auto.
              -- destruct Hin as [Hin|Hin]; [inversion Hin; subst; apply (H2 k' m'); left; auto|].
                 apply IHa; auto. intros; eapply H2; right; eauto. }
      apply G in E as [E1 E2]; auto. intros ? ? [].
  Qed.

  Lemma mmap_inv {A B} (f : A -> res B) l l' : mmap f l = Ok l' -> Forall2 (fun a b => f a = Ok b) l l'.
  Proof.
    revert l'. induction l as [|a l IH]; intros l' E; cbn [mmap] in E.
    - inversion E. constructor.
    - destruct (f a) as [b|] eqn:Ea; [|discriminate]. cbn [bind] in E.
      destruct (mmap f l) as [l''|] eqn:El; [|discriminate]. cbn [bind] in E. inversion E; subst.
      constructor; auto.
  Qed.

  Lemma op_dagger n (o : op K) groups a d v W X :
    0 <= n -> op_fits o groups -> qubits_ok n (concat groups) -> op_scalars_ok o ->
    op_ms o false groups = Ok a -> op_ms o true groups = Ok d ->
    applied n a v W -> applied n d W X -> X = v.
  Proof.
    intros Hn HF HQ HS HM HD H1 H2. apply op_ms_plain in HM.
    destruct (op_mats_ok n o groups Hn HF HQ) as (mats' & E & Hwf & Hsh & _ & _ & _ & Hiso).
    rewrite HM in E. inversion E; subst mats'.
    unfold op_ms in HD. rewrite HM in HD. cbn [bind] in HD. apply mmap_inv in HD.
    assert (HA : Forall2 (fun km km' => fst km = fst km' /\ mat_wf (snd km') /\ is_adjoint (zlen (key_group (fst km))) (snd km) (snd km')) a d).
    { clear - HD Hwf Hsh. assert (G := mats_wf_groups n a Hwf Hsh). destruct Hwf as [_ Hwf].
      induction HD as [|[k m] [k' m'] a d H HD IH]; constructor.
      - destruct (mat_conj m) as [m1|] eqn:E1; [|discriminate]. cbn [bind] in H.
        destruct (mat_T m1) as [m2|] eqn:E2; [|discriminate]. cbn [bind] in H. inversion H; subst.
        destruct (mat_adjoint m m1 m' (zlen (key_group k'))) as (A1 & A2 & A3); auto.
        apply (G (key_group k') m). left; auto.
      - apply IH; try (intros; eapply Hwf; right; eauto).
        + intros; apply Hsh; right; auto.
        + intros g m0 Hin. apply G. right; auto. }
    assert (Hwd : mats_wf n d).
    { destruct Hwf as [[K1 K2] K3].
      assert (EK : map fst d = map fst a) by (clear - HA; induction HA as [|? ? ? ? (? & _)]; cbn; congruence).
      split; [split|].
      - intros k m Hin. apply (in_map fst) in Hin. rewrite EK in Hin. apply in_map_iff in Hin as ([k' m'] & E' & Hin).
        cbn in E'. subst. eapply K1; eauto.
      - rewrite <- map_map. rewrite EK, map_map. exact K2.
      - clear - HA K3. induction HA as [|[k0 m0] [k1 m1] a d (E1 & E2 & E3) HA IH]; intros k m Hin; [destruct Hin|].
        cbn [fst snd] in *. subst k1. destruct Hin as [Hin|Hin].
        + inversion Hin; subst. split; auto. apply (K3 k m0). left; auto.
        + apply IH; auto. intros; eapply K3; right; eauto. }
    apply applied_spec in H1 as (Lv & LV & EV); auto. apply applied_spec in H2 as (Lw & LW & EW); auto.
    apply (vec_ext n); auto. intros r Hr. rewrite EW by auto.
    rewrite <- (isometry_undo n (F n a) (amp v) r) by auto. apply mapply_ext; auto.
    intros c Hc. unfold econj. rewrite <- fentry_dag. apply fentry_ext. unfold mats_groups. rewrite !map_map.
    clear - HA. induction HA as [|[k0 m0] [k1 m1] a d (E1 & E2 & E3) HA IH]; [constructor|].
    cbn [map fst snd] in *. subst k1. constructor; auto.
  Qed.
  Lemma op_dagger_defined n (o : op K) groups :
    0 <= n -> op_fits o groups -> qubits_ok n (concat groups) ->
    (exists d, op_ms o true groups = Ok d) <-> has_swap o = false.
  Proof.
    intros Hn HF HQ. destruct (op_mats_ok n o groups Hn HF HQ) as (a & E & _).
    destruct (op_no_swap o groups a HF (proj1 HQ) E) as [Hne HN].
    unfold op_ms. rewrite E. cbn [bind]. split.
    - intros (d & Hd). apply mmap_inv in Hd. destruct Hd as [|[k m] [k' m'] a d H _]; [contradiction|].
      specialize (HN k m (or_introl eq_refl)). destruct (has_swap o); auto.
      destruct (mat_conj m) as [m1|] eqn:E1; [|discriminate]. cbn [bind] in H.
      destruct (mat_T m1) as [m2|] eqn:E2; [|discriminate].
      assert (no_swap m = true) by (apply no_swap_adjoint; eauto). cbn [negb] in HN; congruence.
    - intros Hs. rewrite Hs in HN. cbn [negb] in HN. clear - HN.
      induction a as [|[k m] a IH]; [exists []; reflexivity|].
      destruct IH as [d Hd]; [intros; eapply HN; right; eauto|].
      assert (Hm : no_swap m = true) by (eapply HN; left; eauto).
      apply no_swap_adjoint in Hm as (m1 & m2 & H1 & H2).
      exists ((k, m2) :: d). cbn [mmap]. rewrite H1. cbn [bind]. rewrite H2. cbn [bind]. rewrite Hd. reflexivity.
  Qed.

  (** ** controlled ops *)
  Lemma controlled_fits cs (o : op K) groups : op_fits o groups -> op_fits (controlled cs o) (controlled_groups cs groups).
  Proof.
    intros H. induction cs as [|c cs IH]; auto. cbn. exists c, (controlled_groups cs groups). auto.
  Qed.
  Lemma controlled_concat cs groups : concat (controlled_groups cs groups) = cs ++ concat groups.
  Proof. unfold controlled_groups. rewrite concat_app. f_equal. induction cs; cbn; congruence. Qed.

  Lemma controlled_entry n cs (o : op K) groups m cm :
    0 <= n -> op_fits o groups -> qubits_ok n (cs ++ concat groups) ->
    makemats o groups = Ok m -> makemats (controlled cs o) (controlled_groups cs groups) = Ok cm ->
    meq n (F n cm) (fun r s => if forallb (qbit n r) cs then F n m r s else delta r s).
  Proof.
    intros Hn HF HQ Hm. revert cm. induction cs as [|c cs IH]; intros cm Hcm.
    - cbn in Hcm. rewrite Hm in Hcm. inversion Hcm; subst. apply meq_refl.
    - assert (HQ' : qubits_ok n (cs ++ concat groups)).
      { destruct HQ as [ND HQ]. cbn in ND. inversion ND; subst. split; auto. intros; apply HQ; right; auto. }
      destruct (op_mats_ok n (controlled cs o) (controlled_groups cs groups)) as (m1 & E1 & Hwf & _ & Hne & _ & Hto & _); auto.
      { apply controlled_fits; auto. }
      { rewrite controlled_concat. auto. }
      rewrite controlled_concat in Hto.
      change (makemats (OC (controlled cs o)) ([c] :: controlled_groups cs groups) = Ok cm) in Hcm.
      rewrite (makemats_C _ _ _ m1) in Hcm by (auto; apply Hwf). inversion Hcm; subst.
      assert (EG : mats_groups (ctrl_mats c m1) = cgroups c (mats_groups m1)).
      { unfold mats_groups, ctrl_mats, cgroups. rewrite !map_map. apply map_ext. intros [k x]; reflexivity. }
      rewrite EG. eapply meq_trans; [apply ctrl_entry; auto|].
      + apply (proj2 HQ). left; auto.
      + intros Hin. apply Hto in Hin. destruct HQ as [ND _]. cbn in ND. inversion ND; subst. auto.
      + destruct m1; [contradiction|discriminate].
      + intros r s Hr Hs. cbn [forallb]. destruct (qbit n r c); cbn [andb]; auto. apply (IH HQ' m1 E1); auto.
  Qed.
  Lemma controlled_action n cs (o : op K) groups m cm v W W0 :
    0 <= n -> op_fits o groups -> qubits_ok n (cs ++ concat groups) ->
    op_ms o false groups = Ok m -> op_ms (controlled cs o) false (controlled_groups cs groups) = Ok cm ->
    applied n m v W0 -> applied n cm v W ->
    forall r, 0 <= r < 2 ^ n -> amp W r = if forallb (qbit n r) cs then amp W0 r else amp v r.
  Proof.
    intros Hn HF HQ Hm Hcm H0 H1 r Hr. apply op_ms_plain in Hm, Hcm.
    assert (HQ0 : qubits_ok n (concat groups)).
    { destruct HQ as [ND HQ]. apply NoDup_app_inv in ND as (_ & ND & _). split; auto. intros; apply HQ, in_app_iff; auto. }
    destruct (op_mats_ok n o groups Hn HF HQ0) as (m' & E' & Wm & _). rewrite Hm in E'. inversion E'; subst m'.
    destruct (op_mats_ok n (controlled cs o) (controlled_groups cs groups)) as (cm' & Ec & Wc & _); auto.
    { apply controlled_fits; auto. }
    { rewrite controlled_concat; auto. }
    rewrite Hcm in Ec. inversion Ec; subst cm'.
    apply applied_spec in H0 as (_ & _ & E0); auto. apply applied_spec in H1 as (_ & _ & E1); auto.
    rewrite E0, E1 by auto.
    rewrite (mapply_ext n _ (fun r s => if forallb (qbit n r) cs then F n m r s else delta r s) _ (amp v) r); auto.
    - destruct (forallb (qbit n r) cs) eqn:Ef.
      + apply mapply_ext; auto. intros. rewrite Ef. auto.
      + rewrite <- (mapply_delta n (amp v) r) by auto. apply mapply_ext; auto. intros. rewrite Ef. auto.
    - intros c Hc. apply (controlled_entry n cs o groups); auto.
  Qed.

  (** ** swap *)
  Lemma swap_action n (a b : list Z) k (mats : mats_arg K) v W :
    0 <= n -> zlen a = k -> zlen b = k -> qubits_ok n (a ++ b) ->
    op_ms (OSwap k) false [a; b] = Ok mats -> applied n mats v W ->
    forall r s, 0 <= r < 2 ^ n -> 0 <= s < 2 ^ n -> swapped n a b r s -> amp W s = amp v r.
  Proof.
    intros Hn La Lb HQ Hm HA r s Hr Hs Hsw. apply op_ms_plain in Hm. 
    destruct (op_mats_ok n (OSwap k) [a; b] Hn) as (m' & E' & Wm & _).
    { exists a, b. auto. }
    { cbn. rewrite app_nil_r. auto. }
    rewrite Hm in E'. inversion E'; subst m'. cbn in Hm. inversion Hm; subst mats.
    apply applied_spec in HA as (_ & _ & E); auto. rewrite E by auto.
    cbn [mats_groups map key_group].
    rewrite (mapply_ext n _ (fun r s => delta (sw n a b r) s) _ (amp v) s); auto.
    2:{ intros c Hc. apply (swap_entry n a b k); auto. }
    unfold mapply. rewrite (sum_single _ r).
    - assert (sw n a b s = r) as ->.
      { apply (swapped_fun n a b s); auto using sw_range, swapped_sym. apply sw_swapped; auto; lia. }
      unfold delta. rewrite Z.eqb_refl. ring.
    - apply zrange_nodup.
    - apply in_zrange; auto.
    - intros j Hj Hne. unfold delta. destruct (Z.eqb_spec (sw n a b s) j) as [<-|]; [|ring].
      exfalso. apply Hne. apply (swapped_fun n a b s); auto using sw_range, swapped_sym. apply sw_swapped; auto; lia.
  Qed.
  Lemma swap_exists n (a b : list Z) r :
    0 <= n -> qubits_ok n (a ++ b) -> zlen a = zlen b -> 0 <= r < 2 ^ n ->
    exists! s, 0 <= s < 2 ^ n /\ swapped n a b r s.
  Proof.
    intros Hn HQ HL Hr. exists (sw n a b r). split.
    - split; [apply sw_range; auto|apply sw_swapped; auto].
    - intros s [Hs Hsw]. apply (swapped_fun n a b r); auto using sw_range. apply sw_swapped; auto.
  Qed.
  Lemma swap_twice n (a b : list Z) k (mats : mats_arg K) v W X :
    0 <= n -> zlen a = k -> zlen b = k -> qubits_ok n (a ++ b) ->
    op_ms (OSwap k) false [a; b] = Ok mats -> applied n mats v W -> applied n mats W X -> X = v.
  Proof.
    intros Hn La Lb HQ Hm H1 H2.
    assert (LX : zlen X = 2 ^ n /\ zlen v = 2 ^ n).
    { destruct (op_mats_ok n (OSwap k) [a; b] Hn) as (m' & E' & Wm & _).
      { exists a, b. auto. }
      { cbn. rewrite app_nil_r. auto. }
      apply op_ms_plain in Hm. rewrite Hm in E'. inversion E'; subst m'.
      apply applied_spec in H1 as (? & _), H2 as (_ & ? & _); auto. }
    apply (vec_ext n); try tauto. intros r Hr.
    destruct (swap_exists n a b r Hn HQ ltac:(lia) Hr) as (s & (Hs & Hsw) & _).
    rewrite (swap_action n a b k mats W X Hn La Lb HQ Hm H2 s r) by auto using swapped_sym.
    apply (swap_action n a b k mats v W Hn La Lb HQ Hm H1 r s); auto.
  Qed.

  (** ** single-qubit gates *)
  Lemma qbit_flipped n q r p : 0 <= q < n -> 0 <= p < n ->
    qbit n (flipped n q r) p = if (p =? q) then negb (qbit n r p) else qbit n r p.
  Proof.
    intros Hq Hp. unfold qbit, flipped. rewrite Z.lxor_spec. 
    rewrite Z.pow2_bits_eqb by lia.
    destruct (Z.eqb_spec p q) as [->|].
    - rewrite Z.eqb_refl. destruct (Z.testbit _ _); auto.
    - destruct (Z.eqb_spec (n - 1 - q) (n - 1 - p)); [lia|]. destruct (Z.testbit _ _); auto.
  Qed.
  Lemma flipped_range n q r : 0 <= q < n -> 0 <= r < 2 ^ n -> 0 <= flipped n q r < 2 ^ n.
  Proof.
    intros Hq Hr. unfold flipped.
    assert (0 <= Z.lxor r (2 ^ (n - 1 - q))).
    { apply Z.lxor_nonneg. split; intros; [apply Z.pow_nonneg; lia|lia]. }
    split; auto. apply bits_bound; auto; [lia|]. intros i Hi. rewrite Z.lxor_spec, (testbit_high r n) by lia.
    rewrite Z.pow2_bits_eqb by lia. destruct (Z.eqb_spec (n - 1 - q) i); auto. lia.
  Qed.
  Lemma setreg_flipped n q r : 0 <= q < n -> 0 <= r < 2 ^ n ->
    setreg n [q] r (Z.b2z (negb (qbit n r q))) = flipped n q r.
  Proof.
    intros Hq Hr. apply (qbit_ext n); auto using setreg_range, flipped_range; try lia.
    { apply setreg_range; lia. }
    intros p Hp. rewrite qbit_flipped by auto. destruct (Z.eqb_spec p q) as [->|].
    - assert (HQ : qubits_ok n [q]). { split; [repeat constructor; auto|]. intros x [<-|[]]; auto. }
      pose proof (qbit_setreg_in n [q] r (Z.b2z (negb (qbit n r q))) 0 HQ ltac:(change (zlen [q]) with 1; lia)) as E.
      change (znth 0 [q] 0) with q in E. rewrite E. change (zlen [q] - 1 - 0) with 0.
      destruct (qbit n r q); reflexivity.
    - apply qbit_setreg_out; auto. intros [E|[]]; congruence.
  Qed.
  Lemma setreg_same n q r : 0 <= q < n -> 0 <= r < 2 ^ n -> setreg n [q] r (Z.b2z (qbit n r q)) = r.
  Proof.
    intros Hq Hr. assert (HQ : qubits_ok n [q]). { split; [repeat constructor; auto|]. intros x [<-|[]]; auto. }
    replace (Z.b2z (qbit n r q)) with (reg n [q] r).
    - apply setreg_reg; auto; lia.
    - unfold reg. cbn [map]. rewrite val_cons. change (zlen (@nil bool)) with 0. change (val []) with 0. change (2 ^ 0) with 1. lia.
  Qed.
  Lemma reg1 n q x : reg n [q] x = Z.b2z (qbit n x q).
  Proof.
    unfold reg. cbn [map]. rewrite val_cons. change (zlen (@nil bool)) with 0. change (val []) with 0. change (2 ^ 0) with 1. lia.
  Qed.

  Lemma mapply_gate1 n q g v r :
    0 <= q < n -> 0 <= r < 2 ^ n ->
    mapply n (fentry n [([q], mentry 1 (mat2 g))]) v r = apply1 n g q v r.
  Proof.
    intros Hq Hr. assert (HQ : qubits_ok n [q]). { split; [repeat constructor; auto|]. intros x [<-|[]]; auto. }
    unfold mapply. rewrite (sum_columns n [q] r); [|lia|auto|].
    2:{ intros c Hc E. rewrite fentry_1, E. ring. }
    change (2 ^ zlen [q]) with 2. change (zrange 0 2) with [0; 1]. cbn [sum].
    rewrite !fentry_1, !setreg_agree, !reg_setreg by (auto; change (2 ^ zlen [q]) with 2; lia).
    rewrite reg1. 
    assert (0 <= Z.b2z (qbit n r q) < 2) by (destruct (qbit n r q); cbn; lia).
    rewrite !mentry_mat2 by lia. destruct g as [[[a b] c] d]. unfold apply1.
    pose proof (setreg_flipped n q r Hq Hr) as E1. pose proof (setreg_same n q r Hq Hr) as E2.
    destruct (qbit n r q); cbn [Z.b2z negb] in *; cbn [ent2 Z.eqb]; rewrite E1, E2; ring.
  Qed.
  Lemma apply1_ext n g q v w r : 0 <= q < n -> 0 <= r < 2 ^ n -> (forall c, 0 <= c < 2 ^ n -> v c = w c) -> apply1 n g q v r = apply1 n g q w r.
  Proof.
    intros Hq Hr H. unfold apply1. destruct g as [[[a b] c] d].
    rewrite !H by (auto using flipped_range). auto.
  Qed.
  Lemma mapply_gates n g qs v r :
    0 <= n -> qubits_ok n qs -> 0 <= r < 2 ^ n ->
    mapply n (fentry n (map (fun q => ([q], mentry 1 (mat2 g))) qs)) v r = apply_each n g qs v r.
  Proof.
    intros Hn HQ. revert r. induction qs as [|q qs IH]; intros r Hr.
    - cbn [map apply_each fold_right]. rewrite <- (mapply_delta n v r) by auto. apply mapply_ext; auto.
      intros c Hc. rewrite <- (fentry_delta n [] Hn r c) by auto. reflexivity.
    - destruct HQ as [ND HQ]. inversion ND as [|q' qs' Hq ND']; subst.
      assert (EQ : concat (map fst (map (fun q => ([q], mentry 1 (mat2 g))) qs)) = qs).
      { rewrite map_map. cbn [fst]. clear. induction qs as [|x qs IH]; cbn; congruence. }
      cbn [map]. rewrite (mapply_ext n _ (mcomp n (fentry n [([q], mentry 1 (mat2 g))]) (fentry n (map (fun q => ([q], mentry 1 (mat2 g))) qs))) v v); auto.
      2:{ intros c Hc. symmetry. apply (fentry_disjoint n [([q], mentry 1 (mat2 g))]); auto.
          - intros x [<-|[]]. apply HQ; left; auto.
          - intros x Hx. rewrite EQ in Hx. apply HQ; right; auto.
          - rewrite EQ. intros x [<-|[]]; auto. }
      rewrite <- mapply_mcomp. rewrite mapply_gate1 by (auto; apply HQ; left; auto).
      cbn [apply_each fold_right]. apply apply1_ext; auto; [apply HQ; left; auto|].
      intros c Hc. apply IH; auto. split; auto. intros; apply HQ; right; auto.
  Qed.

  Lemma gate_action n (o : op K) g groups mats v W :
    0 <= n -> gate_of o = Some g -> qubits_ok n (concat groups) ->
    op_ms o false groups = Ok mats -> applied n mats v W ->
    forall r, 0 <= r < 2 ^ n -> amp W r = apply_each n g (concat groups) (amp v) r.
  Proof.
    intros Hn Hg HQ Hm HA r Hr. apply op_ms_plain in Hm. rewrite (gate_mats o g groups Hg) in Hm.
    rewrite per_index_nodup in Hm by apply HQ. inversion Hm; subst mats.
    assert (Wm : mats_wf n (map (fun i => (KInt i, mat2 g)) (concat groups))).
    { split; [split|].
      - intros k m Hin. apply in_map_iff in Hin as (i & E & _). inversion E. discriminate.
      - rewrite map_map. cbn [fst key_group]. apply NoDup_map_inj; [apply HQ|intros; congruence].
      - intros k m Hin. apply in_map_iff in Hin as (i & E & Hi). inversion E; subst. split.
        + cbn [key_group]. intros q [<-|[]]. apply HQ; auto.
        + destruct g as [[[a b] c] d]. cbn. intuition. }
    apply applied_spec in HA as (_ & _ & E); auto. rewrite E by auto.
    unfold mats_groups. rewrite !map_map. apply mapply_gates; auto.
  Qed.
  (** two gates on the same qubits whose matrices multiply to the identity *)
  Definition inverse2 (g' g : C * C * C * C) : Prop :=
    let '(a, b, c, d) := g in let '(a', b', c', d') := g' in
    (a' * a + b' * c = 1 /\ a' * b + b' * d = 0 /\ c' * a + d' * c = 0 /\ c' * b + d' * d = 1)%r.
  Lemma flipped_flipped n q r : 0 <= q < n -> 0 <= r < 2 ^ n -> flipped n q (flipped n q r) = r.
  Proof. intros. unfold flipped. rewrite Z.lxor_assoc, Z.lxor_nilpotent, Z.lxor_0_r. auto. Qed.
  Lemma apply1_inverse n q g' g v r :
    0 <= q < n -> 0 <= r < 2 ^ n -> inverse2 g' g -> apply1 n g' q (apply1 n g q v) r = v r.
  Proof.
    intros Hq Hr H. destruct g as [[[a b] c] d], g' as [[[a' b'] c'] d']. destruct H as (H1 & H2 & H3 & H4).
    unfold apply1. rewrite !qbit_flipped by auto. rewrite Z.eqb_refl. rewrite !flipped_flipped by auto.
    destruct (qbit n r q) eqn:Eb; cbn [negb].
    - transitivity ((c' * a + d' * c) * v (flipped n q r) + (c' * b + d' * d) * v r)%r; [ring|]. rewrite H3, H4. ring.
    - transitivity ((a' * a + b' * c) * v r + (a' * b + b' * d) * v (flipped n q r))%r; [ring|]. rewrite H1, H2. ring.
  Qed.
  (** apply1 on different qubits commute with lists: peel from the inside *)
  Lemma gates_inverse n g' g (groups : list (list Z)) (v : Z -> C) r :
    0 <= n -> qubits_ok n (concat groups) -> 0 <= r < 2 ^ n -> inverse2 g' g ->
    apply_each n g' (concat groups) (apply_each n g (concat groups) v) r = v r.
  Proof.
    intros Hn HQ Hr HI. set (qs := concat groups) in *.
    rewrite <- (mapply_gates n g' qs) by auto.
    rewrite (mapply_ext n _ (fentry n (map (fun q => ([q], mentry 1 (mat2 g'))) qs)) _
      (mapply n (fentry n (map (fun q => ([q], mentry 1 (mat2 g))) qs)) v)); auto.
    2:{ intros c Hc. symmetry. apply mapply_gates; auto. }
    rewrite mapply_mcomp. rewrite <- (mapply_delta n v r) by auto. apply mapply_ext; auto. intros c Hc.
    set (ts := map (fun q => ([q], (mentry 1 (mat2 g'), mentry 1 (mat2 g)))) qs).
    assert (EA : map gA ts = map (fun q => ([q], mentry 1 (mat2 g'))) qs) by (unfold ts; rewrite map_map; reflexivity).
    assert (EB : map gB ts = map (fun q => ([q], mentry 1 (mat2 g))) qs) by (unfold ts; rewrite map_map; reflexivity).
    rewrite <- EA, <- EB. rewrite fentry_same; auto.
    2:{ unfold ts. rewrite map_map. cbn [fst]. replace (concat (map (fun x => [x]) qs)) with qs; auto.
        clear. induction qs; cbn; congruence. }
    rewrite <- (fentry_delta n (map (fun q => [q]) qs)) by auto. apply fentry_ext.
    unfold ts. rewrite !map_map. clear - HI. induction qs as [|q qs IH]; [constructor|].
    cbn [map]. constructor; auto. cbn [gAB fst snd]. split; auto. change (zlen [q]) with 1. change (2 ^ 1) with 2.
    intros i j Hi Hj. unfold emul. change (2 ^ 1) with 2. change (zrange 0 2) with [0; 1]. cbn [sum].
    rewrite !mentry_mat2 by lia. destruct g as [[[a b] c] d], g' as [[[a' b'] c'] d']. destruct HI as (H1 & H2 & H3 & H4).
    unfold delta.
    assert (i = 0 \/ i = 1) as [->| ->] by lia; assert (j = 0 \/ j = 1) as [->| ->] by lia; cbn [ent2 Z.eqb Pos.eqb].
    - etransitivity; [|exact H1]; ring.
    - etransitivity; [|exact H2]; ring.
    - etransitivity; [|exact H3]; ring.
    - etransitivity; [|exact H4]; ring.
  Qed.
  Lemma gate_undo n (o o' : op K) g g' groups mats mats' v W X :
    0 <= n -> gate_of o = Some g -> gate_of o' = Some g' -> inverse2 g' g -> qubits_ok n (concat groups) ->
    op_ms o false groups = Ok mats -> op_ms o' false groups = Ok mats' ->
    applied n mats v W -> applied n mats' W X -> X = v.
  Proof.
    intros Hn Hg Hg' HI HQ Hm Hm' HA HB.
    pose proof (gate_action n o g groups mats v W Hn Hg HQ Hm HA) as E1.
    pose proof (gate_action n o' g' groups mats' W X Hn Hg' HQ Hm' HB) as E2.
    assert (L : zlen v = 2 ^ n /\ zlen X = 2 ^ n).
    { destruct HA as (Hv & _). split; auto. destruct HB as (_ & out & i & Ho & Hi & EX).
      assert (Wm' : mats_wf n mats').
      { apply op_ms_plain in Hm'. rewrite (gate_mats o' g' groups Hg') in Hm'.
        rewrite per_index_nodup in Hm' by apply HQ. inversion Hm'; subst mats'. split; [split|].
        - intros k m Hin. apply in_map_iff in Hin as (j & E & _). inversion E. discriminate.
        - rewrite map_map. cbn [fst key_group]. apply NoDup_map_inj; [apply HQ|intros; congruence].
        - intros k m Hin. apply in_map_iff in Hin as (j & E & Hj). inversion E; subst. split.
          + cbn [key_group]. intros q [<-|[]]. apply HQ; auto.
          + destruct g' as [[[a b] c] d]. cbn. intuition. }
      apply kron_partial_correct in EX; auto; try lia. subst X. unfold kron_result.
      rewrite zlen_map, zlen_zrange; lia. }
    apply (vec_ext n); try tauto. intros r Hr. rewrite E2 by auto.
    rewrite <- (gates_inverse n g' g groups (amp v) r) by auto.
    assert (G : forall qs u w, qubits_ok n qs -> (forall c, 0 <= c < 2 ^ n -> u c = w c) ->
      forall c, 0 <= c < 2 ^ n -> apply_each n g' qs u c = apply_each n g' qs w c).
    { induction qs as [|q qs IH]; intros u w Hqs Hu c Hc; [apply Hu; auto|].
      destruct Hqs as [ND Hqs]. inversion ND; subst.
      cbn [apply_each fold_right]. apply apply1_ext; auto; [apply Hqs; left; auto|].
      intros c' Hc'. apply IH; auto. split; auto. intros; apply Hqs; right; auto. }
    apply G; auto.
  Qed.
End LOps4.
