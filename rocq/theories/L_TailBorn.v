(** Circuits that end in one measurement of a register. *)
From Coq Require Import Sorted.
From Verif Require Import Base S_Bits L_Bits M_Kron S_Kron M_Ops S_Ops M_Feed S_Feed M_Func S_Func
  M_Measure S_Measure L_Alg M_Graph S_Graph L_Graph1 L_Graph2 L_Graph3 L_Graph5 L_Graph6 L_Graph7 L_Graph8 L_Graph9 L_Graph10 L_Graph11 L_Grow1 L_Grow2
  S_Born L_Born M_Context S_Context L_Context4 L_Resume L_Example1 L_Tail.

Section TailBorn.
  Context {K : Type} {OK : OrdRing K}.
  Notation C := (Cx K).
  Implicit Types h : heap K.
  Variable srcs : list nat.

  (** running the nodes before the tail computes [U] of the initial amplitudes *)
  Lemma prefix_value h h1 vis1 lg1 U h2 vis2 lg2 tail args : fresh h srcs -> grow srcs h srcs (layout h srcs) h1 vis1 lg1 U ->
    tailed srcs h1 vis1 lg1 h2 vis2 lg2 tail -> slim h2 (map fst lg2) args ->
    let n := widths h srcs in
    forall rs init cm v1, StronglySorted lt (map fst cm) -> (forall i, In i (map fst cm) <-> ancestor h2 args i /\ ~ In i tail) ->
    evolves rs h2 srcs n cm (amp (map (fed_amp n init) (zrange 0 (2 ^ n)))) v1 ->
    forall r, 0 <= r < 2 ^ n -> v1 r = U (fed_amp n init) r.
  Proof.
    intros F G T Sl n rs init cm v1 So Ha Ev.
    pose proof (fresh_circ h srcs F) as Ci. pose proof (grow_widths _ _ _ _ _ _ _ _ Ci G) as EW. pose proof (grow_circ _ _ _ _ _ _ _ _ G) as Ci1.
    destruct G as (_ & X & Hvi & _ & HU & new & N1 & N2 & N3 & N4 & N5). rewrite layout_fst in N3.
    destruct T as (Ci2 & X2 & _ & _ & T1 & T2 & T3 & T4).
    pose proof (circ_circuit _ _ _ _ Ci2) as CC.
    pose proof (slim_anc _ _ _ Sl) as An.
    destruct CC as (B & In_ & Sp & Sw & Sr & Ok_).
    pose proof (built_wf _ _ B) as W. fold n in EW, HU. pose proof (built_wf _ _ (c_built _ _ _ _ Ci1)) as W1.
    assert (EW2 : widths h2 srcs = n) by (rewrite <- EW; apply ext_widths; auto; intros i; apply (circ_srcs _ _ _ _ Ci1)).
    assert (Hn : 0 <= n) by exact (circ_n _ _ _ _ Ci).
    pose proof (splits_anc h2 vis2 (map fst lg2) W In_ Sp) as Hsp.
    assert (Xh : ext h h2) by (eapply ext_trans; eauto).
    assert (Hnode : forall i, In i srcs -> nd_kind (nd h2 i) = KQubit /\ inputs_of h2 i = []).
    { intros i Hi. pose proof (f_size _ _ F i Hi). rewrite (ext_kind h h2), (ext_inputs h h2); auto. apply (f_node _ _ F); auto. }
    assert (Hkeys : forall i, ancestor h2 (map fst lg2) i <-> In i (srcs ++ new) \/ In i tail).
    { intros i. rewrite T3, N3, !in_app_iff, (fresh_anc h srcs i F). tauto. }
    assert (Hlt : forall i, In i (srcs ++ new) -> (i < size h1)%nat).
    { intros i Hi. apply in_app_iff in Hi. destruct Hi as [Hi|Hi]; [apply (f_size _ _ F) in Hi; destruct X; lia|apply N2 in Hi; lia]. }
    assert (Hdis : forall i, In i (srcs ++ new) -> ~ In i tail) by (intros i Hi Ht; apply Hlt in Hi; apply T2 in Ht; lia).
    assert (Hk : forall i, In i (srcs ++ new) -> nd_kind (nd h2 i) <> KMeasure).
    { intros i Hi. apply in_app_iff in Hi. destruct Hi as [Hi|Hi]; [destruct (Hnode i Hi) as [-> _]; discriminate|].
      rewrite (ext_kind h1 h2) by (auto; apply N2; auto). apply N4; auto. }
    assert (Hsorted : StronglySorted lt (srcs ++ new)).
    { apply sorted_app_lt; auto; [apply F|]. intros a b Hx Hy. apply (f_size _ _ F) in Hx. apply N2 in Hy. lia. }
    destruct (insert_nodes srcs rs h2 n (fun i => mem i (map fst cm)) (srcs ++ new)) with (l := cm) (v := amp (map (fed_amp n init) (zrange 0 (2 ^ n)))) (v' := v1)
      as (la & Ela & Eva & Hin); auto.
    { intros i Hi Hm. assert (Hi' : ancestor h2 (map fst lg2) i) by (apply Hkeys; auto). destruct (An i Hi') as [A|A].
      - assert (In i (map fst cm)) by (apply Ha; auto). apply mem_In in H. congruence.
      - split; [apply A|]. exists (map (wire h2 srcs) (inputs_of h2 i)). apply (a_inputs h2 vis2 (map fst lg2) srcs); auto. }
    { apply sorted_lt_unique; auto.
      - clear - Hsorted. induction Hsorted as [|a l H IH HF]; cbn [filter]; [constructor|]. destruct (mem a (map fst cm)); auto. constructor; auto.
        apply Forall_forall. intros x Hx. apply filter_In in Hx. rewrite Forall_forall in HF. apply HF, Hx.
      - intros i. rewrite filter_In, mem_In. split; [|tauto]. intros Hi. split; auto. apply Ha in Hi. destruct Hi as [Hi Ht].
        assert (Hi' : ancestor h2 (map fst lg2) i) by (eapply anc_incl; [|exact Hi]; apply Sl). apply Hkeys in Hi'. tauto. }
    intros r Hr.
    assert (Hz0 : forall v, evolves rs h2 srcs n (zeros srcs ++ zeros new) v (U v)).
    { intros v. apply (evolves_app srcs rs h2 n _ _ v v).
      - assert (Hsub : forall l0, incl l0 srcs -> evolves rs h2 srcs n (zeros l0) v v).
        { induction l0 as [|i l0 IH]; intros Hl0; [constructor; auto|]. cbn [zeros map]. destruct (Hnode i (Hl0 i (or_introl eq_refl))) as [E1 E2].
          econstructor; [rewrite E2; constructor|rewrite E1; constructor; auto|]. apply IH. intros x Hx. apply Hl0. right; auto. }
        apply Hsub, incl_refl.
      - intros u Hu. eapply evolves_final; [|apply HU; exact Hu].
        apply (evolves_ext srcs h1 h2 (wf_base _ _ W1) X2 (fun s => circ_srcs _ _ _ _ Ci1 s)); [|apply N5].
        intros i Hi. unfold zeros in Hi. rewrite map_map, map_id in Hi. apply N2 in Hi. lia. }
    assert (Hfst : map fst (zeros (K := K) srcs ++ zeros new) = srcs ++ new).
    { intros. unfold zeros. rewrite map_app, !map_map, !map_id. auto. }
    pose proof (evolves_fun h2 vis2 (map fst lg2) srcs W In_ Hsp Sr rs Ok_) as EF. rewrite EW2 in EF.
    destruct (EF _ _ _ (Hz0 (amp (map (fed_amp n init) (zrange 0 (2 ^ n))))) la _ _ Eva) as [EA _]; auto.
    { intros i Hi. rewrite Hfst in Hi. apply Hkeys; auto. }
    { unfold same_outcomes. assert (El' : map fst (zeros (K := K) srcs ++ zeros new) = map fst la) by congruence.
      assert (Hk' : forall i, In i (map fst la) -> nd_kind (nd h2 i) <> KMeasure) by (rewrite Ela; auto).
      clear - El' Hk'. revert la El' Hk'. generalize (zeros (K := K) srcs ++ zeros new). intros l0. induction l0 as [|[i a] l0 IH]; intros [|[j b] lf] E Hk; cbn in E; try discriminate; constructor.
      - injection E as -> E. split; auto. cbn [fst]. intros H. exfalso. apply (Hk j); auto. left; auto.
      - injection E as -> E. apply IH; auto. intros i Hi. apply Hk. right; auto. }
    rewrite <- EA by auto. apply HU; auto. intros x Hx. unfold amp. rewrite znth_map_zrange by lia. f_equal.
  Qed.

  Lemma tail_born h h1 vis1 lg1 U h2 vis2 lg2 mm args : fresh h srcs -> grow srcs h srcs (layout h srcs) h1 vis1 lg1 U ->
    tailed srcs h1 vis1 lg1 h2 vis2 lg2 [mm] -> slim h2 (map fst lg2) args -> nd_kind (nd h2 mm) = KMeasure ->
    let n := widths h srcs in
    forall c l ev feed strict state init, session h2 vis2 c l -> (forall a, In a l -> same_qubits h2 args a) ->
    enum_ok ev -> scheds_ok ev h2 n -> draws_ok ev -> initial h2 srcs n feed state init -> (strict = true -> incl srcs (fed_nodes feed)) ->
    norm_of n (U (fed_amp n init)) = 1%r ->
    exists c' st_ cm y p, run ev c h2 args feed strict state = (c', Ok (st_, cm ++ [(mm, CMeas y p)])) /\ ~ In mm (map fst cm) /\
      exists groups, Forall2 (wires h2 srcs) (inputs_of h2 mm) groups /\ selected n (concat groups) (U (fed_amp n init)) (e_rand ev mm) y /\
        p = marginal n (measured_order n (concat groups)) (U (fed_amp n init)) y.
  Proof.
    intros F G T Sl Kmm n c l ev feed strict state init S Q He Hsc Hd HI Hst HN.
    pose proof (fun rs => prefix_value h h1 vis1 lg1 U h2 vis2 lg2 [mm] args F G T Sl rs init) as PV. cbv zeta in PV. fold n in PV.
    pose proof (fresh_circ h srcs F) as Ci. pose proof (grow_widths _ _ _ _ _ _ _ _ Ci G) as EW. pose proof (grow_circ _ _ _ _ _ _ _ _ G) as Ci1.
    destruct G as (_ & X & Hvi & _ & HU & new & N1 & N2 & N3 & N4 & N5). rewrite layout_fst in N3.
    destruct T as (Ci2 & X2 & _ & _ & T1 & T2 & T3 & T4).
    pose proof (circ_circuit _ _ _ _ Ci2) as CC. pose proof (slim_circuit _ _ _ _ _ Sl CC) as CC'.
    pose proof (slim_anc _ _ _ Sl) as An.
    destruct CC as (B & In_ & Sp & Sw & Sr & Ok_). destruct CC' as (_ & In' & _ & _ & Sr' & Ok').
    pose proof (built_wf _ _ B) as W. fold n in EW, HU.
    assert (EW2 : widths h2 srcs = n) by (rewrite <- EW; apply ext_widths; auto; intros i; apply (circ_srcs _ _ _ _ Ci1)).
    pose proof (splits_anc h2 vis2 args W In' Sp) as Hsp.
    destruct (ord_exists h2 vis2 args W In') as (ord & Ho & Hoi).
    assert (Hmm : ancestor h2 args mm).
    { destruct (An mm) as [A|((idx & A) & _)]; auto; [apply T3; right; left; auto|congruence]. }
    assert (Hle : forall i, ancestor h2 args i -> i = mm \/ (i < mm)%nat /\ nd_kind (nd h2 i) <> KMeasure).
    { intros i Hi. assert (Hi' : ancestor h2 (map fst lg2) i) by (eapply anc_incl; [|exact Hi]; apply Sl).
      apply T3 in Hi'. destruct Hi' as [Hi'|[<-|[]]]; auto. right. pose proof (T2 mm (or_introl eq_refl)) as Hm.
      pose proof (circ_size _ _ _ _ Ci1 i Hi') as Hs. split; [lia|]. rewrite (ext_kind h1 h2) by auto.
      apply N3 in Hi'. destruct Hi' as [Hi'|Hi']; [|apply N4; auto]. apply (fresh_anc h srcs i F) in Hi'.
      rewrite (ext_kind h h1) by (auto; apply (f_size _ _ F); auto). destruct (f_node _ _ F i Hi') as [-> _]. discriminate. }
    assert (Eo : exists ord0, ord = ord0 ++ [mm] /\ forall i, In i ord0 -> (i < mm)%nat).
    { apply Hoi in Hmm. apply in_split in Hmm. destruct Hmm as (o1 & o2 & ->). apply sorted_app_inv in Ho as Ho'. destruct Ho' as [_ Ho'].
      inversion Ho' as [|? ? _ HF]; subst. exists o1. destruct o2 as [|z o2].
      - split; auto. intros i Hi. destruct (Hle i) as [->|[? _]]; auto; [apply Hoi, in_app_iff; auto|]. exfalso.
        clear - Ho Hi. induction o1 as [|a o1 IH]; [destruct Hi|]. cbn in Ho. inversion Ho as [|? ? Hs HF]; subst. destruct Hi as [->|Hi]; auto.
        rewrite Forall_forall in HF. apply (Nat.lt_irrefl mm), HF, in_app_iff. right; left; auto.
      - exfalso. rewrite Forall_forall in HF. specialize (HF z (or_introl eq_refl)). destruct (Hle z) as [->|[? _]]; try lia.
        apply Hoi, in_app_iff. right; right; left; auto. }
    destruct Eo as (ord0 & -> & Hlt).
    pose proof (session_cache_valid h2 vis2 c l args srcs S Sp Sw In' Sr' Q) as Hc.
    rewrite <- EW2 in HI, Hsc. destruct (initial_keys h2 srcs _ _ _ HI) as [Hkd Hfi].
    destruct (run_start h2 vis2 args srcs _ W In' Hsp Sr' Ho Hoi ev He c feed strict state Hkd Hfi) as (fr & nn0 & Pf & ->).
    assert (strict && not_fed srcs feed = false) as ->.
    { destruct strict; auto. cbn. unfold not_fed. apply negb_false_iff, forallb_forall. intros q Hq. apply mem_In, Hst; auto. }
    rewrite (start_ok h2 vis2 args srcs W In' Hsp Sr' ev feed fr state init Pf HI).
    change (mkAcc _ nn0 [] c) with (start_acc h2 srcs ev init nn0 c).
    pose proof (start_acc_ok h2 vis2 args srcs W In' Sr' ev init nn0 c Hc) as Hs0.
    set (step := fun a i => node_feed ev h2 a i (map (wire h2 srcs) (inputs_of h2 i))).
    assert (Htot : forall todo a, incl todo ord0 -> acc_ok h2 args srcs a -> exists a', sfold step todo a = (a', Ok tt)).
    { induction todo as [|i todo IH]; intros a Hi Ha; cbn [sfold]; eauto.
      assert (Hai : ancestor h2 args i) by (apply Hoi, in_app_iff; left; apply Hi; left; auto).
      assert (Hki : nd_kind (nd h2 i) <> KMeasure).
      { destruct (Hle i Hai) as [->|[_ ?]]; auto. exfalso. apply (Nat.lt_irrefl mm), Hlt, Hi. left; auto. }
      unfold step at 1. destruct (node_total h2 vis2 args srcs W In' Hsp Sr' Ok' ev Hsc i a Hai Hki Ha) as (a1 & -> & Ha1 & _).
      cbn [sbind]. apply IH; auto. intros x Hx. apply Hi. right; auto. }
    destruct (Htot ord0 (start_acc h2 srcs ev init nn0 c) (incl_refl _) Hs0) as (a & Ea).
    assert (Ho0 : StronglySorted lt ord0) by (apply sorted_app_inv in Ho; tauto).
    destruct (fold_sem h2 vis2 args srcs _ W In' Hsp Sr' Hoi ev Ok' Hsc (fun _ _ => True) ord0 _ a (sorted_lt_NoDup _ Ho0) ltac:(apply incl_appl, incl_refl) Hs0 ltac:(intros i _ []) Ea)
      as (Ha & cm & Ecm & Em & Ev).
    cbn [start_acc a_cm app] in Ecm. rewrite EW2 in Ev. change (amps (start_acc h2 srcs ev init nn0 c)) with (amp (map (fed_amp (widths h2 srcs) init) (zrange 0 (2 ^ widths h2 srcs)))) in Ev. rewrite EW2 in Ev.
    assert (HV : forall r, 0 <= r < 2 ^ n -> amps a r = U (fed_amp n init) r).
    { apply (PV (e_rsqrt ev) cm); auto; rewrite Em; auto. intros i. specialize (Hoi i). rewrite in_app_iff in Hoi. split.
      - intros Hi. split; [tauto|]. intros [<-|[]]. apply (Nat.lt_irrefl mm), Hlt; auto.
      - intros [Hi Hni]. tauto. }
    assert (HNa : norm_of (widths h2 srcs) (amps a) = 1%r) by (rewrite EW2, <- HN; apply norm_ext; auto).
    destruct (node_measured h2 vis2 args srcs W In' Hsp Sr' ev Ok' Hsc Hd mm a Hmm Ha HNa Kmm) as (a' & cv & E' & Ha' & Ecm' & Hsem & _ & Hdr).
    rewrite Kmm in Hsem. assert (exists y p, cv = CMeas y p) as (y & p & ->) by (inversion Hsem; eauto).
    assert (Ef : sfold step (ord0 ++ [mm]) (start_acc h2 srcs ev init nn0 c) = (a', Ok tt)).
    { clear - Ea E'. revert Ea. generalize (start_acc h2 srcs ev init nn0 c). induction ord0 as [|i l IH]; intros s E; cbn [sfold app] in *.
      - inversion E; subst. unfold step at 1. rewrite E'. reflexivity.
      - destruct (step s i) as [s1 [[]|e]]; cbn [sbind] in *; [auto|discriminate]. }
    rewrite Ef. assert (Hni : ~ In mm (map fst cm)) by (rewrite Em; intros Hi; apply (Nat.lt_irrefl mm), Hlt; auto).
    rewrite Ecm' , Ecm, odict_set_fresh by auto.
    exists (a_cache a'), (bk_state (a_back a')), cm, y, p. split; auto. split; auto.
    exists (map (wire h2 srcs) (inputs_of h2 mm)). split; [eapply a_inputs; eauto|]. unfold drawn in Hdr. rewrite EW2 in Hdr, Hsem.
    assert (Hq : p = marginal n (measured_order n (concat (map (wire h2 srcs) (inputs_of h2 mm)))) (amps a) y) by (inversion Hsem; auto).
    destruct (Hdr y p eq_refl) as (D1 & D2 & D3). split.
    - assert (EB : forall k, below n (measured_order n (concat (map (wire h2 srcs) (inputs_of h2 mm)))) (U (fed_amp n init)) k = below n (measured_order n (concat (map (wire h2 srcs) (inputs_of h2 mm)))) (amps a) k).
      { intros k. unfold below. apply sum_ext. intros x _. apply L_Graph7.marginal_ext. intros r Hr. symmetry. auto. }
      split; auto. rewrite !EB. auto.
    - rewrite Hq. apply L_Graph7.marginal_ext. auto.
  Qed.
End TailBorn.
