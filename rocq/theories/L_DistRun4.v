(** Circuits on the distributed backend: what does not work. *)
From Coq Require Import Sorted.
From Verif Require Import Base M_Bits S_Bits L_Bits M_Kron S_Kron M_Ops S_Ops L_Ops4 M_Feed S_Feed L_Feed M_Func S_Func
  M_Pool M_Net M_Worker M_Proto S_Proto L_Proto M_Client M_Measure S_Measure
  M_Graph S_Graph L_Graph1 L_Graph2 L_Graph3 L_Graph5 L_Graph6 L_Graph7 L_Graph8 L_Graph11 L_Grow1 S_Born L_Born S_Order M_DistRun S_DistRun L_DistRun1.

Section Refused.
  Context {K : Type} {OK : OrdRing K}.
  Notation C := (Cx K).
  Implicit Types h : heap K.

  Section Circuit.
    Variables (h : heap K) (vis args : list nat) (srcs ord : list nat).
    Hypothesis W : wf h vis.
    Hypothesis Hargs : incl args vis.
    Hypothesis Hsplit : forall i idx k, ancestor h args i -> nd_kind (nd h i) = KSplit idx -> inputs_of h i <> [] -> In k idx -> 0 <= k < widths h (inputs_of h i).
    Hypothesis Hsrcs : sources h args srcs.
    Hypothesis Hord : StronglySorted lt ord.
    Hypothesis HordIn : forall i, In i ord <-> ancestor h args i.
    Notation w := (wire h srcs).
    Notation n := (widths h srcs).
    Hypothesis Hok : circuit_ok h args srcs n.
    Notation dstep := (fun a i => dist_feed h a i (map w (inputs_of h i))).

    (** the calls do not touch classic_map and the caches *)
    Lemma call_keeps (a : dacc K) c a' v : dist_call a c = (a', Ok v) -> d_cm a' = d_cm a /\ d_cache a' = d_cache a.
    Proof.
      unfold dist_call. destruct (do op <- request c; encode_op op) as [m|e]; [|discriminate]. unfold talk.
      destruct (d_answers a) as [|r rs]; cbn [sbind]; [discriminate|]. intros E. inversion E. cbn. auto.
    Qed.
    Lemma step_keeps a i a' : ancestor h args i -> cache_valid h args srcs (d_cache a) -> dstep a i = (a', Ok tt) ->
      cache_valid h args srcs (d_cache a') /\ exists x, d_cm a' = odict_set (d_cm a) i x /\ forall k, nd_kind (nd h i) = KStoch k -> exists y, x = CProbs (inr y).
    Proof.
      intros Hi Hc. unfold dist_feed. destruct (nd_kind (nd h i)) as [|ix|o d|f| |k] eqn:Ek.
      - intros E. inversion E. cbn. split; auto. eexists. split; [reflexivity|]. discriminate.
      - intros E. inversion E. cbn. split; auto. eexists. split; [reflexivity|]. discriminate.
      - destruct (op_mats_ok' h vis args srcs W Hargs Hsplit Hsrcs Hok (d_cache a) i o d Hc Hi Ek) as (c' & ms & -> & Hc' & _).
        destruct (dist_call _ _) as [a1 [v|e]] eqn:E1; cbn [sbind]; [|discriminate]. apply call_keeps in E1. cbn [d_cm d_cache] in E1. destruct E1 as [E1 E2].
        intros E. inversion E. cbn. rewrite E1, E2. split; auto. eexists. split; [reflexivity|]. discriminate.
      - destruct (do reg1 <- pyget _ 0; _) as [[r1 r2]|e]; [|discriminate].
        destruct (dist_call _ _) as [a1 [v|e]] eqn:E1; cbn [sbind]; [|discriminate]. apply call_keeps in E1. destruct E1 as [E1 E2].
        intros E. inversion E. cbn. rewrite E1, E2. split; auto. eexists. split; [reflexivity|]. discriminate.
      - destruct (dist_call _ _) as [a1 [v|e]] eqn:E1; cbn [sbind]; [|discriminate]. apply call_keeps in E1. destruct E1 as [E1 E2].
        intros E. inversion E. cbn. rewrite E1, E2. split; auto. eexists. split; [reflexivity|]. discriminate.
      - destruct (dist_call _ _) as [a1 [v|e]] eqn:E1; cbn [sbind]; [|discriminate]. apply call_keeps in E1. destruct E1 as [E1 E2].
        intros E. inversion E. cbn. rewrite E1, E2. split; auto. eexists. split; [reflexivity|]. intros k' _. destruct v; eauto.
    Qed.
    (** gates without controls, and F *)
    Lemma step_refused a i : ancestor h args i -> cache_valid h args srcs (d_cache a) ->
      (exists o d, nd_kind (nd h i) = KMat o d /\ gate_of o <> None) \/ (exists f, nd_kind (nd h i) = KF f) -> exists a' e, dstep a i = (a', Raise e).
    Proof.
      intros Hi Hc [(o & d & Ek & Hg)|(f & Ek)]; unfold dist_feed; rewrite Ek.
      - destruct (op_mats_ok' h vis args srcs W Hargs Hsplit Hsrcs Hok (d_cache a) i o d Hc Hi Ek) as (c' & ms & -> & _ & Em).
        destruct (op_ms_eff h vis args srcs W Hargs Hsplit Hsrcs Hok i o d Hi Ek) as (_ & _ & Hf & _).
        destruct (a_qubits_ok h vis args srcs W Hargs Hsplit Hsrcs Hok i Hi) as [Hq _]; [congruence|intros l; congruence|].
        assert (Hg' : exists g, gate_of (op_eff o d) = Some g) by (destruct d; destruct o; cbn in *; try congruence; eauto).
        destruct Hg' as (g & Hg'). pose proof (n_nonneg h vis args srcs W Hargs Hsrcs) as Hn.
        assert (Hz : zlen (repeat (0%r : C) (Z.to_nat (2 ^ n))) = 2 ^ n) by (unfold zlen; rewrite repeat_length, Z2Nat.id; auto; apply Z.lt_le_incl, Z.pow_pos_nonneg; lia).
        destruct (gates_not_on_wire n _ g false _ _ _ (Cython (zrange 0 (2 ^ n))) Hn Hf Hq Hg' Hz Hz) as (G & _); [cbn; rewrite Hz; apply Permutation_refl|].
        unfold dist_call. cbn [request bind encode_op]. rewrite (G ms Em). cbn [bind sbind]. eauto.
      - destruct (do reg1 <- pyget _ 0; _) as [[r1 r2]|e]; eauto. unfold dist_call. cbn [request bind sbind]. eauto.
    Qed.
    Lemma fold_refused : forall todo a i, incl todo ord -> cache_valid h args srcs (d_cache a) -> In i todo ->
      (exists o d, nd_kind (nd h i) = KMat o d /\ gate_of o <> None) \/ (exists f, nd_kind (nd h i) = KF f) -> exists a' e, sfold dstep todo a = (a', Raise e).
    Proof.
      induction todo as [|j todo IH]; intros a i Hi Hc Hin Hk; [destruct Hin|]. cbn [sfold].
      assert (Haj : ancestor h args j) by (apply HordIn, Hi; left; auto). destruct Hin as [->|Hin].
      - destruct (step_refused a i Haj Hc Hk) as (a' & e & ->). cbn [sbind]. eauto.
      - destruct (dist_feed h a j _) as [a1 [[]|e]] eqn:E; cbn [sbind]; eauto. apply (IH a1 i); auto; [intros x Hx; apply Hi; right; auto|].
        apply (step_keeps a j a1 Haj Hc E).
    Qed.
    (** reports of probabilities *)
    Lemma odict_set_at {V} (l : list (nat * V)) i x : In (i, x) (odict_set l i x).
    Proof. induction l as [|[k y] l IH]; cbn [odict_set]; [left; auto|]. destruct (Nat.eqb_spec k i); [subst; left; auto|right; auto]. Qed.
    Lemma odict_set_other {V} (l : list (nat * V)) i j x y : i <> j -> In (i, x) l -> In (i, x) (odict_set l j y).
    Proof.
      intros Hn. induction l as [|[k z] l IH]; cbn [odict_set]; [intros []|]. intros [E|H].
      - inversion E; subst. destruct (Nat.eqb_spec i j); [contradiction|left; auto].
      - destruct (Nat.eqb_spec k j); right; auto.
    Qed.
    Lemma fold_keeps : forall todo a a' i x, incl todo ord -> cache_valid h args srcs (d_cache a) -> ~ In i todo -> In (i, x) (d_cm a) ->
      sfold dstep todo a = (a', Ok tt) -> In (i, x) (d_cm a').
    Proof.
      induction todo as [|j todo IH]; intros a a' i x Hi Hc Hn Hx; cbn [sfold]; intros E; [inversion E; subst; auto|].
      assert (Haj : ancestor h args j) by (apply HordIn, Hi; left; auto).
      destruct (dist_feed h a j _) as [a1 [[]|e]] eqn:E1; cbn [sbind] in E; [|discriminate].
      destruct (step_keeps a j a1 Haj Hc E1) as (Hc1 & y & Ey & _). eapply IH; [| exact Hc1| | |exact E].
      - intros z Hz. apply Hi. right; auto.
      - intros H; apply Hn; right; auto.
      - rewrite Ey. apply odict_set_other; auto. intros ->. apply Hn. left; auto.
    Qed.
    Lemma fold_probs : forall todo a a' i k, NoDup todo -> incl todo ord -> cache_valid h args srcs (d_cache a) -> In i todo -> nd_kind (nd h i) = KStoch k ->
      sfold dstep todo a = (a', Ok tt) -> exists y, In (i, CProbs (inr y)) (d_cm a').
    Proof.
      induction todo as [|j todo IH]; intros a a' i k Hd Hi Hc Hin Ek; [destruct Hin|]. cbn [sfold]. inversion Hd as [|? ? Hnj Hd']; subst.
      assert (Haj : ancestor h args j) by (apply HordIn, Hi; left; auto). assert (Hi' : incl todo ord) by (intros x Hx; apply Hi; right; auto).
      destruct (dist_feed h a j _) as [a1 [[]|e]] eqn:E1; cbn [sbind]; [|discriminate]. intros E.
      destruct (step_keeps a j a1 Haj Hc E1) as (Hc1 & x & Ex & Hp). destruct Hin as [->|Hin].
      - destruct (Hp k Ek) as (y & ->). exists y. apply (fold_keeps todo a1 a'); auto. rewrite Ex. apply odict_set_at.
      - apply (IH a1 a' i k); auto.
    Qed.
  End Circuit.

  Lemma gates_refused h vis c l args srcs ev feed strict state init job i :
    prepared h vis c l args srcs -> let n := widths h srcs in
    circuit_ok h args srcs n -> gates_exact h args -> starts h srcs n ev feed state init -> draws_ok ev ->
    (forall g v, In (g, v) init -> total v = 1%r) -> (strict = true -> incl srcs (fed_nodes feed)) ->
    ancestor h args i -> (exists o d, nd_kind (nd h i) = KMat o d /\ gate_of o <> None) \/ (exists f, nd_kind (nd h i) = KF f) ->
    (exists c' r, run ev c h args feed strict state = (c', Ok r)) /\
    forall answers, exists e, o_result (dist_run job ev c h args feed strict state answers) = Raise e.
  Proof.
    intros HP n Hok Hg (He & Hsc & HI) Hd Htot Hst Hai Hk. pose proof HP as (S & Hs & Hsd & Ha & Hsame & Hsrc).
    pose proof (session_wf _ _ _ _ S) as W. pose proof (splits_anc h vis args W Ha Hs) as Hsp. destruct (ord_exists h vis args W Ha) as (ord & Ho & Hoi).
    pose proof (session_cache_valid h vis c l args srcs S Hs Hsd Ha Hsrc Hsame) as Hc. split.
    - destruct (run_born h vis c l args srcs S Hs Hsd Ha Hsame Hsrc Hok Hg ev feed strict state init He Hsc Hd HI Htot Hst) as (c' & st_ & cm & Er & _). eauto.
    - intros answers. destruct (prepare_ok h vis args srcs ord W Ha Hsp Hsrc Ho Hoi ev He feed strict state init HI Hst) as (fr & gn & fs & Ep & _ & _ & Hrun).
      unfold dist_run. rewrite Ep. destruct (encode_states _ _) as [setup|e]; [|cbn; eauto]. rewrite Hrun.
      destruct (fold_refused h vis args srcs ord W Ha Hsp Hsrc Hoi Hok ord (mkDacc [] answers [] c) i (incl_refl _) Hc) as (a' & e & ->); auto.
      { apply Hoi. auto. } cbn. eauto.
  Qed.

  Lemma probs_refused h vis c l args srcs ev feed strict state init job i c' st_ cm answers cm' :
    prepared h vis c l args srcs -> let n := widths h srcs in
    circuit_ok h args srcs n -> starts h srcs n ev feed state init -> (strict = true -> incl srcs (fed_nodes feed)) ->
    ancestor h args i -> nd_kind (nd h i) = KStoch 0 ->
    run ev c h args feed strict state = (c', Ok (st_, cm)) -> o_result (dist_run job ev c h args feed strict state answers) = Ok (job, cm') ->
    exists ps is_ ps', In (i, CProbs (inl ps)) cm /\ In (i, CProbs (inr (is_, ps'))) cm'.
  Proof.
    intros HP n Hok (He & Hsc & HI) Hst Hai Ek Er. pose proof HP as (S & Hs & Hsd & Ha & Hsame & Hsrc).
    pose proof (session_wf _ _ _ _ S) as W. pose proof (splits_anc h vis args W Ha Hs) as Hsp. destruct (ord_exists h vis args W Ha) as (ord & Ho & Hoi).
    pose proof (session_cache_valid h vis c l args srcs S Hs Hsd Ha Hsrc Hsame) as Hc.
    destruct (run_top h vis c l args srcs S Hs Hsd Ha Hsame Hsrc Hok ev feed strict state init He Hsc HI) as (RT & _ & _).
    destruct (RT _ _ _ Er) as (_ & _ & Hanc & E2). apply Hanc in Hai as Hin.
    assert (L : exists ps, In (i, CProbs (inl ps)) cm).
    { apply in_map_iff in Hin. destruct Hin as ([j x] & Ej & Hin). cbn [fst] in Ej. subst j. apply in_split in Hin. destruct Hin as (l1 & l2 & ->).
      destruct (evolves_app_inv srcs _ h _ l1 _ _ _ E2) as (v1 & _ & E1). inversion E1 as [|? ? ? ? ? ? ? ? S1]; subst. rewrite Ek in S1.
      inversion S1; subst; [|exfalso; match goal with H : 2 ^ zlen ?x <= 0 |- _ => pose proof (Z.pow_pos_nonneg 2 (zlen x) ltac:(lia) ltac:(unfold zlen; lia)) end; lia]. eexists. apply in_app_iff. right. left. reflexivity. }
    destruct L as (ps & L). destruct (prepare_ok h vis args srcs ord W Ha Hsp Hsrc Ho Hoi ev He feed strict state init HI Hst) as (fr & gn & fs & Ep & _ & _ & Hrun).
    unfold dist_run. rewrite Ep. destruct (encode_states _ _) as [setup|e]; [|discriminate]. rewrite Hrun.
    destruct (sfold _ ord _) as [a' [[]|e]] eqn:Ef; cbn [o_result]; [|discriminate]. intros E. inversion E; subst cm'.
    destruct (fold_probs h vis args srcs ord W Ha Hsp Hsrc Hoi Hok ord (mkDacc [] answers [] c) a' i 0 (sorted_lt_NoDup _ Ho) (incl_refl _) Hc ltac:(apply Hoi; auto) Ek Ef) as ([is_ ps'] & Hy).
    eauto 6.
  Qed.
End Refused.
