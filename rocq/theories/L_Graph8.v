(** Sessions: circuits built and run one after the other. *)
From Coq Require Import Sorted.
From Verif Require Import Base S_Bits L_Bits M_Kron S_Kron M_Ops S_Ops M_Feed S_Feed M_Func S_Func
  M_Measure S_Measure L_Alg M_Graph S_Graph L_Graph1 L_Graph2 L_Graph3 L_Graph4 L_Graph5 L_Graph6 L_Graph7.

Section Sessions.
  Context {K : Type} {OK : OrdRing K}.
  Notation C := (Cx K).

  Lemma ord_exists (h : heap K) vis args : wf h vis -> incl args vis ->
    exists ord, StronglySorted lt ord /\ forall i, In i ord <-> ancestor h args i.
  Proof.
    intros W Ha. assert (He : enum_ok (mkEnv (K:=K) (fun _ => O) (fun l => l) (fun _ => []) (fun _ => 0%r) (fun _ => 0%r) (fun x => x) (fun _ => 0%r) strict)).
    { intros l. cbn. auto. }
    destruct (get_deps_ok _ h vis args W Ha He) as (fr & gn & _ & _ & _ & Hgn & _). exists (order h gn).
    split; [apply order_sorted|]. intros i. eapply order_In; eauto.
  Qed.
  Lemma sources_exists (h : heap K) vis args : wf h vis -> incl args vis -> exists srcs, sources h args srcs.
  Proof.
    intros W Ha. destruct (ord_exists h vis args W Ha) as (ord & Hs & Hi).
    exists (filter (fun i => match inputs_of h i with [] => true | _ => false end) ord). split; [apply filter_SS; auto|].
    intros i. rewrite filter_In, Hi. destruct (inputs_of h i); split; intros [H1 H2]; auto; discriminate.
  Qed.
  Lemma sources_unique (h : heap K) args s s' : sources h args s -> sources h args s' -> s = s'.
  Proof. intros [A1 B1] [A2 B2]. apply sorted_lt_unique; auto. intros i. rewrite B1, B2. tauto. Qed.
  Lemma splits_anc (h : heap K) vis args : wf h vis -> incl args vis -> splits_in_range h vis ->
    forall i idx k, ancestor h args i -> nd_kind (nd h i) = KSplit idx -> inputs_of h i <> [] -> In k idx -> 0 <= k < widths h (inputs_of h i).
  Proof. intros W Ha Hs i idx k Hi Hk _. apply Hs; auto. eapply a_vis; eauto. Qed.

  (** ** growing heaps *)
  Lemma ext_inputs (h h' : heap K) i : ext h h' -> (i < size h)%nat -> inputs_of h' i = inputs_of h i.
  Proof. intros (_ & _ & E) Hi. destruct (E i Hi) as [E1 _]. unfold core in E1. unfold inputs_of. congruence. Qed.
  Lemma ext_kind (h h' : heap K) i : ext h h' -> (i < size h)%nat -> nd_kind (nd h' i) = nd_kind (nd h i).
  Proof. intros (_ & _ & E) Hi. destruct (E i Hi) as [E1 _]. unfold core in E1. congruence. Qed.
  Lemma ext_width (h h' : heap K) i : ext h h' -> (i < size h)%nat -> width h' i = width h i.
  Proof. intros (_ & _ & E) Hi. destruct (E i Hi) as [E1 _]. unfold core in E1. unfold width. congruence. Qed.
  Lemma ext_widths (h h' : heap K) l : ext h h' -> (forall i, In i l -> (i < size h)%nat) -> widths h' l = widths h l.
  Proof.
    intros E. induction l as [|a l IH]; intros Hl; auto. rewrite !widths_cons, IH by (intros; apply Hl; right; auto).
    rewrite (ext_width h h' a E (Hl a (or_introl eq_refl))). auto.
  Qed.
  Lemma ext_anc (h h' : heap K) vis args i : wf h vis -> ext h h' -> incl args vis -> ancestor h' args i <-> ancestor h args i.
  Proof.
    intros W E Ha. split.
    - induction 1 as [i Hi|i j Hi IH Hj]; [constructor; auto|]. rewrite (ext_inputs h h') in Hj by (auto; eapply a_size; eauto).
      eapply anc_input; eauto.
    - induction 1 as [i Hi|i j Hi IH Hj]; [constructor; auto|]. eapply anc_input; eauto.
      rewrite (ext_inputs h h') by (auto; eapply a_size; eauto). auto.
  Qed.
  Lemma ext_sources (h h' : heap K) vis args s : wf h vis -> ext h h' -> incl args vis -> sources h args s -> sources h' args s.
  Proof.
    intros W E Ha [S1 S2]. split; auto. intros i. rewrite S2, (ext_anc h h' vis args i W E Ha). split; intros [H1 H2]; split; auto;
      pose proof (ext_inputs h h' i E (a_size h vis args W Ha i H1)) as Ei; congruence.
  Qed.
  Lemma ext_wire (h h' : heap K) srcs : wf0 h -> wf0 h' -> ext h h' -> NoDup srcs -> (forall i, In i srcs -> (i < size h)%nat) ->
    forall i, (i < size h)%nat -> wire h' srcs i = wire h srcs i.
  Proof.
    intros W0 W0' E Hd Hs. assert (Hsz : (size h <= size h')%nat) by apply E.
    enough (G : forall m i, (i < m)%nat -> (i < size h)%nat -> wire h' srcs i = wire h srcs i) by (intros i; apply (G (S i)); auto).
    induction m as [|m IH]; intros i Hm Hi; [lia|]. rewrite !wire_eq by (auto; lia). rewrite (ext_inputs h h' i E Hi), (ext_kind h h' i E Hi).
    destruct (inputs_of h i) as [|a l] eqn:Ei.
    - destruct (in_dec Nat.eq_dec i srcs) as [Hin|Hni].
      + apply in_split in Hin. destruct Hin as (l1 & l2 & El). rewrite (src_wire_eq h srcs l1 i l2 Hd El), (src_wire_eq h' srcs l1 i l2 Hd El).
        rewrite (ext_widths h h' l1 E), (ext_width h h' i E Hi); auto. intros j Hj. apply Hs. rewrite El. apply in_app_iff; auto.
      + assert (G : forall h : heap K, src_wire h srcs i = []).
        { intros h0. unfold src_wire. replace (odict_get (fst (assign_indices h0 srcs)) i) with (@Raise (list Z) KeyError); auto.
          symmetry. unfold assign_indices. assert (G : forall l d m, ~ In i l -> odict_get d i = Raise KeyError ->
            odict_get (fst (fold_left (fun '(d, n) q => (odict_set d q (zrange n (n + nd_n (nd h0 q))), n + nd_n (nd h0 q))) l (d, m))) i = Raise KeyError).
          { induction l as [|x l IHl]; intros d m0 Hni' Hd'; auto. cbn [fold_left]. apply IHl; [intros Hx; apply Hni'; right; auto|].
            rewrite odict_get_set. destruct (Nat.eqb_spec x i); auto. exfalso. apply Hni'. left; auto. }
          apply G; auto. }
        rewrite !G. auto.
    - f_equal. f_equal. apply map_ext_in. intros j Hj. assert (Hji : (j < i)%nat) by (apply (wf_in h W0 i j Hi); rewrite Ei; auto).
      apply IH; lia.
  Qed.

  (** ** the invariant *)
  Definition sess_inv (h : heap K) (vis : list nat) (c : cache K) (l : list (list nat)) : Prop :=
    forall i ms, c i = Some ms -> exists args srcs o d, In args l /\ incl args vis /\ sources h args srcs /\ ancestor h args i /\
      nd_kind (nd h i) = KMat o d /\ op_ms o d (map (wire h srcs) (inputs_of h i)) = Ok ms.

  Lemma session_wf (h : heap K) vis c l : session h vis c l -> wf h vis.
  Proof.
    induction 1 as [|h vis c l x h' ids S W Hr E|h vis c l x h' e S W Hr E|h vis c l ev args feed strict state c' r S W Ha He E].
    - apply built_wf. constructor.
    - destruct (exec_wf h vis x h' (Ok ids) W Hr E) as (_ & _ & H). apply H. auto.
    - destruct (exec_wf h vis x h' (Raise e) W Hr E) as (W0 & X & _). eapply wf_ext; eauto.
    - auto.
  Qed.
  Lemma inv_ext (h h' : heap K) vis vis' c l : wf h vis -> wf0 h' -> ext h h' -> incl vis vis' -> sess_inv h vis c l -> sess_inv h' vis' c l.
  Proof.
    intros W W0' E Hi Inv i ms Hc. destruct (Inv i ms Hc) as (args & srcs & o & d & H1 & H2 & H3 & H4 & H5 & H6).
    pose proof (a_size h vis args W H2 i H4) as Hsz. exists args, srcs, o, d. split; auto. split; [eapply incl_tran; eauto|].
    split; [eapply ext_sources; eauto|]. split; [eapply ext_anc; eauto|]. rewrite (ext_kind h h' i E Hsz), (ext_inputs h h' i E Hsz).
    split; auto. rewrite <- H6. f_equal. apply map_ext_in. intros j Hj. apply (ext_wire h h' srcs (wf_base _ _ W)); auto.
    - apply sorted_lt_NoDup, H3.
    - intros k Hk. apply (proj2 H3) in Hk. eapply a_size; eauto. apply Hk.
    - pose proof (wf_in h (wf_base _ _ W) i j Hsz Hj). lia.
  Qed.
  Lemma conds_ext (h h' : heap K) vis vis' : wf h vis -> ext h h' -> incl vis vis' -> splits_in_range h' vis' -> no_swap_dagger h' vis' ->
    splits_in_range h vis /\ no_swap_dagger h vis.
  Proof.
    intros W E Hi Hs Hd. split.
    - intros i idx k Hv Hk Hx. pose proof (wf_vis _ _ W i Hv) as Hsz. rewrite <- (ext_inputs h h' i E Hsz).
      rewrite <- (ext_widths h h').
      + apply (Hs i idx k); auto. rewrite (ext_kind h h'); auto.
      + auto.
      + intros j Hj. rewrite (ext_inputs h h' i E Hsz) in Hj. pose proof (wf_in h (wf_base _ _ W) i j Hsz Hj). lia.
    - intros i o Hv Hk. pose proof (wf_vis _ _ W i Hv) as Hsz. apply (Hd i o); auto. rewrite (ext_kind h h'); auto.
  Qed.

  Lemma session_inv (h : heap K) vis c l : session h vis c l -> splits_in_range h vis -> no_swap_dagger h vis -> sess_inv h vis c l.
  Proof.
    induction 1 as [|h vis c l x h' ids S IH Hr E|h vis c l x h' e S IH Hr E|h vis c l ev args feed strict state c' r S IH Ha He E]; intros Hs Hd.
    - intros i ms Hc. discriminate.
    - pose proof (session_wf _ _ _ _ S) as W. destruct (exec_wf h vis x h' (Ok ids) W Hr E) as (W0 & X & _).
      destruct (conds_ext h h' vis (vis ++ ids) W X) as [Hs' Hd']; auto. { intros i Hi. apply in_app_iff; auto. }
      eapply inv_ext; eauto. intros i Hi. apply in_app_iff; auto.
    - pose proof (session_wf _ _ _ _ S) as W. destruct (exec_wf h vis x h' (Raise e) W Hr E) as (W0 & X & _).
      destruct (conds_ext h h' vis vis W X) as [Hs' Hd']; auto. { apply incl_refl. }
      eapply inv_ext; eauto. apply incl_refl.
    - pose proof (session_wf _ _ _ _ S) as W. specialize (IH Hs Hd).
      destruct (sources_exists h vis args W Ha) as (srcs & Hsrc). destruct (ord_exists h vis args W Ha) as (ord & Ho & Hoi).
      pose proof (run_cache h vis args srcs W Ha (splits_anc h vis args W Ha Hs) Hsrc Hd ord Ho Hoi ev c feed strict state He) as St.
      rewrite E in St. cbn [fst] in St. intros i ms Hc. destruct (St i) as [Ei|(Hi & o & d & ms' & Hk & Hm & Ei)].
      + rewrite Ei in Hc. destruct (IH i ms Hc) as (args' & srcs' & o & d & H1 & H2). exists args', srcs', o, d. split; [right; auto|auto].
      + rewrite Ei in Hc. inversion Hc; subst. exists args, srcs, o, d. split; [left; auto|]. auto.
  Qed.

  Lemma session_cache_valid (h : heap K) vis c l args srcs : session h vis c l -> splits_in_range h vis -> no_swap_dagger h vis ->
    incl args vis -> sources h args srcs -> (forall args', In args' l -> same_qubits h args args') -> cache_valid h args srcs c.
  Proof.
    intros S Hs Hd Ha Hsrc Hsame i o d ms Hi Hk Hc. pose proof (session_wf _ _ _ _ S) as W.
    destruct (session_inv h vis c l S Hs Hd i ms Hc) as (args' & srcs' & o' & d' & H1 & H2 & H3 & H4 & H5 & H6).
    rewrite Hk in H5. inversion H5; subst o' d'.
    rewrite (Hsame args' H1 srcs srcs' i o d (map (wire h srcs) (inputs_of h i)) (map (wire h srcs') (inputs_of h i))); auto.
    - apply (a_inputs h vis args srcs W Ha (splits_anc h vis args W Ha Hs) Hsrc i Hi).
    - apply (a_inputs h vis args' srcs' W H2 (splits_anc h vis args' W H2 Hs) H3 i H4).
  Qed.
  Lemma session_reuse (h : heap K) vis c l args : session h vis c l -> splits_in_range h vis -> no_swap_dagger h vis ->
    incl args vis -> (forall args', In args' l -> same_qubits h args args') ->
    forall ev feed strict state, enum_ok ev ->
      snd (run ev c h args feed strict state) = snd (run ev cache0 h args feed strict state).
  Proof.
    intros S Hs Hd Ha Hsame ev feed strict state He. pose proof (session_wf _ _ _ _ S) as W.
    destruct (sources_exists h vis args W Ha) as (srcs & Hsrc). destruct (ord_exists h vis args W Ha) as (ord & Ho & Hoi).
    eapply run_sim; eauto.
    - eapply splits_anc; eauto.
    - eapply session_cache_valid; eauto.
    - apply cache0_valid.
  Qed.
  Lemma same_qubits_refl (h : heap K) vis args : wf h vis -> incl args vis -> splits_in_range h vis -> same_qubits h args args.
  Proof.
    intros W Ha Hs srcs srcs' i o d gs gs' S1 S2 A1 A2 Hk F1 F2. rewrite <- (sources_unique h args srcs srcs' S1 S2) in *.
    pose proof (splits_anc h vis args W Ha Hs) as Hsp.
    rewrite (wires_inputs_fun h vis args srcs W Ha Hsp S1 i gs A1 F1), (wires_inputs_fun h vis args srcs W Ha Hsp S1 i gs' A1 F2). auto.
  Qed.
End Sessions.
