(** The same circuit built in another order: outcomes that are possible in one order are possible in the other. *)
From Coq Require Import Sorted.
From Verif Require Import Base S_Bits L_Bits M_Kron S_Kron M_Ops S_Ops M_Feed S_Feed M_Func S_Func L_Func2
  M_Measure S_Measure L_Measure1 L_Measure2 L_Measure4 L_Measure5 L_Measure6 L_Alg M_Graph S_Graph L_Graph1 L_Graph2 L_Graph3 L_Graph4 L_Graph5 L_Graph7 L_Graph8 L_Graph10 L_Graph11
  S_Born L_Born L_Grow1 L_Context3 S_Order L_Order1 L_Order2 L_Order3 L_Order4 L_Order5 L_Order6.

Section Possible.
  Context {K : Type} {OK : OrdRing K}.
  Notation C := (Cx K).
  Add Ring KRing8 : (@rth K _).
  Add Ring CRing8 : (@rth (Cx K) _).
  Implicit Types h : heap K.

  (** a node that was executed on some amplitudes can be executed on others *)
  Lemma node_sem_exists rsqrt rsqrt' n groups (v v' u : Z -> C) k cv : 0 <= n -> (busy k = true -> qubits_ok n (concat groups)) ->
    node_sem rsqrt n groups v v' k cv -> (k = KMeasure -> marginal n (measured_order n (concat groups)) u (seen cv) <> 0%r) ->
    exists u' cu, node_sem rsqrt' n groups u u' k cu /\ seen cu = seen cv.
  Proof.
    intros Hn Hq S Hm. destruct S as [Hv|l Hv|o Hv|o Hv|func g reg1 reg2 Eg Hf Hv|m p Hm1 Hp Hp0 Hv|ps Hv Hps|t l Hv Ht Pl Hd].
    - exists u, CZero. split; auto. constructor. auto.
    - exists u, CZero. split; auto. constructor. auto.
    - exists (op_acts n o groups u), CZero. split; auto. constructor. auto.
    - exists (op_acts n (op_adj o) groups u), CZero. split; auto. constructor. auto.
    - subst groups. specialize (Hq eq_refl). cbn [concat] in Hq. rewrite app_nil_r in Hq.
      exists (fun r => u (fxor n reg1 reg2 g r)), CZero. split; auto. apply (sem_f rsqrt' n _ u _ func g reg1 reg2); auto.
      intros x Hx. rewrite fxor_invol by auto. reflexivity.
    - set (p2 := marginal n (measured_order n (concat groups)) u m).
      exists (collapsed n (concat groups) m (rsqrt' p2) u), (CMeas m p2). split; [|reflexivity]. apply sem_measure; auto.
    - exists u. eexists. split; [apply sem_probs; auto|reflexivity].
    - set (l2 := sort_desc (map (fun m => (m, marginal n (measured_order n (concat groups)) u m)) (zrange 0 (2 ^ zlen (concat groups))))).
      exists u, (CProbs (inr (map fst l2, map snd l2))). split; auto. apply sem_top; auto; [apply sort_desc_perm|apply sort_desc_sorted].
  Qed.

  Section Nodes.
    Variables (h : heap K) (vis args : list nat) (srcs : list nat).
    Hypothesis W : wf h vis.
    Hypothesis Hargs : incl args vis.
    Hypothesis Hsplit : forall i idx k, ancestor h args i -> nd_kind (nd h i) = KSplit idx -> inputs_of h i <> [] ->
      In k idx -> 0 <= k < widths h (inputs_of h i).
    Hypothesis Hsrcs : sources h args srcs.
    Notation w := (wire h srcs).
    Notation n := (widths h srcs).
    Hypothesis Hok : circuit_ok h args srcs n.
    Hypothesis Hg : gates_exact h args.
    Variable ev : env K.
    Hypothesis Hd : draws_ok ev.
    Hypothesis Hn : 0 <= n.
    Variable z : nat -> Z.
    (** [i] was executed somewhere, with outcome [z i] *)
    Definition witness (i : nat) : Prop := ancestor h args i /\ exists rsqrt v v' cv, node_sem rsqrt n (map w (inputs_of h i)) v v' (nd_kind (nd h i)) cv /\ seen cv = z i.

    Lemma meas_factor i (v : Z -> C) : ancestor h args i -> nd_kind (nd h i) = KMeasure -> 0 <= z i < 2 ^ zlen (concat (map w (inputs_of h i))) ->
      norm_of n (step_act h srcs z i v) = marginal n (measured_order n (concat (map w (inputs_of h i)))) v (z i) /\
      rle (marginal n (measured_order n (concat (map w (inputs_of h i)))) v (z i)) (norm_of n v).
    Proof.
      intros Hi Ek Hz. destruct (a_qubits_ok h vis args srcs W Hargs Hsplit Hsrcs Hok i Hi) as [Hq _]; [congruence|intros l; congruence|].
      set (gs := concat (map w (inputs_of h i))) in *.
      assert (Hmo : 0 <= z i < 2 ^ zlen (measured_order n gs)) by (rewrite (zlen_mo n gs Hq); auto).
      split.
      - transitivity (norm_of n (collapsed n gs (z i) 1%r v)).
        + apply norm_ext. intros r Hr. unfold step_act. rewrite Ek. cbn [act]. fold gs. unfold collapsed, proj_on. rewrite creal_1. destruct (_ =? _); ring.
        + rewrite collapsed_norm by auto. ring.
      - eapply rle_trans; [|apply (below_le n (measured_order n gs) v (z i + 1)); lia]. rewrite below_succ by lia.
        match goal with |- rle ?x _ => replace x with (0 + x)%r at 1 by ring end. apply rle_add_r. unfold below. apply sum_nonneg. intros x _. apply marginal_nonneg.
    Qed.
    Lemma witness_range i : witness i -> nd_kind (nd h i) = KMeasure -> 0 <= z i < 2 ^ zlen (concat (map w (inputs_of h i))).
    Proof. intros (Hi & r & v & v' & cv & S & E) Ek. rewrite Ek in S. inversion S; subst. cbn [seen] in E. congruence. Qed.
    Lemma factor_other rsqrt (v v' : Z -> C) gs k cv : k <> KMeasure -> node_sem rsqrt n gs v v' k cv -> factor rsqrt cv = 1%r.
    Proof. intros Hk S. destruct S; try reflexivity. congruence. Qed.
    Lemma step_norm_le i (v : Z -> C) : witness i -> rle (norm_of n (step_act h srcs z i v)) (norm_of n v).
    Proof.
      intros Wi. pose proof Wi as (Hi & r & v1 & v1' & cv & S & E).
      assert (D : nd_kind (nd h i) = KMeasure \/ nd_kind (nd h i) <> KMeasure) by (destruct (nd_kind (nd h i)); auto; right; discriminate).
      destruct D as [Ek|Ek].
      - destruct (meas_factor i v Hi Ek (witness_range i Wi Ek)) as (-> & H). exact H.
      - destruct (node_sem_exists r (e_rsqrt ev) n _ v1 v1' v _ cv Hn (busy_ok h vis args srcs W Hargs Hsplit Hsrcs Hok i Hi) S ltac:(congruence)) as (u' & cu & Su & Eu).
        rewrite <- (sem_norm h vis args srcs W Hargs Hsplit Hsrcs ev Hok Hg i v u' cu Hi Ek Su).
        rewrite (norm_ext n (step_act h srcs z i v) u'); [apply rle_refl|]. intros x Hx.
        rewrite (node_act (e_rsqrt ev) n _ v u' _ cu Hn (busy_ok h vis args srcs W Hargs Hsplit Hsrcs Hok i Hi) Su x Hx).
        rewrite (factor_other _ _ _ _ _ _ Ek Su), Eu, E, creal_1. unfold step_act. ring.
    Qed.
    Lemma run_norm_le L : forall v : Z -> C, (forall i, In i L -> witness i) -> rle (norm_of n (run_acts h srcs z L v)) (norm_of n v).
    Proof.
      induction L as [|i L IH]; intros v Hl; [apply rle_refl|]. cbn [run_acts fold_left]. fold (run_acts h srcs z L (step_act h srcs z i v)).
      eapply rle_trans; [apply IH; intros; apply Hl; right; auto|]. apply step_norm_le. apply Hl. left. auto.
    Qed.
    Lemma norm_nonneg (v : Z -> C) : rle 0%r (norm_of n v).
    Proof. unfold norm_of. apply sum_nonneg. intros x _. apply cnorm2_nonneg. Qed.

    Lemma evolution_exists L : forall v : Z -> C, (forall i, In i L -> witness i) -> NoDup L -> norm_of n v = 1%r -> norm_of n (run_acts h srcs z L v) <> 0%r ->
      exists o u, evolves (e_rsqrt ev) h srcs n (map (fun i => (i, o i)) L) v u /\ forall i, In i L -> seen (o i) = z i.
    Proof.
      induction L as [|i L IH]; intros v Hl Hnd Hv Hp.
      - exists (fun _ => CZero), v. split; [constructor; auto|intros i []].
      - pose proof (Hl i (or_introl eq_refl)) as Wi. pose proof Wi as (Hi & r & v1 & v1' & cv & S & E). inversion Hnd as [|? ? Hni Hnd']; subst.
        cbn [run_acts fold_left] in Hp. fold (run_acts h srcs z L (step_act h srcs z i v)) in Hp. set (a := step_act h srcs z i v) in *.
        pose proof (busy_ok h vis args srcs W Hargs Hsplit Hsrcs Hok i Hi) as Hb.
        assert (HlL : forall j, In j L -> witness j) by (intros; apply Hl; right; auto).
        assert (HaL : forall j, In j L -> ancestor h args j) by (intros j Hj; apply HlL; auto).
        assert (D : nd_kind (nd h i) = KMeasure \/ nd_kind (nd h i) <> KMeasure) by (destruct (nd_kind (nd h i)); auto; right; discriminate).
        assert (Hm : nd_kind (nd h i) = KMeasure -> marginal n (measured_order n (concat (map w (inputs_of h i)))) v (seen cv) <> 0%r).
        { intros Ek E0. rewrite E in E0. destruct (meas_factor i v Hi Ek (witness_range i Wi Ek)) as (Ea & _). fold a in Ea. rewrite E0 in Ea.
          apply Hp. apply rle_antisym; [|apply norm_nonneg]. rewrite <- Ea. apply run_norm_le. auto. }
        destruct (node_sem_exists r (e_rsqrt ev) n _ v1 v1' v _ cv Hn Hb S Hm) as (u1 & cu & Su & Eu). rewrite E in Eu.
        pose proof (node_act (e_rsqrt ev) n _ v u1 _ cu Hn Hb Su) as Ea. rewrite Eu in Ea. fold (step_act h srcs z i) in Ea. fold a in Ea.
        set (s := factor (e_rsqrt ev) cu) in *.
        assert (Hu : norm_of n u1 = 1%r /\ exists q, (s * s * q = 1)%r).
        { destruct D as [Ek|Ek].
          - rewrite Ek in Su. inversion Su as [| | | | |m p Hm1 Hp1 Hp0 Hv1| |]; subst cu. rewrite Hp1 in Hp0.
            destruct (meas_norm h vis args srcs W Hargs Hsplit Hsrcs ev Hok Hd i v u1 m p Hi Ek Hv Su) as (Q1 & Q2 & Q3 & Q4). split; auto.
            exists p. unfold s. cbn [factor]. destruct Hd as (_ & _ & Hrs). apply Hrs; auto. rewrite Hp1, <- Hv. cbn [seen] in Eu. subst m.
            apply (meas_factor i v Hi Ek). auto.
          - split; [rewrite (sem_norm h vis args srcs W Hargs Hsplit Hsrcs ev Hok Hg i v u1 cu Hi Ek Su); auto|].
            exists 1%r. unfold s. rewrite (factor_other _ _ _ _ _ _ Ek Su). ring. }
        destruct Hu as (Hu & q & Hq).
        destruct (IH u1 HlL Hnd' Hu) as (o & u & Ev & Ho).
        { intros E0. apply Hp.
          assert (E1 : norm_of n (run_acts h srcs z L u1) = (s * s * norm_of n (run_acts h srcs z L a))%r).
          { rewrite <- norm_scaled. apply norm_ext. intros x Hx. rewrite (run_eqn h vis args srcs W Hargs Hsplit Hsrcs Hok z L u1 _ HaL Ea x Hx).
            apply (run_scale h vis args srcs W Hargs Hsplit Hsrcs Hok z L (creal s) a HaL x Hx). }
          rewrite E1 in E0. transitivity ((s * s * norm_of n (run_acts h srcs z L a)) * q)%r; [|rewrite E0; ring].
          transitivity ((s * s * q) * norm_of n (run_acts h srcs z L a))%r; [rewrite Hq; ring|ring]. }
        exists (fun j => if Nat.eqb j i then cu else o j), u. split.
        + cbn [map]. rewrite Nat.eqb_refl. eapply (evolves_step h vis args srcs W Hargs Hsplit Hsrcs (e_rsqrt ev)); eauto.
          erewrite map_ext_in; [exact Ev|]. intros j Hj. cbn beta. destruct (Nat.eqb_spec j i); auto. subst. contradiction.
        + intros j [<-|Hj]; [rewrite Nat.eqb_refl; auto|]. destruct (Nat.eqb_spec j i); [subst; contradiction|auto].
    Qed.
  End Nodes.

  Lemma evolves_iso_inv h vis args srcs h' vis' args' srcs' f : wf h vis -> incl args vis ->
    (forall i idx k, ancestor h args i -> nd_kind (nd h i) = KSplit idx -> inputs_of h i <> [] -> In k idx -> 0 <= k < widths h (inputs_of h i)) ->
    sources h args srcs -> wf h' vis' -> incl args' vis' ->
    (forall i idx k, ancestor h' args' i -> nd_kind (nd h' i) = KSplit idx -> inputs_of h' i <> [] -> In k idx -> 0 <= k < widths h' (inputs_of h' i)) ->
    sources h' args' srcs' -> same_circuit h args srcs h' args' srcs' f ->
    forall rsqrt n (o : nat -> cval K) l v u, (forall i, In i l -> ancestor h args i) ->
    evolves rsqrt h srcs n (map (fun i => (i, o i)) l) v u -> evolves rsqrt h' srcs' n (map (fun i => (f i, o i)) l) v u.
  Proof.
    intros W Ha Hsp Hsrc W' Ha' Hsp' Hsrc' Hsame rsqrt n o l. induction l as [|i l IH]; intros v u Hl E; cbn [map] in *.
    - inversion E; subst. constructor. auto.
    - assert (Hi : ancestor h args i) by (apply Hl; left; auto). pose proof (iso_anc h args srcs h' args' srcs' f Hsame i Hi) as Hi'.
      inversion E as [|i0 cv0 l0 groups v0 v1 u0 HF S E1]; subst.
      rewrite (wires_inputs_fun h vis args srcs W Ha Hsp Hsrc i groups Hi HF) in S.
      apply (evolves_cons rsqrt h' srcs' n (f i) (o i) _ (map (wire h' srcs') (inputs_of h' (f i))) v v1 u).
      + apply (a_inputs h' vis' args' srcs' W' Ha' Hsp' Hsrc'); auto.
      + rewrite (iso_groups h vis args srcs h' vis' args' srcs' f W Ha Hsrc W' Ha' Hsrc' Hsame i Hi).
        destruct Hsame as (_ & _ & _ & Hn). destruct (Hn i Hi) as (Ek & _). rewrite Ek. exact S.
      + apply IH; auto. intros; apply Hl; right; auto.
  Qed.

  Lemma order_possible : forall h vis c l args srcs h' vis' c' l' args' srcs' f, twins h vis c l args srcs h' vis' c' l' args' srcs' f ->
    let n := widths h srcs in circuit_ok h args srcs n ->
    forall ev feed strict state init ev' feed' strict' state' init', starts h srcs n ev feed state init -> starts h' srcs' n ev' feed' state' init' ->
    (forall x, 0 <= x < 2 ^ n -> fed_amp n init x = fed_amp n init' x) ->
    forall d st cm, run ev c h args feed strict state = (d, Ok (st, cm)) ->
    gates_exact h args -> (forall g v, In (g, v) init -> total v = 1%r) -> (forall g v, In (g, v) init' -> total v = 1%r) ->
    draws_ok ev -> (forall p, rle 0%r (e_rsqrt ev p)) -> draws_ok ev' -> (forall p, rle 0%r (e_rsqrt ev' p)) ->
    (strict' = true -> incl srcs' (fed_nodes feed')) ->
    exists u d' cm', draws_ok (with_draws ev' u) /\ run (with_draws ev' u) c' h' args' feed' strict' state' = (d', Ok (st, cm')) /\
      (forall i m p, reports cm i m p -> exists p', reports cm' (f i) m p') /\ likelihood cm = likelihood cm'.
  Proof.
    intros h vis c l args srcs h' vis' c' l' args' srcs' f T n Hok ev feed strict state init ev' feed' strict' state' init' St St' Hin d st cm R Hg Ht Ht' D P D' P' Hst.
    pose proof T as ((S & Hs & Hd & Ha & Hq & Hsrc) & (S' & Hs' & Hd' & Ha' & Hq' & Hsrc') & Hsame & Honce).
    pose proof St as (A1 & A2 & A3). pose proof St' as (B1 & B2 & B3).
    pose proof (session_wf _ _ _ _ S) as W. pose proof (session_wf _ _ _ _ S') as W'.
    pose proof (splits_anc h vis args W Ha Hs) as Hsp. pose proof (splits_anc h' vis' args' W' Ha' Hs') as Hsp'.
    assert (Hn : 0 <= n) by (eapply n_nonneg; eauto). assert (En : widths h' srcs' = n) by (eapply iso_n; eauto).
    assert (Hok' : circuit_ok h' args' srcs' n) by (eapply (iso_ok h vis args srcs h' vis' args' srcs' f); eauto).
    assert (Hg' : gates_exact h' args').
    { intros j o dd Hj Ek. destruct (iso_anc_inv h args srcs h' args' srcs' f Hsame j Hj) as (i & Hi & ->).
      apply (Hg i o dd Hi). destruct Hsame as (_ & _ & _ & HN). destruct (HN i Hi) as (E & _). congruence. }
    destruct (run_top h vis c l args srcs S Hs Hd Ha Hq Hsrc Hok ev feed strict state init A1 A2 A3) as (RT & _ & _).
    destruct (RT d st cm R) as (Z1 & So & An & Ev). set (v := amp (map (fed_amp n init) (zrange 0 (2 ^ n)))) in *.
    destruct (ord_exists h' vis' args' W' Ha') as (ord' & Ho' & Hoi').
    destruct (iso_order h args srcs h' args' srcs' f Hsame (map fst cm) ord' So An Ho' Hoi') as (L2 & E2 & Pm & Sf & Anc2).
    destruct (assoc_fun (CZero (K := K)) cm (sorted_lt_NoDup _ So)) as (o & Eo). set (L := map fst cm) in *.
    assert (F : forall q : nat -> cval K, forall LL : list nat, map fst (map (fun i => (i, q i)) LL) = LL) by (intros; rewrite map_map; apply map_id).
    assert (Nv : norm_of n v = 1%r) by exact (init_norm h vis args srcs W Ha Hsrc feed state init A3 Ht).
    set (z := fun i => seen (o i)). rewrite Eo in Ev.
    assert (AL : forall i, In i (map fst (map (fun i => (i, o i)) L)) -> ancestor h args i) by (rewrite F; intros i Hi; apply An; auto).
    destruct (measured_norm h vis args srcs W Ha Hsp Hsrc Hok Hg ev D P _ _ _ Ev AL Nv) as (N1 & F1 & Q1).
    assert (M1 : forall i cv, In (i, cv) (map (fun i => (i, o i)) L) -> nd_kind (nd h i) = KMeasure -> z i = seen cv).
    { intros i cv Hi _. apply in_map_iff in Hi. destruct Hi as (j & Ej & Hj). injection Ej as <- <-. reflexivity. }
    pose proof (evolves_acts h vis args srcs W Ha Hsp Hsrc Hok (e_rsqrt ev) z _ _ _ Ev AL M1) as X1. rewrite F in X1.
    set (s := total_factor (e_rsqrt ev) _) in *.
    assert (Hkey : forall a b, ancestor h args b -> In a (inputs_of h b) -> (f a < f b)%nat) by (intros a b Hb Hab; eapply (iso_key h args srcs h' vis' args' srcs' f); eauto).
    assert (X2 : eqn n (run_acts h srcs z L v) (run_acts h srcs z L2 v)).
    { apply (run_acts_order h vis args srcs W Ha Hsp Hsrc Hok Honce z f L L2); auto. intros i Hi. apply An. auto. }
    assert (NZ : norm_of n (run_acts h srcs z L2 v) <> 0%r).
    { intros E0. assert (E1 : norm_of n (amp st) = (s * s * norm_of n (run_acts h srcs z L2 v))%r).
      { rewrite (norm_ext n _ _ X1), norm_scaled. f_equal. symmetry. apply norm_ext. intros x Hx. symmetry. apply X2; auto. }
      fold n in N1. rewrite E0, N1 in E1. apply (rO_neq_rI (K := K)). rewrite E1. ring. }
    assert (Wit : forall i, In i L2 -> witness h args srcs z i).
    { intros i Hi. split; auto. assert (HiL : In i L) by (eapply Permutation_in; [apply Permutation_sym, Pm|]; auto).
      assert (G : forall LL v0 u0, evolves (e_rsqrt ev) h srcs n (map (fun i => (i, o i)) LL) v0 u0 -> In i LL ->
        exists v1 v1', node_sem (e_rsqrt ev) n (map (wire h srcs) (inputs_of h i)) v1 v1' (nd_kind (nd h i)) (o i)).
      { pose proof (Anc2 i Hi) as Hia. clear - W Ha Hsp Hsrc Hia. induction LL as [|j LL IH]; intros v0 u0 EE Hj; [destruct Hj|]. cbn [map] in EE.
        inversion EE as [|i0 cv0 l0 groups w0 v1 u1 HF S E1]; subst. destruct Hj as [->|Hj]; [|eauto].
        rewrite (wires_inputs_fun h vis args srcs W Ha Hsp Hsrc i groups Hia HF) in S. eauto. }
      destruct (G L _ _ Ev HiL) as (v1 & v1' & SS). exists (e_rsqrt ev), v1, v1', (o i). auto. }
    assert (Nd2 : NoDup L2) by (eapply Permutation_NoDup; [exact Pm|apply sorted_lt_NoDup; auto]).
    destruct (evolution_exists h vis args srcs W Ha Hsp Hsrc Hok Hg ev' D' Hn z L2 v Wit Nd2 Nv NZ) as (o' & u & Ev2 & Hseen).
    pose proof (evolves_iso_inv h vis args srcs h' vis' args' srcs' f W Ha Hsp Hsrc W' Ha' Hsp' Hsrc' Hsame (e_rsqrt ev') n o' L2 v u Anc2 Ev2) as Ev3.
    assert (Ev4 : evolves (e_rsqrt ev') h' srcs' n (map (fun i => (f i, o' i)) L2) (amp (map (fed_amp n init') (zrange 0 (2 ^ n)))) u).
    { replace (map (fed_amp n init') (zrange 0 (2 ^ n))) with (map (fed_amp n init) (zrange 0 (2 ^ n))); [exact Ev3|].
      apply map_ext_in. intros y Hy. apply in_zrange in Hy. apply Hin. lia. }
    assert (F2 : map fst (map (fun i => (f i, o' i)) L2) = ord') by (rewrite map_map, E2; reflexivity).
    subst n. rewrite <- En in Hok', B2, B3, Ev4.
    destruct (run_reaches h' vis' c' l' args' srcs' S' Hs' Hd' Ha' Hq' Hsrc' Hok' Hg' ev' feed' strict' state' init' B1 B2 D' B3 Ht' Hst
      (map (fun i => (f i, o' i)) L2) u Ev4 ltac:(rewrite F2; auto) ltac:(rewrite F2; auto)) as (dr & d' & st' & cm' & Dd & Rr & So').
    assert (Out : forall i m p, reports cm i m p -> exists p', reports cm' (f i) m p').
    { intros i m p Hr. unfold reports in Hr. rewrite Eo in Hr. apply in_map_iff in Hr. destruct Hr as (j & Ej & Hj). injection Ej as -> Eoi.
      assert (HiL2 : In i L2) by (eapply Permutation_in; eauto).
      assert (Ek : nd_kind (nd h i) = KMeasure).
      { destruct (Wit i HiL2) as (Hia & _).
        assert (G : forall LL v0 u0, evolves (e_rsqrt ev) h srcs (widths h srcs) (map (fun i => (i, o i)) LL) v0 u0 -> In i LL -> nd_kind (nd h i) = KMeasure).
        { clear - Eoi. induction LL as [|j LL IH]; intros v0 u0 EE Hj; [destruct Hj|]. cbn [map] in EE. inversion EE as [|i0 cv0 l0 groups w0 v1 u1 HF S E1]; subst.
          destruct Hj as [->|Hj]; [|eauto]. rewrite Eoi in S. inversion S; auto. }
        eapply G; eauto. }
      assert (Em : exists p', o' i = CMeas m p').
      { assert (G : forall LL v0 u0, evolves (e_rsqrt ev') h srcs (widths h srcs) (map (fun i => (i, o' i)) LL) v0 u0 -> In i LL -> exists m p, o' i = CMeas m p).
        { clear - Ek. induction LL as [|j LL IH]; intros v0 u0 EE Hj; [destruct Hj|]. cbn [map] in EE. inversion EE as [|i0 cv0 l0 groups w0 v1 u1 HF S E1]; subst.
          destruct Hj as [->|Hj]; [|eauto]. rewrite Ek in S. inversion S; eauto. }
        destruct (G L2 _ _ Ev2 HiL2) as (m' & p' & E'). exists p'. pose proof (Hseen i HiL2) as Hz. unfold z in Hz. rewrite E', Eoi in Hz. cbn [seen] in Hz. congruence. }
      destruct Em as (p' & Em). exists p'. unfold reports.
      assert (Ek' : nd_kind (nd h' (f i)) = KMeasure) by (destruct Hsame as (_ & _ & _ & HN); destruct (HN i (Anc2 i HiL2)) as (E & _); congruence).
      clear - So' HiL2 Em Ek'. unfold same_outcomes in So'. revert cm' So'. induction L2 as [|j L2 IH]; intros cm' H; [destruct HiL2|]. cbn [map] in H.
      inversion H as [|x [b cb] l1 l2 [Hf Hs] HF]; subst. cbn [fst snd] in Hf, Hs. destruct HiL2 as [->|Hj]; [|right; eauto].
      left. subst b. f_equal. rewrite <- Em. symmetry. apply Hs. auto. }
    rewrite En in B2, B3.
    destruct (order_measured h vis c l args srcs h' vis' c' l' args' srcs' f T Hok ev feed strict state init (with_draws ev' dr) feed' strict' state' init'
      St (conj B1 (conj B2 B3)) Hin d d' st cm st' cm' R Rr Hg Ht D P Dd P' Out) as (Es & El).
    subst st'. exists dr, d', cm'. auto.
  Qed.
End Possible.
