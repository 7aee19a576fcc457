(** Circuits grow: what adding nodes does to the evolution of the state. *)
From Coq Require Import Sorted.
From Verif Require Import Base S_Bits L_Bits M_Kron S_Kron M_Ops S_Ops M_Feed S_Feed M_Func S_Func
  M_Measure S_Measure L_Alg M_Graph S_Graph L_Graph1 L_Graph2 L_Graph3 L_Graph5 L_Graph6 L_Graph7 L_Graph8 L_Graph9 L_Graph10 L_Graph11.

Lemma Forall2_iff_in {A B} (P Q : A -> B -> Prop) l : (forall a b, In a l -> P a b <-> Q a b) -> forall l', Forall2 P l l' <-> Forall2 Q l l'.
Proof.
  induction l as [|a l IH]; intros H l'; split; intros HF; inversion HF; subst; constructor.
  - apply (H a); auto. left; auto.
  - apply IH; auto; intros; apply H; right; auto.
  - apply (H a); auto. left; auto.
  - apply IH; auto; intros; apply H; right; auto.
Qed.
Lemma sorted_app_lt l l' : StronglySorted lt l -> StronglySorted lt l' -> (forall a b, In a l -> In b l' -> (a < b)%nat) -> StronglySorted lt (l ++ l').
Proof.
  induction l as [|a l IH]; cbn; intros H1 H2 H; auto. inversion H1; subst. constructor.
  - apply IH; auto; intros; apply H; auto; right; auto.
  - apply Forall_app. split; auto. apply Forall_forall. intros; apply H; auto; left; auto.
Qed.
Lemma sorted_app_inv l l' : StronglySorted lt (l ++ l') -> StronglySorted lt l /\ StronglySorted lt l'.
Proof.
  induction l as [|a l IH]; cbn; intros H; [split; auto; constructor|]. inversion H; subst. destruct (IH H2). split; auto.
  constructor; auto. apply Forall_app in H3. tauto.
Qed.

Section Grow.
  Context {K : Type} {OK : OrdRing K}.
  Notation C := (Cx K).
  Implicit Types h : heap K.
  Variable srcs : list nat.

  (** ** what later heaps preserve *)
  Section Ext.
    Variables h h' : heap K.
    Hypothesis W : wf0 h.
    Hypothesis X : ext h h'.
    Hypothesis Hs : forall s, In s srcs -> (s < size h)%nat.

    Lemma wires_ext i : (i < size h)%nat -> forall w, wires h srcs i w <-> wires h' srcs i w.
    Proof.
      enough (G : forall m i, (i < m)%nat -> (i < size h)%nat -> forall w, wires h srcs i w <-> wires h' srcs i w) by (intros; apply (G (S i)); auto).
      clear i. induction m as [|m IH]; intros i Hm Hi w; [lia|].
      assert (E1 : inputs_of h' i = inputs_of h i) by (apply ext_inputs; auto).
      assert (E2 : nd_kind (nd h' i) = nd_kind (nd h i)) by (apply ext_kind; auto).
      assert (HF : forall gs, Forall2 (wires h srcs) (inputs_of h i) gs <-> Forall2 (wires h' srcs) (inputs_of h i) gs).
      { apply Forall2_iff_in. intros a b Ha. apply (wf_in h W) in Ha; auto. apply IH; lia. }
      assert (HS : forall l, srcs = l -> widths h' l = widths h l).
      { intros l <-. apply ext_widths; auto. }
      assert (HS' : forall l j l', srcs = l ++ j :: l' -> widths h' l = widths h l /\ width h' j = width h j).
      { intros l j l' E. split.
        - apply ext_widths; auto. intros x Hx. apply Hs. rewrite E. apply in_app_iff; auto.
        - apply ext_width; auto. apply Hs. rewrite E. apply in_app_iff; right; left; auto. }
      split; intros H; inversion H as [l i' l' E|i' ix gs ws Ek Hne HFi HFx|i' gs Hk Hne HFi]; subst i'.
      - destruct (HS' _ _ _ E) as [<- <-]. apply wires_source with l'. auto.
      - subst ws. apply (wires_split h' srcs i ix gs); auto; try congruence. rewrite E1. apply HF; auto.
      - apply wires_keep; try rewrite E1; try rewrite E2; auto. apply HF; auto.
      - destruct (HS' _ _ _ E) as [-> ->]. apply wires_source with l'. auto.
      - subst ws. apply (wires_split h srcs i ix gs); auto; try congruence. apply HF; rewrite <- E1; auto.
      - apply wires_keep; try rewrite <- E1; try rewrite <- E2; auto. rewrite E1. apply HF; rewrite <- E1; auto.
    Qed.
    Lemma inputs_wires_ext i : (i < size h)%nat -> forall gs, Forall2 (wires h srcs) (inputs_of h i) gs <-> Forall2 (wires h' srcs) (inputs_of h' i) gs.
    Proof.
      intros Hi. rewrite (ext_inputs h h' i X Hi). apply Forall2_iff_in. intros a b Ha. apply wires_ext.
      apply (wf_in h W) in Ha; auto. lia.
    Qed.
    Lemma evolves_ext rs n l : (forall i, In i (map fst l) -> (i < size h)%nat) -> forall v v', evolves rs h srcs n l v v' <-> evolves rs h' srcs n l v v'.
    Proof.
      induction l as [|[i cv] l IH]; intros Hl v v'.
      - split; intros H; inversion H; subst; constructor; auto.
      - assert (Hi : (i < size h)%nat) by (apply Hl; left; auto).
        assert (IH' := IH (fun j Hj => Hl j (or_intror Hj))).
        split; intros H; inversion H as [|i' cv' l' gs w1 w2 w3 Hg Hsem Hev]; subst; econstructor.
        + apply inputs_wires_ext; eauto.
        + rewrite (ext_kind h h' i X Hi). eauto.
        + apply IH'; eauto.
        + apply (inputs_wires_ext i Hi); eauto.
        + rewrite <- (ext_kind h h' i X Hi). eauto.
        + apply IH'; eauto.
    Qed.
    Lemma node_ok_ext n i : (i < size h)%nat -> node_ok h srcs n i <-> node_ok h' srcs n i.
    Proof.
      intros Hi. unfold node_ok. rewrite (ext_kind h h' i X Hi).
      pose proof (inputs_wires_ext i Hi) as HF.
      assert (EW : widths h' (inputs_of h' i) = widths h (inputs_of h i)).
      { rewrite (ext_inputs h h' i X Hi). apply ext_widths; auto. intros j Hj. apply (wf_in h W) in Hj; auto. lia. }
      destruct (nd_kind (nd h i)); try tauto; rewrite ?EW; setoid_rewrite <- HF;
        rewrite (ext_inputs h h' i X Hi); tauto.
    Qed.
  End Ext.

  Definition eqn n (v v' : Z -> C) : Prop := forall r, 0 <= r < 2 ^ n -> v r = v' r.
  Lemma evolves_final rs h n l : forall v v' v'', evolves rs h srcs n l v v' -> eqn n v' v'' -> evolves rs h srcs n l v v''.
  Proof.
    induction l as [|[i cv] l IH]; intros v v' v'' H E; inversion H; subst.
    - constructor. intros r Hr. rewrite <- E by auto. auto.
    - econstructor; eauto.
  Qed.
  Lemma evolves_app rs h n l1 : forall l2 v v1 v2, evolves rs h srcs n l1 v v1 -> (forall u, eqn n u v1 -> evolves rs h srcs n l2 u v2) ->
    evolves rs h srcs n (l1 ++ l2) v v2.
  Proof.
    induction l1 as [|[i cv] l1 IH]; intros l2 v v1 v2 H1 H2; cbn [app]; inversion H1; subst.
    - apply H2. intros r Hr. symmetry. auto.
    - econstructor; eauto.
  Qed.
  Lemma evolves_app_inv rs h n l1 : forall l2 v v2, evolves rs h srcs n (l1 ++ l2) v v2 ->
    exists v1, evolves rs h srcs n l1 v v1 /\ evolves rs h srcs n l2 v1 v2.
  Proof.
    induction l1 as [|[i cv] l1 IH]; intros l2 v v2 H; cbn [app] in H.
    - exists v. split; auto. constructor. auto.
    - inversion H; subst. match goal with HE : evolves _ _ _ _ (l1 ++ l2) _ _ |- _ => destruct (IH _ _ _ HE) as (u & A & B) end.
      exists u. split; auto. econstructor; eauto.
  Qed.

  (** ** circuits *)
  (** a circuit with the objects in use and the qubits each of them stands for *)
  Record circ h (vis : list nat) (lg : list (nat * list Z)) : Prop := mkCirc {
    c_built : built h vis;
    c_incl : incl (map fst lg) vis;
    c_split : splits_in_range h vis;
    c_swap : no_swap_dagger h vis;
    c_src : sources h (map fst lg) srcs;
    c_ok : circuit_ok h (map fst lg) srcs (widths h srcs);
    c_wires : forall q g, In (q, g) lg -> wires h srcs q g }.

  Lemma anc_incl h l l' i : incl l l' -> ancestor h l i -> ancestor h l' i.
  Proof. intros H. induction 1; [apply anc_arg; auto|eapply anc_input; eauto]. Qed.
  Lemma anc_same h l l' i : incl l l' -> incl l' l -> ancestor h l i <-> ancestor h l' i.
  Proof. split; apply anc_incl; auto. Qed.
  Lemma circ_perm h vis lg lg' : Permutation lg lg' -> circ h vis lg -> circ h vis lg'.
  Proof.
    intros P [B I S D Sr O Wi]. assert (P' : Permutation (map fst lg) (map fst lg')) by (apply Permutation_map; auto).
    assert (E : forall i, ancestor h (map fst lg) i <-> ancestor h (map fst lg') i).
    { intros i. apply anc_same; intros x; apply Permutation_in; auto. symmetry; auto. }
    split; auto.
    - intros x Hx. apply I. eapply Permutation_in; [symmetry|]; eauto.
    - destruct Sr as [S1 S2]. split; auto. intros i. rewrite <- E. auto.
    - intros i Hi. apply O. apply E. auto.
    - intros q g Hq. apply Wi. eapply Permutation_in; [symmetry|]; eauto.
  Qed.

  Section Circ.
    Variables (h : heap K) (vis : list nat) (lg : list (nat * list Z)).
    Hypothesis Ci : circ h vis lg.
    Let W : wf h vis := built_wf _ _ (c_built _ _ _ Ci).
    Let Hsp := splits_anc h vis (map fst lg) W (c_incl _ _ _ Ci) (c_split _ _ _ Ci).

    Lemma circ_fun i w1 w2 : ancestor h (map fst lg) i -> wires h srcs i w1 -> wires h srcs i w2 -> w1 = w2.
    Proof.
      intros Hi H1 H2. destruct Ci as [B I S D Sr O Wi].
      rewrite (wires_fun h vis (map fst lg) srcs W I Hsp Sr i w1 Hi H1). symmetry. eapply wires_fun; eauto.
    Qed.
    Lemma circ_size i : ancestor h (map fst lg) i -> (i < size h)%nat.
    Proof. intros Hi. eapply anc_size; eauto. apply Ci. Qed.
    Lemma circ_srcs i : In i srcs -> (i < size h)%nat.
    Proof. intros Hi. apply circ_size. apply (proj2 (c_src _ _ _ Ci)). auto. Qed.
    Lemma circ_len q g : In (q, g) lg -> zlen g = width h q.
    Proof.
      intros Hq. destruct Ci as [B I S D Sr O Wi].
      assert (Hi : ancestor h (map fst lg) q) by (apply anc_arg, in_map_iff; exists (q, g); auto).
      rewrite (wires_fun h vis (map fst lg) srcs W I Hsp Sr q g Hi (Wi _ _ Hq)). eapply a_len; eauto.
    Qed.
    Lemma circ_range q g x : In (q, g) lg -> In x g -> 0 <= x < widths h srcs.
    Proof.
      intros Hq Hx. destruct Ci as [B I S D Sr O Wi].
      assert (Hi : ancestor h (map fst lg) q) by (apply anc_arg, in_map_iff; exists (q, g); auto).
      rewrite (wires_fun h vis (map fst lg) srcs W I Hsp Sr q g Hi (Wi _ _ Hq)) in Hx. eapply w_range; eauto.
    Qed.
    Lemma circ_n : 0 <= widths h srcs.
    Proof. eapply n_nonneg; eauto; apply Ci. Qed.
    Lemma circ_Forall2 ps : incl ps lg -> Forall2 (wires h srcs) (map fst ps) (map snd ps).
    Proof.
      induction ps as [|[q g] ps IH]; cbn [map fst snd]; intros Hi; constructor.
      - apply (c_wires _ _ _ Ci). apply Hi. left; auto.
      - apply IH. intros x Hx. apply Hi. right; auto.
    Qed.
    Lemma circ_F2fun ps : incl ps lg -> forall gs, Forall2 (wires h srcs) (map fst ps) gs -> gs = map snd ps.
    Proof.
      induction ps as [|[q g] ps IH]; cbn [map fst snd]; intros Hi gs HF; inversion HF; subst; auto. f_equal.
      - eapply circ_fun; eauto; [|apply (c_wires _ _ _ Ci); apply Hi; left; auto].
        apply anc_arg, in_map_iff. exists (q, g). split; auto. apply Hi; left; auto.
      - apply IH; auto. intros x Hx. apply Hi. right; auto.
    Qed.
    Lemma circ_widths ps : incl ps lg -> widths h (map fst ps) = zlen (concat (map snd ps)).
    Proof.
      induction ps as [|[q g] ps IH]; cbn [map fst snd concat]; intros Hi; auto. rewrite widths_cons, zlen_app, IH, (circ_len q g); auto.
      - apply Hi; left; auto.
      - intros x Hx. apply Hi; right; auto.
    Qed.
  End Circ.

  (** ** growth *)
  Definition zeros (l : list nat) : list (nat * cval K) := map (fun i => (i, CZero)) l.
  Definition grow h (vis : list nat) (lg : list (nat * list Z)) h' (vis' : list nat) (lg' : list (nat * list Z)) (U : (Z -> C) -> Z -> C) : Prop :=
    circ h' vis' lg' /\ ext h h' /\ incl vis vis' /\ (forall c l, session h vis c l -> session h' vis' c l) /\
    (forall v v', eqn (widths h srcs) v v' -> eqn (widths h srcs) (U v) (U v')) /\
    exists new, StronglySorted lt new /\ (forall i, In i new -> (size h <= i < size h')%nat) /\
      (forall i, ancestor h' (map fst lg') i <-> ancestor h (map fst lg) i \/ In i new) /\
      (forall i, In i new -> inputs_of h' i <> [] /\ nd_kind (nd h' i) <> KMeasure) /\
      forall rs v, evolves rs h' srcs (widths h srcs) (zeros new) v (U v).

  Lemma grow_refl h vis lg : circ h vis lg -> grow h vis lg h vis lg (fun v => v).
  Proof.
    intros Ci. split; auto. split; [apply ext_refl|]. split; [apply incl_refl|]. split; auto. split; auto.
    exists []. split; [constructor|]. split; [intros i []|]. split; [cbn; tauto|]. split; [intros i []|]. intros rs v. constructor. auto.
  Qed.
  Lemma grow_perm h vis lg h' vis' lg' U lg1 lg1' : Permutation lg lg1 -> Permutation lg' lg1' ->
    grow h vis lg h' vis' lg' U -> grow h vis lg1 h' vis' lg1' U.
  Proof.
    intros P P' (Ci & X & I & S & E & new & N1 & N2 & N3 & N4 & N5). split; [eapply circ_perm; eauto|]. repeat (split; [assumption|]).
    exists new. repeat (split; [assumption|]). split; [|auto]. intros i.
    rewrite (anc_same h' (map fst lg1') (map fst lg')), N3, (anc_same h (map fst lg) (map fst lg1)); [tauto|..];
      intros x; apply Permutation_in, Permutation_map; auto; symmetry; auto.
  Qed.
  Lemma grow_circ h vis lg h' vis' lg' U : grow h vis lg h' vis' lg' U -> circ h' vis' lg'.
  Proof. intros H. apply H. Qed.
  Lemma grow_widths h vis lg h' vis' lg' U : circ h vis lg -> grow h vis lg h' vis' lg' U -> widths h' srcs = widths h srcs.
  Proof. intros Ci (_ & X & _). apply ext_widths; auto. intros i. apply (circ_srcs _ _ _ Ci). Qed.
  Lemma grow_ext h vis lg h' vis' lg' U U' : grow h vis lg h' vis' lg' U -> (forall v, eqn (widths h srcs) (U v) (U' v)) ->
    grow h vis lg h' vis' lg' U'.
  Proof.
    intros (Ci & X & I & S & E & new & N1 & N2 & N3 & N4 & N5) HU. repeat (split; [assumption|]). split.
    - intros v v' Hv r Hr. rewrite <- !HU by auto. apply E; auto.
    - exists new. repeat (split; [assumption|]). intros rs v. eapply evolves_final; eauto.
  Qed.
  Lemma grow_trans h1 vis1 lg1 h2 vis2 lg2 h3 vis3 lg3 U V : circ h1 vis1 lg1 ->
    grow h1 vis1 lg1 h2 vis2 lg2 U -> grow h2 vis2 lg2 h3 vis3 lg3 V -> grow h1 vis1 lg1 h3 vis3 lg3 (fun v => V (U v)).
  Proof.
    intros Ci G1 G2. pose proof (grow_widths _ _ _ _ _ _ _ Ci G1) as EW. pose proof (grow_circ _ _ _ _ _ _ _ G1) as C2.
    destruct G1 as (_ & X1 & I1 & S1 & E1 & n1 & N1 & N2 & N3 & N4 & N5).
    destruct G2 as (C3 & X2 & I2 & S2 & E2 & n2 & M1 & M2 & M3 & M4 & M5). rewrite EW in *.
    assert (W2 : wf0 h2) by (apply (built_wf _ _ (c_built _ _ _ C2))).
    split; auto. split; [eapply ext_trans; eauto|]. split; [eapply incl_tran; eauto|]. split; auto. split; [auto|].
    exists (n1 ++ n2). split.
    { apply sorted_app_lt; auto. intros a b Ha Hb. apply N2 in Ha. apply M2 in Hb. lia. }
    split. { intros i Hi. apply in_app_iff in Hi. destruct X1, X2. destruct Hi as [Hi|Hi]; [apply N2 in Hi|apply M2 in Hi]; lia. }
    split. { intros i. rewrite M3, N3, in_app_iff. tauto. }
    split.
    { intros i Hi. apply in_app_iff in Hi. destruct Hi as [Hi|Hi]; auto. destruct (N4 i Hi). apply N2 in Hi.
      rewrite (ext_inputs h2 h3), (ext_kind h2 h3); auto; lia. }
    intros rs v. unfold zeros. rewrite map_app. eapply (evolves_app rs h3 _ _ _ v (U v)).
    - apply (evolves_ext h2 h3 W2 X2); auto.
      + intros s Hs. apply (circ_srcs _ _ _ C2); auto.
      + intros i Hi. rewrite map_map, map_id in Hi. apply N2 in Hi. lia.
    - intros u Hu. eapply evolves_final; [apply M5|]. auto.
  Qed.
End Grow.
