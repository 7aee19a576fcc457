(** The same circuit built in another order: reports without measurements. *)
From Coq Require Import Sorted.
From Verif Require Import Base S_Bits L_Bits M_Kron S_Kron M_Ops S_Ops M_Feed S_Feed M_Func S_Func L_Func2
  M_Measure S_Measure L_Alg M_Graph S_Graph L_Graph1 L_Graph2 L_Graph3 L_Graph4 L_Graph5 L_Graph7 L_Graph10 L_Grow1 L_Context3
  S_Born S_Signal L_Signal S_Order L_Order1 L_Order2 L_Order3.

Lemma assoc_fun {V} (d : V) : forall l : list (nat * V), NoDup (map fst l) -> exists o, l = map (fun i => (i, o i)) (map fst l).
Proof.
  induction l as [|[i x] l IH]; cbn [map fst]; intros H.
  - exists (fun _ => d). auto.
  - inversion H as [|? ? Hi Hl]; subst. destruct (IH Hl) as (o & E). exists (fun j => if Nat.eqb j i then x else o j). rewrite Nat.eqb_refl. f_equal.
    rewrite E at 1. apply map_ext_in. intros j Hj. destruct (Nat.eqb_spec j i) as [->|]; [contradiction|reflexivity].
Qed.

Section Reports.
  Context {K : Type} {OK : OrdRing K}.
  Notation C := (Cx K).
  Add Ring CRingO5 : (@rth C _).

  Lemma decreasing_perm : forall l l' : list K, decreasing l -> decreasing l' -> Permutation l l' -> l = l'.
  Proof.
    induction l as [|a l IH]; intros [|b l'] H1 H2 HP; auto.
    - apply Permutation_nil in HP. discriminate.
    - apply Permutation_sym, Permutation_nil in HP. discriminate.
    - cbn [decreasing] in H1, H2. destruct H1 as [A1 A2], H2 as [B1 B2].
      assert (E : a = b).
      { assert (Ha : In a (b :: l')) by (eapply Permutation_in; [exact HP|left; auto]).
        assert (Hb : In b (a :: l)) by (eapply Permutation_in; [apply Permutation_sym; exact HP|left; auto]).
        destruct Ha as [->|Ha]; auto. destruct Hb as [->|Hb]; auto. apply rleb_antisym; [apply B1|apply A1]; auto. }
      subst b. f_equal. apply IH; auto. apply Permutation_cons_inv in HP. auto.
  Qed.
  Lemma combine_fst_snd {X Y} : forall l : list (X * Y), combine (map fst l) (map snd l) = l.
  Proof. induction l as [|[x y] l IH]; cbn; auto. rewrite IH. auto. Qed.

  (** the report depends on the amplitudes through the probabilities of the node's qubits only *)
  Lemma node_sem_build rsqrt n groups (v v' u u' : Z -> C) k cv : 0 <= n -> k <> KMeasure -> (busy k = true -> qubits_ok n (concat groups)) ->
    node_sem rsqrt n groups v v' k cv -> eqn n u' (act n k groups 0 u) ->
    (forall t, k = KStoch t -> forall g m, incl g (concat groups) -> marginal n g u m = marginal n g v m) -> node_sem rsqrt n groups u u' k cv.
  Proof.
    intros Hn Hk Hq H Hu Hm. destruct H as [Hv|l Hv|o Hv|o Hv|func g reg1 reg2 Eg Hf Hv|m p Hm1 Hp Hp0 Hv|ps Hv Hps|t l Hv Ht Pl Hd]; cbn [act] in Hu;
      try (constructor; auto; fail).
    - subst groups. apply (sem_f rsqrt n _ u u' func g reg1 reg2); auto. specialize (Hq eq_refl). cbn [concat] in Hq. rewrite app_nil_r in Hq.
      intros x Hx. rewrite Hu by (apply fxor_range; auto). rewrite <- (fxor_invol n reg1 reg2 g x) at 2 by auto. f_equal.
      unfold fxor at 1 3. f_equal. f_equal. f_equal. rewrite (Hf _ (reg_range n reg1 _)). reflexivity.
    - congruence.
    - constructor; auto. rewrite Hps. apply map_ext. intros m. symmetry. apply (Hm 0); auto. intros q Hi. apply in_rev. auto.
    - constructor; auto. eapply Permutation_trans; [exact Pl|]. apply Permutation_refl'. apply map_ext. intros m. f_equal. symmetry. apply (Hm t); auto.
      intros q Hi. apply mo_in_iff in Hi. tauto.
  Qed.
  Lemma node_sem_same rsqrt rsqrt' n groups (v v' u u' : Z -> C) k cv cu : 0 <= n -> k <> KMeasure -> (busy k = true -> qubits_ok n (concat groups)) ->
    eqn n v u -> node_sem rsqrt n groups v v' k cv -> node_sem rsqrt' n groups u u' k cu -> eqn n v' u' /\ same_report cv cu.
  Proof.
    intros Hn Hk Hq Hvu Hv Hu. split.
    - intros r Hr. rewrite (node_act rsqrt n groups v v' k cv Hn Hq Hv r Hr), (node_act rsqrt' n groups u u' k cu Hn Hq Hu r Hr).
      assert (Ef : factor rsqrt cv = 1%r /\ seen cv = 0 /\ factor rsqrt' cu = 1%r /\ seen cu = 0).
      { destruct Hv; try congruence; inversion Hu; subst; repeat split; reflexivity. }
      destruct Ef as (-> & -> & -> & ->). f_equal.
      apply (local_eqn n (support k groups) (act n k groups 0) v u); auto. apply act_acts_on; auto.
    - destruct Hv as [Hv|l Hv|o Hv|o Hv|func g reg1 reg2 Eg Hf Hv|m p Hm1 Hp Hp0 Hv|ps Hv Hps|t l Hv Ht Pl Hd];
        try (inversion Hu; subst; reflexivity); try congruence.
      + inversion Hu as [| | | | | |ps' Hu' Hps'|t' l' Hu' Ht' Pl' Hd']; subst.
        * cbn [same_report]. f_equal. f_equal. apply map_ext. intros m. apply marginal_ext. auto.
        * exfalso. pose proof (Z.pow_pos_nonneg 2 (zlen (concat groups)) ltac:(lia) (zlen_nonneg _)). lia.
      + inversion Hu as [| | | | | |ps' Hu' Hps'|t' l' Hu' Ht' Pl' Hd']; subst.
        * exfalso. pose proof (Z.pow_pos_nonneg 2 (zlen (concat groups)) ltac:(lia) (zlen_nonneg _)). lia.
        * cbn [same_report]. rewrite !combine_fst_snd.
          assert (HP : Permutation l l').
          { eapply Permutation_trans; [exact Pl|]. apply Permutation_sym. eapply Permutation_trans; [exact Pl'|]. apply Permutation_refl'.
            apply map_ext. intros m. f_equal. symmetry. apply marginal_ext. auto. }
          split; auto. apply decreasing_perm; auto. apply Permutation_map. auto.
  Qed.

  Section Swap.
    Variables (h : heap K) (vis args : list nat) (srcs : list nat).
    Hypothesis W : wf h vis.
    Hypothesis Hargs : incl args vis.
    Hypothesis Hsplit : forall i idx k, ancestor h args i -> nd_kind (nd h i) = KSplit idx -> inputs_of h i <> [] ->
      In k idx -> 0 <= k < widths h (inputs_of h i).
    Hypothesis Hsrcs : sources h args srcs.
    Notation w := (wire h srcs).
    Notation n := (widths h srcs).
    Hypothesis Hok : circuit_ok h args srcs n.
    Hypothesis Hg : gates_exact h args.
    Hypothesis Hnm : no_measure h args.
    Variable rsqrt : K -> K.
    Let Hn : 0 <= n := n_nonneg h vis args srcs W Hargs Hsrcs.

    Lemma stoch_wires i t : ancestor h args i -> nd_kind (nd h i) = KStoch t -> concat (map w (inputs_of h i)) = w i.
    Proof.
      intros Hi Ek. destruct (a_qubits_ok h vis args srcs W Hargs Hsplit Hsrcs Hok i Hi) as [_ Hne]; [congruence|intros l; congruence|].
      rewrite (wire_eq h srcs i (wf_base _ _ W) (a_size h vis args W Hargs i Hi)), Ek. destruct (inputs_of h i); [congruence|reflexivity].
    Qed.
    Lemma op_changes_incl (o : op K) : forall groups, incl (op_changes o groups) (concat groups).
    Proof.
      induction o; intros groups; cbn [op_changes]; try apply incl_refl; try (intros q []; fail).
      intros q Hq. apply IHo in Hq. destruct groups; cbn [tl concat] in *; auto. apply in_app_iff; auto.
    Qed.
    Lemma changes_support (k : kind K) groups : incl (node_changes k groups) (support k groups).
    Proof.
      destruct k as [|l|o d|func| |t]; cbn [node_changes support]; try (intros q []; fail); [apply op_changes_incl|].
      destruct groups as [|a [|b gs]]; cbn [hd tl concat]; try (intros q []; fail). intros q Hq. rewrite !in_app_iff. auto.
    Qed.
    (** [j] does not disturb what [i] reports *)
    Lemma stoch_undisturbed i j t v v' cv : ancestor h args i -> ancestor h args j -> (forall q, In q (w i) -> ~ In q (w j)) ->
      node_sem rsqrt n (map w (inputs_of h j)) v v' (nd_kind (nd h j)) cv -> nd_kind (nd h i) = KStoch t ->
      forall g m, incl g (concat (map w (inputs_of h i))) -> marginal n g v' m = marginal n g v m.
    Proof.
      intros Hi Hj Hd S Ek g m Hgi. rewrite (stoch_wires i t Hi Ek) in Hgi.
      apply (node_marginal h vis args srcs W Hargs Hsplit Hsrcs Hok Hg rsqrt g j v v' cv m); auto.
      - intros q Hq. apply (w_range h vis args srcs W Hargs Hsplit Hsrcs i Hi q). auto.
      - split; [apply Hnm; auto|]. intros groups HF q Hq Hq'.
        rewrite (wires_inputs_fun h vis args srcs W Hargs Hsplit Hsrcs j groups Hj HF) in Hq'. apply changes_support in Hq'.
        apply (support_wires h vis args srcs W Hargs j q Hj) in Hq'. apply (Hd q); auto.
    Qed.
    Lemma evolves_inv i cv l v u : ancestor h args i -> evolves rsqrt h srcs n ((i, cv) :: l) v u ->
      exists v1, node_sem rsqrt n (map w (inputs_of h i)) v v1 (nd_kind (nd h i)) cv /\ evolves rsqrt h srcs n l v1 u.
    Proof.
      intros Hi E. remember ((i, cv) :: l) as L eqn:EL. destruct E as [|i' cv' l' groups v v1 u HF S E]; [discriminate|].
      injection EL as -> -> ->. exists v1. split; auto. rewrite (wires_inputs_fun h vis args srcs W Hargs Hsplit Hsrcs i groups Hi HF) in S. exact S.
    Qed.
    Lemma evolves_step i cv l v v1 u : ancestor h args i -> node_sem rsqrt n (map w (inputs_of h i)) v v1 (nd_kind (nd h i)) cv ->
      evolves rsqrt h srcs n l v1 u -> evolves rsqrt h srcs n ((i, cv) :: l) v u.
    Proof. intros Hi S E. econstructor; eauto. apply (a_inputs h vis args srcs W Hargs Hsplit Hsrcs); auto. Qed.
    Lemma evolves_swap a ca b cb l2 : ancestor h args a -> ancestor h args b -> (forall q, In q (w a) -> ~ In q (w b)) ->
      forall l1 v u, (forall i, In i (map fst l1) -> ancestor h args i) ->
      evolves rsqrt h srcs n (l1 ++ (a, ca) :: (b, cb) :: l2) v u -> evolves rsqrt h srcs n (l1 ++ (b, cb) :: (a, ca) :: l2) v u.
    Proof.
      intros Ha Hb Hd. assert (Hd' : forall q, In q (w b) -> ~ In q (w a)) by (intros q H H'; exact (Hd q H' H)).
      induction l1 as [|[i cv] l1 IH]; intros v u Hl E; cbn [app] in *.
      - destruct (evolves_inv a ca _ v u Ha E) as (v1 & Sa & E1). destruct (evolves_inv b cb _ v1 u Hb E1) as (v2 & Sb & E2).
        set (A := act n (nd_kind (nd h a)) (map w (inputs_of h a)) 0). set (B := act n (nd_kind (nd h b)) (map w (inputs_of h b)) 0).
        pose proof (busy_ok h vis args srcs W Hargs Hsplit Hsrcs Hok a Ha) as Ba. pose proof (busy_ok h vis args srcs W Hargs Hsplit Hsrcs Hok b Hb) as Bb.
        assert (Eone : forall i v v' cv, ancestor h args i -> node_sem rsqrt n (map w (inputs_of h i)) v v' (nd_kind (nd h i)) cv ->
          eqn n v' (act n (nd_kind (nd h i)) (map w (inputs_of h i)) 0 v)).
        { intros i x x' cv Hi S r Hr. rewrite (node_act rsqrt n _ x x' _ cv Hn (busy_ok h vis args srcs W Hargs Hsplit Hsrcs Hok i Hi) S r Hr).
          assert (Ef : factor rsqrt cv = 1%r /\ seen cv = 0) by (pose proof (Hnm i Hi); destruct S; try congruence; split; reflexivity).
          destruct Ef as [-> ->]. rewrite creal_1. generalize (act n (nd_kind (nd h i)) (map w (inputs_of h i)) 0 x r). intros y. ring. }
        assert (Sb' : node_sem rsqrt n (map w (inputs_of h b)) v (B v) (nd_kind (nd h b)) cb).
        { apply (node_sem_build rsqrt n _ v1 v2); auto; [intros r Hr; reflexivity|]. intros t Ek g m Hi. symmetry.
          exact (stoch_undisturbed b a t v v1 ca Hb Ha Hd' Sa Ek g m Hi). }
        assert (Sa' : node_sem rsqrt n (map w (inputs_of h a)) (B v) v2 (nd_kind (nd h a)) ca).
        { apply (node_sem_build rsqrt n _ v v1); auto.
          - intros r Hr. rewrite (Eone b v1 v2 cb Hb Sb r Hr). fold B.
            assert (LB : local n (support (nd_kind (nd h b)) (map w (inputs_of h b))) B) by (apply act_acts_on; auto).
            rewrite (local_eqn n _ B v1 (A v) LB (Eone a v v1 ca Ha Sa) r Hr).
            apply (commute n Hn (support (nd_kind (nd h b)) (map w (inputs_of h b))) (support (nd_kind (nd h a)) (map w (inputs_of h a)))); auto;
              try (apply act_acts_on; auto; fail); try (apply (support_ok h vis args srcs W Hargs Hsplit Hsrcs Hok); auto; fail).
            intros q Hq Hq'. apply (support_wires h vis args srcs W Hargs b q Hb) in Hq. apply (support_wires h vis args srcs W Hargs a q Ha) in Hq'. exact (Hd q Hq' Hq).
          - intros t Ek g m Hi. exact (stoch_undisturbed a b t v (B v) cb Ha Hb Hd Sb' Ek g m Hi). }
        apply (evolves_step b cb _ v (B v) u Hb Sb'). apply (evolves_step a ca _ (B v) v2 u Ha Sa' E2).
      - assert (Hi : ancestor h args i) by (apply Hl; left; auto). destruct (evolves_inv i cv _ v u Hi E) as (v1 & S & E1).
        apply (evolves_step i cv _ v v1 u Hi S). apply IH; auto. intros; apply Hl; right; auto.
    Qed.
    Hypothesis Honce : used_once h args srcs.
    Lemma evolves_order (o : nat -> cval K) (k2 : nat -> nat) l l' v u : (forall a b, ancestor h args b -> In a (inputs_of h b) -> (k2 a < k2 b)%nat) ->
      (forall i, In i l -> ancestor h args i) -> Permutation l l' -> StronglySorted lt l -> StronglySorted (fun x y => (k2 x < k2 y)%nat) l' ->
      evolves rsqrt h srcs n (map (fun i => (i, o i)) l) v u -> evolves rsqrt h srcs n (map (fun i => (i, o i)) l') v u.
    Proof.
      intros Hk Hl HP S1 S2 E.
      set (R := fun L : list nat => (forall i, In i L -> ancestor h args i) -> evolves rsqrt h srcs n (map (fun i => (i, o i)) L) v u).
      enough (G : R ([] ++ l')).
      { apply G. intros i Hi. apply Hl. eapply Permutation_in; [apply Permutation_sym; exact HP|exact Hi]. }
      apply (bubble R (ancestor h args) (fun i => i) k2) with (L := l); auto; [|intros _; exact E].
      intros l1 a b l2 Ha Hb H1 H2 HR Hall. rewrite map_app. cbn [map]. apply evolves_swap; auto.
      - exact (independent h vis args srcs W Hargs Hsplit Hsrcs Honce k2 a b Hk Ha Hb H1 H2).
      - intros i Hi. rewrite map_map in Hi. cbn in Hi. rewrite map_id in Hi. apply Hall, in_app_iff. auto.
      - assert (X : R (l1 ++ a :: b :: l2)) by exact HR. unfold R in X. rewrite map_app in X. apply X.
        intros i Hi. apply Hall. rewrite in_app_iff in *. cbn in *. tauto.
    Qed.
  End Swap.
  Section Same.
    Variables (h : heap K) (vis args : list nat) (srcs : list nat).
    Hypothesis W : wf h vis.
    Hypothesis Hargs : incl args vis.
    Hypothesis Hsplit : forall i idx k, ancestor h args i -> nd_kind (nd h i) = KSplit idx -> inputs_of h i <> [] ->
      In k idx -> 0 <= k < widths h (inputs_of h i).
    Hypothesis Hsrcs : sources h args srcs.
    Notation w := (wire h srcs).
    Notation n := (widths h srcs).
    Hypothesis Hok : circuit_ok h args srcs n.
    Hypothesis Hnm : no_measure h args.
    Lemma evolves_same rsqrt rsqrt' (o o' : nat -> cval K) : forall l v v' u u', (forall i, In i l -> ancestor h args i) -> eqn n v v' ->
      evolves rsqrt h srcs n (map (fun i => (i, o i)) l) v u -> evolves rsqrt' h srcs n (map (fun i => (i, o' i)) l) v' u' ->
      eqn n u u' /\ forall i, In i l -> same_report (o i) (o' i).
    Proof.
      induction l as [|i l IH]; intros v v' u u' Hl Hv E E'; cbn [map] in *.
      - inversion E as [? ? H|]; subst. inversion E' as [? ? H'|]; subst. split; [|intros i []]. intros r Hr. rewrite H, H' by auto. auto.
      - assert (Hi : ancestor h args i) by (apply Hl; left; auto).
        destruct (evolves_inv h vis args srcs W Hargs Hsplit Hsrcs rsqrt i (o i) _ v u Hi E) as (v1 & S & E1).
        destruct (evolves_inv h vis args srcs W Hargs Hsplit Hsrcs rsqrt' i (o' i) _ v' u' Hi E') as (v1' & S' & E1').
        destruct (node_sem_same rsqrt rsqrt' n _ v v1 v' v1' _ _ _ (n_nonneg h vis args srcs W Hargs Hsrcs) (Hnm i Hi)
          (busy_ok h vis args srcs W Hargs Hsplit Hsrcs Hok i Hi) Hv S S') as [Hv1 HR].
        destruct (IH v1 v1' u u' (fun x Hx => Hl x (or_intror Hx)) Hv1 E1 E1') as [Hu HR'].
        split; auto. intros x [<-|Hx]; auto.
    Qed.
  End Same.
End Reports.
