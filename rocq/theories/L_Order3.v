(** The same circuit built in another order: wires, and the state up to the normalisation of measurements. *)
From Coq Require Import Sorted.
From Verif Require Import Base S_Bits L_Bits M_Kron S_Kron M_Ops S_Ops M_Feed S_Feed M_Func S_Func L_Func2
  M_Measure S_Measure L_Alg M_Graph S_Graph L_Graph1 L_Graph2 L_Graph3 L_Graph4 L_Graph5 L_Graph7 L_Graph10 L_Grow1 L_Context3 S_Order L_Order1 L_Order2.

Section Iso.
  Context {K : Type} {OK : OrdRing K}.
  Variables (h : heap K) (vis args : list nat) (srcs : list nat) (h' : heap K) (vis' args' : list nat) (srcs' : list nat) (f : nat -> nat).
  Hypothesis W : wf h vis.
  Hypothesis Hargs : incl args vis.
  Hypothesis Hsplit : forall i idx k, ancestor h args i -> nd_kind (nd h i) = KSplit idx -> inputs_of h i <> [] ->
    In k idx -> 0 <= k < widths h (inputs_of h i).
  Hypothesis Hsrcs : sources h args srcs.
  Hypothesis W' : wf h' vis'.
  Hypothesis Hargs' : incl args' vis'.
  Hypothesis Hsrcs' : sources h' args' srcs'.
  Hypothesis Hsame : same_circuit h args srcs h' args' srcs' f.
  Notation w := (wire h srcs).
  Notation w' := (wire h' srcs').

  Lemma iso_anc i : ancestor h args i -> ancestor h' args' (f i).
  Proof.
    destruct Hsame as (Ha & _ & _ & Hn). induction 1 as [i Hi|i j Hi IH Hj].
    - apply anc_arg, Ha. eauto.
    - apply (anc_input h' args' (f i)); auto. destruct (Hn i Hi) as (_ & _ & ->). apply in_map. auto.
  Qed.
  Lemma iso_anc_inv j : ancestor h' args' j -> exists i, ancestor h args i /\ j = f i.
  Proof.
    destruct Hsame as (Ha & _ & _ & Hn). induction 1 as [j Hj|j k Hj (i & Hi & ->) Hk].
    - apply Ha in Hj. destruct Hj as (i & Hi & ->). exists i. split; auto. constructor. auto.
    - destruct (Hn i Hi) as (_ & _ & E). rewrite E in Hk. apply in_map_iff in Hk. destruct Hk as (x & <- & Hx). exists x. split; auto. eapply anc_input; eauto.
  Qed.
  Lemma iso_widths l : (forall i, In i l -> ancestor h args i) -> widths h' (map f l) = widths h l.
  Proof.
    destruct Hsame as (_ & _ & _ & Hn). induction l as [|i l IH]; intros Hl; auto. cbn [map]. rewrite !widths_cons, IH by (intros; apply Hl; right; auto).
    destruct (Hn i (Hl i (or_introl eq_refl))) as (_ & -> & _). auto.
  Qed.
  Lemma iso_n : widths h' srcs' = widths h srcs.
  Proof. destruct Hsame as (_ & E & _). rewrite E. apply iso_widths. intros i Hi. apply Hsrcs in Hi. tauto. Qed.
  Lemma iso_wire i : ancestor h args i -> w' (f i) = w i.
  Proof.
    enough (G : forall m i, (i < m)%nat -> ancestor h args i -> w' (f i) = w i) by (intros Hi; apply (G (S i)); auto).
    clear i. induction m as [|m IH]; intros i Hm Hi; [lia|]. pose proof (a_size h vis args W Hargs i Hi) as Hlt.
    pose proof (a_size h' vis' args' W' Hargs' (f i) (iso_anc i Hi)) as Hlt'. destruct Hsame as (_ & Es & _ & Hn). destruct (Hn i Hi) as (Ek & Ew & Ei).
    rewrite (wire_eq h srcs i (wf_base _ _ W) Hlt), (wire_eq h' srcs' (f i) (wf_base _ _ W') Hlt'). rewrite Ei, Ek.
    destruct (inputs_of h i) as [|a l] eqn:E.
    - cbn [map]. assert (Hs : In i srcs) by (apply Hsrcs; auto). destruct (in_split i srcs Hs) as (l1 & l2 & E1).
      assert (E2 : srcs' = map f l1 ++ f i :: map f l2) by (rewrite Es, E1, map_app; reflexivity).
      rewrite (src_wire_eq h srcs l1 i l2) by (auto; apply sorted_lt_NoDup, Hsrcs).
      rewrite (src_wire_eq h' srcs' (map f l1) (f i) (map f l2)) by (auto; apply sorted_lt_NoDup, Hsrcs'). rewrite Ew.
      rewrite iso_widths; auto. intros x Hx. apply (proj2 Hsrcs x). rewrite E1. apply in_app_iff; auto.
    - rewrite <- E in *. assert (G : map w' (map f (inputs_of h i)) = map w (inputs_of h i)).
      { rewrite map_map. apply map_ext_in. intros j Hj. pose proof (wf_in h (wf_base _ _ W) i j Hlt Hj). apply IH; [lia|]. eapply anc_input; eauto. }
      rewrite E in *. cbn [map] in *. rewrite G. reflexivity.
  Qed.
  Lemma iso_groups i : ancestor h args i -> map w' (inputs_of h' (f i)) = map w (inputs_of h i).
  Proof.
    intros Hi. destruct Hsame as (_ & _ & _ & Hn). destruct (Hn i Hi) as (_ & _ & ->). rewrite map_map. apply map_ext_in. intros j Hj.
    apply iso_wire. eapply anc_input; eauto.
  Qed.
  Lemma iso_split : forall i idx k, ancestor h' args' i -> nd_kind (nd h' i) = KSplit idx -> inputs_of h' i <> [] ->
    In k idx -> 0 <= k < widths h' (inputs_of h' i).
  Proof.
    intros j idx k Hj Ek Hne Hk. destruct (iso_anc_inv j Hj) as (i & Hi & ->). destruct Hsame as (_ & _ & _ & Hn). destruct (Hn i Hi) as (E1 & _ & E2).
    rewrite E2 in *. rewrite iso_widths by (intros x Hx; eapply anc_input; eauto). rewrite E1 in Ek. apply (Hsplit i idx); auto. intros X. apply Hne. rewrite X. reflexivity.
  Qed.
  Lemma iso_ok : circuit_ok h args srcs (widths h srcs) -> circuit_ok h' args' srcs' (widths h srcs).
  Proof.
    intros Hok j Hj. destruct (iso_anc_inv j Hj) as (i & Hi & ->). specialize (Hok i Hi). destruct Hsame as (_ & _ & _ & Hn). destruct (Hn i Hi) as (E1 & _ & E2).
    assert (F : forall gs, Forall2 (wires h' srcs') (inputs_of h' (f i)) gs -> Forall2 (wires h srcs) (inputs_of h i) gs).
    { intros gs HF. rewrite (wires_inputs_fun h' vis' args' srcs' W' Hargs' iso_split Hsrcs' (f i) gs Hj HF).
      rewrite iso_groups by auto. apply (a_inputs h vis args srcs W Hargs Hsplit Hsrcs); auto. }
    unfold node_ok in *. rewrite E1. destruct (nd_kind (nd h i)) as [|ix|o d|func| |k]; auto; destruct Hok as (O1 & O2 & O3);
      (split; [rewrite E2; intros X; apply O1; destruct (inputs_of h i); [reflexivity|discriminate]|]); (split; [intros gs HF; apply O2; auto|]); auto.
    rewrite E2, iso_widths; auto. intros x Hx; eapply anc_input; eauto.
  Qed.
  (** [f] lists the nodes of the circuit in the order of the other circuit *)
  Lemma iso_list : forall l', (forall j, In j l' -> ancestor h' args' j) -> exists l, l' = map f l /\ forall i, In i l -> ancestor h args i.
  Proof.
    induction l' as [|j l' IH]; intros Hl.
    - exists []. split; auto. intros i [].
    - destruct IH as (l & -> & H); [intros; apply Hl; right; auto|]. destruct (iso_anc_inv j (Hl j (or_introl eq_refl))) as (i & Hi & ->).
      exists (i :: l). split; auto. intros x [<-|Hx]; auto.
  Qed.
  Lemma iso_order l l' : StronglySorted lt l -> (forall i, In i l <-> ancestor h args i) -> StronglySorted lt l' -> (forall j, In j l' <-> ancestor h' args' j) ->
    exists l2, l' = map f l2 /\ Permutation l l2 /\ StronglySorted (fun x y => (f x < f y)%nat) l2 /\ forall i, In i l2 -> ancestor h args i.
  Proof.
    intros S1 H1 S2 H2. destruct (iso_list l') as (l2 & E & Ha); [intros j Hj; apply H2; auto|]. exists l2. split; auto. rewrite E in *.
    assert (S3 : forall l, StronglySorted lt (map f l) -> StronglySorted (fun x y => (f x < f y)%nat) l).
    { clear. induction l as [|x l IH]; cbn; intros H; constructor; inversion H as [|? ? HS HF]; subst; auto. apply Forall_forall. intros y Hy.
      rewrite Forall_forall in HF. apply HF, in_map. auto. }
    split; [|split; auto]. apply NoDup_Permutation.
    - apply sorted_lt_NoDup; auto.
    - apply (NoDup_map_inv f). apply sorted_lt_NoDup; auto.
    - intros i. rewrite H1. split; auto. intros Hi. pose proof (proj2 (H2 (f i)) (iso_anc i Hi)) as X. apply in_map_iff in X.
      destruct X as (x & Ex & Hx). destruct Hsame as (_ & _ & Hinj & _). rewrite <- (Hinj x i); auto.
  Qed.
  Lemma iso_key a b : ancestor h args b -> In a (inputs_of h b) -> (f a < f b)%nat.
  Proof.
    intros Hb Ha. apply (wf_in h' (wf_base _ _ W') (f b) (f a)); [apply (a_size h' vis' args' W' Hargs'), iso_anc; auto|].
    destruct Hsame as (_ & _ & _ & Hn). destruct (Hn b Hb) as (_ & _ & ->). apply in_map; auto.
  Qed.
End Iso.

Section Acts.
  Context {K : Type} {OK : OrdRing K}.
  Notation C := (Cx K).
  Add Ring CRingO3 : (@rth C _).
  Add Ring KRingO3 : (@rth K _).
  Local Notation U := ((Z -> C) -> Z -> C).

  (** the outcome in a report, and the factor by which a measurement scales *)
  Definition seen (cv : cval K) : Z := match cv with CMeas m _ => m | _ => 0 end.
  Definition factor (rsqrt : K -> K) (cv : cval K) : K := match cv with CMeas _ p => rsqrt p | _ => 1%r end.
  (** what a node does to the amplitudes, without the scaling; the qubits it acts on *)
  Definition act (n : Z) (k : kind K) (groups : list (list Z)) (m : Z) : U :=
    match k with
    | KMat o d => op_acts n (if d then op_adj o else o) groups
    | KF func =>
        match groups with
        | [reg1; reg2] => fun v r => v (fxor n reg1 reg2 (fun x => match func x with Ok y => y | Raise _ => 0 end) r)
        | _ => fun v => v
        end
    | KMeasure => proj_on n (concat groups) m
    | _ => fun v => v
    end.
  Definition support (k : kind K) (groups : list (list Z)) : list Z :=
    match k with KQubit | KSplit _ | KStoch _ => [] | _ => concat groups end.
  Definition busy (k : kind K) : bool := match k with KQubit | KSplit _ => false | _ => true end.

  Lemma act_acts_on n k groups m : 0 <= n -> (busy k = true -> qubits_ok n (concat groups)) -> acts_on n (support k groups) (act n k groups m).
  Proof.
    intros Hn Hq. destruct k as [|l|o d|func| |t]; cbn [act support]; try apply acts_id; specialize (Hq eq_refl).
    - apply op_acts_on; auto.
    - destruct groups as [|a [|b [|c gs]]]; try apply acts_id. cbn [concat] in *. rewrite app_nil_r in *. apply fxor_acts_on; auto.
    - apply proj_acts_on.
  Qed.
  Lemma node_act rsqrt n groups (v v' : Z -> C) k cv : 0 <= n -> (busy k = true -> qubits_ok n (concat groups)) -> node_sem rsqrt n groups v v' k cv ->
    forall r, 0 <= r < 2 ^ n -> v' r = (creal (factor rsqrt cv) * act n k groups (seen cv) v r)%r.
  Proof.
    intros Hn Hq H r Hr. assert (E1 : forall x : C, x = (creal (1 : K) * x)%r) by (intros x; rewrite creal_1; ring).
    destruct H as [Hv|l Hv|o Hv|o Hv|func g reg1 reg2 Eg Hf Hv|m p Hm1 Hp Hp0 Hv|ps Hv Hps|t l Hv Ht Pl Hd]; cbn [factor act seen];
      try (rewrite Hv by auto; apply E1).
    - subst groups. rewrite <- E1. specialize (Hq eq_refl). cbn [concat] in Hq. rewrite app_nil_r in Hq.
      pose proof (fxor_range n reg1 reg2 g r Hn) as Hr2. specialize (Hv _ Hr2). rewrite fxor_invol in Hv by auto. rewrite Hv. f_equal.
      unfold fxor. f_equal. f_equal. f_equal. rewrite (Hf _ (reg_range n reg1 r)). reflexivity.
    - rewrite Hv by auto. unfold collapsed, proj_on. generalize (creal (rsqrt p) : C). intros c. destruct (_ =? _); ring.
  Qed.
End Acts.

Section Fold.
  Context {K : Type} {OK : OrdRing K}.
  Notation C := (Cx K).
  Add Ring CRingO4 : (@rth C _).
  Variables (h : heap K) (vis args : list nat) (srcs : list nat).
  Hypothesis W : wf h vis.
  Hypothesis Hargs : incl args vis.
  Hypothesis Hsplit : forall i idx k, ancestor h args i -> nd_kind (nd h i) = KSplit idx -> inputs_of h i <> [] ->
    In k idx -> 0 <= k < widths h (inputs_of h i).
  Hypothesis Hsrcs : sources h args srcs.
  Notation w := (wire h srcs).
  Notation n := (widths h srcs).
  Hypothesis Hok : circuit_ok h args srcs n.

  Definition step_act (o : nat -> Z) (i : nat) : (Z -> C) -> Z -> C := act n (nd_kind (nd h i)) (map w (inputs_of h i)) (o i).
  Definition run_acts (o : nat -> Z) (l : list nat) (v : Z -> C) : Z -> C := fold_left (fun v i => step_act o i v) l v.

  Lemma busy_ok i : ancestor h args i -> busy (nd_kind (nd h i)) = true -> qubits_ok n (concat (map w (inputs_of h i))).
  Proof.
    intros Hi Hb. apply (a_qubits_ok h vis args srcs W Hargs Hsplit Hsrcs Hok i Hi).
    - intros E. rewrite E in Hb. discriminate.
    - intros l E. rewrite E in Hb. discriminate.
  Qed.
  Lemma support_wires i q : ancestor h args i -> In q (support (nd_kind (nd h i)) (map w (inputs_of h i))) -> In q (w i).
  Proof.
    intros Hi Hq. rewrite (wire_eq h srcs i (wf_base _ _ W) (a_size h vis args W Hargs i Hi)).
    destruct (nd_kind (nd h i)) as [|l|o d|func| |t] eqn:Ek; cbn [support] in Hq; try (destruct Hq; fail); cbn [sel];
      destruct (inputs_of h i) as [|a l]; auto; destruct Hq.
  Qed.
  Lemma support_ok i : ancestor h args i -> qubits_ok n (support (nd_kind (nd h i)) (map w (inputs_of h i))).
  Proof.
    intros Hi. pose proof (busy_ok i Hi) as Hb. destruct (nd_kind (nd h i)); cbn [support busy] in *; auto; (split; [apply NoDup_nil|intros q []]).
  Qed.
  Lemma step_acts_on o i : ancestor h args i -> acts_on n (support (nd_kind (nd h i)) (map w (inputs_of h i))) (step_act o i).
  Proof. intros Hi. apply act_acts_on; [eapply n_nonneg; eauto|]. apply busy_ok; auto. Qed.
  Lemma step_eqn o i v v' : ancestor h args i -> eqn n v v' -> eqn n (step_act o i v) (step_act o i v').
  Proof. intros Hi. apply (local_eqn n (support (nd_kind (nd h i)) (map w (inputs_of h i)))). apply step_acts_on; auto. Qed.
  Lemma run_eqn o l : forall v v', (forall i, In i l -> ancestor h args i) -> eqn n v v' -> eqn n (run_acts o l v) (run_acts o l v').
  Proof.
    induction l as [|i l IH]; intros v v' Hl H; auto. cbn [run_acts fold_left]. apply IH; [intros; apply Hl; right; auto|].
    apply step_eqn; auto. apply Hl; left; auto.
  Qed.
  Lemma run_scale o l : forall (a : C) v, (forall i, In i l -> ancestor h args i) -> eqn n (run_acts o l (fun r => (a * v r)%r)) (fun r => (a * run_acts o l v r)%r).
  Proof.
    induction l as [|i l IH]; intros a v Hl; [intros r Hr; reflexivity|]. cbn [run_acts fold_left].
    assert (Hi : ancestor h args i) by (apply Hl; left; auto). assert (Hl' : forall i, In i l -> ancestor h args i) by (intros; apply Hl; right; auto).
    intros r Hr. etransitivity; [|apply (IH a (step_act o i v) Hl' r Hr)]. apply (run_eqn o l); auto. intros x Hx.
    destruct (step_acts_on o i Hi) as (Hloc & Hlin & _).
    transitivity (step_act o i (fun r => (a * v r + 0 * v r)%r) x).
    - apply Hloc; auto. intros; ring.
    - rewrite Hlin by auto. ring.
  Qed.
  Definition total_factor (rsqrt : K -> K) (l : list (nat * cval K)) : K := fold_right (fun x a => (factor rsqrt (snd x) * a)%r) 1%r l.
  Lemma evolves_acts rsqrt o l v v' : evolves rsqrt h srcs n l v v' -> (forall i, In i (map fst l) -> ancestor h args i) ->
    (forall i cv, In (i, cv) l -> nd_kind (nd h i) = KMeasure -> o i = seen cv) ->
    eqn n v' (fun r => (creal (total_factor rsqrt l) * run_acts o (map fst l) v r)%r).
  Proof.
    intros E. induction E as [v v' H|i cv l groups v v1 v' HF S E IH]; intros Ha Ho r Hr.
    - rewrite H by auto. change (total_factor rsqrt []) with (1%r : K). change (creal (1%r : K)) with (1%r : C). cbn [run_acts fold_left map]. ring.
    - assert (Hi : ancestor h args i) by (apply Ha; left; auto). rewrite (wires_inputs_fun h vis args srcs W Hargs Hsplit Hsrcs i groups Hi HF) in S.
      assert (Hl : forall i, In i (map fst l) -> ancestor h args i) by (intros; apply Ha; right; auto).
      rewrite IH by (auto; intros; apply Ho; auto; right; auto). cbn [map fst].
      assert (E1 : eqn n v1 (fun r => (creal (factor rsqrt cv) * step_act o i v r)%r)).
      { intros x Hx. assert (Hb : busy (nd_kind (nd h i)) = true -> qubits_ok n (concat (map w (inputs_of h i)))) by (apply busy_ok; auto).
        rewrite (node_act rsqrt n _ v v1 _ cv (n_nonneg h vis args srcs W Hargs Hsrcs) Hb S x Hx). unfold step_act.
        destruct (nd_kind (nd h i)) eqn:Ek; try reflexivity. rewrite (Ho i cv (or_introl eq_refl) Ek). reflexivity. }
      rewrite (run_eqn o (map fst l) v1 _ Hl E1 r Hr). rewrite (run_scale o (map fst l) _ _ Hl r Hr).
      change (total_factor rsqrt ((i, cv) :: l)) with (factor rsqrt cv * total_factor rsqrt l)%r. rewrite creal_mul.
      change (run_acts o (i :: map fst l) v) with (run_acts o (map fst l) (step_act o i v)). ring.
  Qed.

  (** the order of independent nodes does not matter *)
  Hypothesis Honce : used_once h args srcs.
  Lemma run_acts_order o (k2 : nat -> nat) l l' v : (forall a b, ancestor h args b -> In a (inputs_of h b) -> (k2 a < k2 b)%nat) ->
    (forall i, In i l -> ancestor h args i) -> Permutation l l' -> StronglySorted lt l -> StronglySorted (fun x y => (k2 x < k2 y)%nat) l' ->
    eqn n (run_acts o l v) (run_acts o l' v).
  Proof.
    intros Hk Hl HP S1 S2.
    set (R := fun L : list nat => (forall i, In i L -> ancestor h args i) -> eqn n (run_acts o l v) (run_acts o L v)).
    enough (G : R ([] ++ l')).
    { apply G. intros i Hi. apply Hl. eapply Permutation_in; [apply Permutation_sym; exact HP|exact Hi]. }
    apply (bubble R (ancestor h args) (fun i => i) k2) with (L := l); auto; [|intros _ r Hr; reflexivity].
    intros l1 a b l2 Ha Hb H1 H2 HR Hall r Hr.
    rewrite HR; auto; [|intros i Hi; apply Hall; rewrite in_app_iff in *; cbn in *; tauto].
    unfold run_acts. rewrite !fold_left_app. cbn [fold_left]. apply (run_eqn o l2); [intros; apply Hall; apply in_app_iff; right; right; right; auto| |auto].
    intros x Hx. apply (commute n (n_nonneg h vis args srcs W Hargs Hsrcs) (support (nd_kind (nd h b)) (map w (inputs_of h b)))
      (support (nd_kind (nd h a)) (map w (inputs_of h a)))); auto using step_acts_on, support_ok.
    intros q Hq Hq'. apply (support_wires b q Hb) in Hq. apply (support_wires a q Ha) in Hq'.
    exact (independent h vis args srcs W Hargs Hsplit Hsrcs Honce k2 a b Hk Ha Hb H1 H2 q Hq' Hq).
  Qed.
End Fold.
