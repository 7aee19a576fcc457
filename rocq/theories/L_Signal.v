(** Operations do not disturb qubits they do not change. *)
From Coq Require Import Sorted.
From Verif Require Import Base S_Bits L_Bits M_Kron S_Kron M_Ops S_Ops L_Ops3 L_Ops4 M_Feed S_Feed L_Feed L_Feed2 M_Func S_Func L_Func L_Func2
  M_Measure S_Measure L_Measure1 L_Measure2 L_Measure3 L_Measure4 L_Measure6 L_Alg M_Graph S_Graph L_Graph1 L_Graph2 L_Graph3 L_Graph4 L_Graph5 L_Graph6
  L_Graph7 L_Graph8 L_Graph9 L_Graph10 L_Graph11 L_Grow1 S_Born L_Born S_Signal.

Section Signal.
  Context {K : Type} {OK : OrdRing K}.
  Notation C := (Cx K).
  Add Ring KRingS : (@rth K _).
  Add Ring CRingS : (@rth C _).

  Definition proj (n : Z) (g : list Z) (m : Z) (v : Z -> C) (x : Z) : C := if (reg n g x =? m) then v x else 0%r.

  Lemma marginal_proj n g v m : marginal n g v m = norm_of n (proj n g m v).
  Proof.
    unfold marginal, norm_of, proj. apply sum_ext. intros x _. destruct (reg n g x =? m); auto.
    symmetry. apply cnorm2_0.
  Qed.
  Lemma reg_flipped n g q r : in_range n g -> 0 <= q < n -> ~ In q g -> reg n g (flipped n q r) = reg n g r.
  Proof.
    intros Hg Hq Hn. apply reg_ext. intros p Hp. rewrite qbit_flipped by auto. destruct (Z.eqb_spec p q) as [->|]; tauto.
  Qed.
  Lemma proj_each n g m ga qs v : in_range n g -> in_range n qs -> (forall q, In q g -> ~ In q qs) ->
    forall r, apply_each n ga qs (proj n g m v) r = proj n g m (apply_each n ga qs v) r.
  Proof.
    intros Hg Hqs Hd. unfold apply_each. induction qs as [|q qs IH]; cbn [fold_right]; auto. intros r.
    assert (Hq : 0 <= q < n) by (apply Hqs; left; auto). assert (Hnq : ~ In q g) by (intros X; apply (Hd q X); left; auto).
    specialize (IH (fun x Hx => Hqs x (or_intror Hx)) (fun x Hx Hi => Hd x Hx (or_intror Hi))).
    unfold apply1 at 1. destruct ga as [[[a b] c] d]. rewrite !IH. unfold proj. rewrite (reg_flipped n g q r Hg Hq Hnq).
    unfold apply1 at 3. destruct (reg n g r =? m); auto. destruct (qbit n r q); ring.
  Qed.
  Lemma proj_phase n g m a d qs v : forall r,
    apply_each n (a, 0, 0, d)%r qs (proj n g m v) r = proj n g m (apply_each n (a, 0, 0, d)%r qs v) r.
  Proof.
    unfold apply_each. induction qs as [|q qs IH]; cbn [fold_right]; auto. intros r.
    unfold apply1 at 1. rewrite !IH. unfold proj. unfold apply1 at 5. destruct (reg n g r =? m); destruct (qbit n r q); ring.
  Qed.
  Lemma proj_op n g m o : forall groups v, in_range n g -> in_range n (concat groups) -> (forall q, In q g -> ~ In q (op_changes o groups)) ->
    forall r, op_acts n o groups (proj n g m v) r = proj n g m (op_acts n o groups v) r.
  Proof.
    induction o as [| | |x|e|k|o IH]; intros groups v Hg Hq Hd r; cbn [op_acts op_changes] in *; try (apply proj_each; auto; fail);
      try (apply proj_phase; fail).
    - unfold proj. rewrite reg_setreg_disj; [reflexivity|]. intros q Hi. split; [apply Hg; exact Hi|]. intros X. apply (Hd q Hi).
      destruct groups as [|a [|b gs]]; cbn [hd tl concat] in *; rewrite ?app_nil_r in *; auto. apply in_app_iff in X. rewrite !in_app_iff. tauto.
    - destruct (forallb _ _) eqn:E.
      + rewrite (IH (tl groups) v Hg); [unfold proj; rewrite E; reflexivity| |exact Hd]. intros q Hi. apply Hq. destruct groups; cbn [tl concat] in *; auto. apply in_app_iff; auto.
      + unfold proj. rewrite E. reflexivity.
  Qed.
  Lemma op_changes_adj o : forall groups, op_changes (op_adj (OK := OK) o) groups = op_changes o groups.
  Proof. induction o; intros groups; cbn; auto. Qed.

  Lemma op_marginal n o groups g v m : 0 <= n -> op_fits o groups -> qubits_ok n (concat groups) -> op_scalars_ok o ->
    in_range n g -> (forall q, In q g -> ~ In q (op_changes o groups)) -> marginal n g (op_acts n o groups v) m = marginal n g v m.
  Proof.
    intros Hn Hf Hq Hs Hg Hd. rewrite !marginal_proj. rewrite <- (op_acts_norm n o groups (proj n g m v)) by auto.
    apply norm_ext. intros r _. symmetry. apply proj_op; auto. exact (proj2 Hq).
  Qed.
  Lemma fxor_marginal n reg1 reg2 f g (v v' : Z -> C) m : 0 <= n -> qubits_ok n (reg1 ++ reg2) ->
    (forall x, 0 <= x < 2 ^ n -> v' (fxor n reg1 reg2 f x) = v x) -> in_range n g -> (forall q, In q g -> ~ In q reg2) ->
    marginal n g v' m = marginal n g v m.
  Proof.
    intros Hn Hq H Hg Hd. rewrite !marginal_proj. apply (fxor_norm n reg1 reg2 f); auto. intros x Hx. unfold proj.
    unfold fxor at 1. rewrite reg_setreg_disj by (intros q Hi; split; auto). rewrite H; auto.
  Qed.

  Section Runs.
    Variables (h : heap K) (vis args : list nat) (srcs : list nat).
    Hypothesis W : wf h vis.
    Hypothesis Hargs : incl args vis.
    Hypothesis Hsplit : forall i idx k, ancestor h args i -> nd_kind (nd h i) = KSplit idx -> inputs_of h i <> [] -> In k idx -> 0 <= k < widths h (inputs_of h i).
    Hypothesis Hsrcs : sources h args srcs.
    Notation w := (wire h srcs).
    Notation n := (widths h srcs).
    Hypothesis Hok : circuit_ok h args srcs n.
    Hypothesis Hg : gates_exact h args.
    Variable rsqrt : K -> K.

    Lemma node_marginal g i v v' cv m : ancestor h args i -> in_range n g -> leaves_alone h srcs g i ->
      node_sem rsqrt n (map w (inputs_of h i)) v v' (nd_kind (nd h i)) cv -> marginal n g v' m = marginal n g v m.
    Proof.
      intros Hi Hr [Hk Hl] S. assert (Hn : 0 <= n) by (eapply n_nonneg; eauto).
      specialize (Hl _ (a_inputs h vis args srcs W Hargs Hsplit Hsrcs i Hi)).
      destruct (nd_kind (nd h i)) as [|ix|o d|func| |k] eqn:Ek; try congruence; cbn [node_changes] in Hl.
      - inversion S; subst. apply L_Measure3.marginal_ext; auto.
      - inversion S; subst. apply L_Measure3.marginal_ext; auto.
      - destruct (a_qubits_ok h vis args srcs W Hargs Hsplit Hsrcs Hok i Hi) as [Hq _]; [congruence|intros l; congruence|].
        destruct (op_ms_eff h vis args srcs W Hargs Hsplit Hsrcs Hok i o d Hi Ek) as (_ & _ & Hf & _). pose proof (Hg i o d Hi Ek) as Hs.
        inversion S; subst; cbn [op_eff] in Hf; (etransitivity; [apply L_Measure3.marginal_ext; eassumption|]); apply op_marginal; auto.
        apply adj_scalars; auto. rewrite op_changes_adj; auto.
      - destruct (a_qubits_ok h vis args srcs W Hargs Hsplit Hsrcs Hok i Hi) as [Hq _]; [congruence|intros l; congruence|].
        inversion S as [| | | |func' f reg1 reg2 Eg Hf Hv| | |]; subst. rewrite Eg in Hq, Hl. cbn [concat hd tl] in Hq, Hl. rewrite app_nil_r in Hq.
        eapply fxor_marginal; eauto.
      - inversion S; subst; apply L_Measure3.marginal_ext; auto.
    Qed.
    Lemma evolves_marginal g m : in_range n g -> forall l v v', evolves rsqrt h srcs n l v v' ->
      (forall i, In i (map fst l) -> ancestor h args i) -> (forall i, In i (map fst l) -> leaves_alone h srcs g i) ->
      marginal n g v' m = marginal n g v m.
    Proof.
      intros Hr l v v' E. induction E as [v v' H|i cv l groups v v1 v' HF S E IH]; intros Ha Hl.
      - apply L_Measure3.marginal_ext; auto.
      - assert (Hi : ancestor h args i) by (apply Ha; left; auto). rewrite (wires_inputs_fun h vis args srcs W Hargs Hsplit Hsrcs i groups Hi HF) in S.
        rewrite IH by (intros; try apply Ha; try apply Hl; right; auto). eapply node_marginal; eauto. apply Hl. left; auto.
    Qed.
    Lemma evolves_app l1 : forall l2 v v', evolves rsqrt h srcs n (l1 ++ l2) v v' ->
      exists v1, evolves rsqrt h srcs n l1 v v1 /\ evolves rsqrt h srcs n l2 v1 v'.
    Proof.
      induction l1 as [|[i cv] l1 IH]; intros l2 v v' E.
      - exists v. split; auto. constructor. auto.
      - cbn [app] in E. remember ((i, cv) :: l1 ++ l2) as L eqn:EL. destruct E as [v v' H|i' cv' l' groups v v1 v' HF S E]; [discriminate|].
        injection EL as -> -> ->. destruct (IH _ _ _ E) as (v2 & E1 & E2). exists v2. split; auto. econstructor; eauto.
    Qed.
  End Runs.
End Signal.
