(** Cloning, make_circuit_mat, linearity. *)
From Coq Require Import Sorted.
From Verif Require Import Base S_Bits L_Bits M_Kron S_Kron M_Ops S_Ops L_Ops4 M_Feed S_Feed L_Feed M_Func S_Func L_Func2
  M_Measure S_Measure L_Alg M_Graph S_Graph L_Graph1 L_Graph2 L_Graph3 L_Graph4 L_Graph5 L_Graph6 L_Graph7 L_Graph8 L_Graph9.

Section Clone.
  Context {K : Type} {OK : OrdRing K}.
  Implicit Types h : heap K.

  Lemma ops_accept h vis q d : wf h vis -> In q vis -> 0 < width h q ->
    exists h' id, exec h (Gate GNot [q] d) = (h', Ok [id]) /\ inputs_of h' id = [q].
  Proof.
    intros W Hv Hp. destruct (new_node_total h (KMat ONot d) [q] None None false eq_refl) as (h' & E); [cbn; exact Hp|].
    exists h', (size h). cbn [exec new_gate]. rewrite E. cbn [one sbind]. split; auto.
    assert (Hin : forall i, In i [q] -> (i < size h)%nat) by (intros i [<-|[]]; apply (wf_vis _ _ W); auto).
    destruct (new_node_ok h (KMat ONot d) [q] None None false None h' _ (wf_base _ _ W) Hin I (fun _ => eq_refl) E) as (_ & _ & _ & _ & _ & F).
    destruct (F _ eq_refl) as (_ & _ & _ & F4 & _). exact F4.
  Qed.

  Lemma sinks_raise self q : forall inputs h s0 rest, is_qubit (nd_kind (nd h self)) = true -> In q inputs ->
    (forall i, In i inputs -> (i < size h)%nat) -> nd_sink (nd h q) = s0 :: rest -> nd_qid (nd h s0) <> nd_qid (nd h self) ->
    exists h', sfold (fun h item => set_sink h item self) inputs h = (h', Raise GenericException).
  Proof.
    induction inputs as [|i l IH]; intros h s0 rest Hk Hi Hs Es Hq; [destruct Hi|]. cbn [sfold]. unfold set_sink. rewrite Hk.
    destruct (Nat.eq_dec i q) as [->|Hne].
    - rewrite Es. rewrite (proj2 (Z.eqb_neq _ _) Hq). cbn [sbind]. eauto.
    - assert (Hi' : In q l) by (destruct Hi; [congruence|auto]).
      assert (G : exists h', sfold (fun h item => set_sink h item self) l (add_sink h i self) = (h', Raise GenericException)).
      { assert (Ec : forall j, core (nd (add_sink h i self) j) = core (nd h j)) by (intros; apply core_add_sink).
        assert (Eq : forall j, nd_qid (nd (add_sink h i self) j) = nd_qid (nd h j)) by (intros j; specialize (Ec j); unfold core in Ec; congruence).
        apply (IH _ s0 rest); auto.
        - specialize (Ec self). unfold core in Ec. injection Ec as -> _ _ _ _. auto.
        - intros j Hj. rewrite size_add_sink. apply Hs. right; auto.
        - rewrite nd_add_sink. destruct (Nat.eqb_spec q i); [congruence|]. cbn [andb]. auto.
        - rewrite !Eq. auto. }
      destruct (nd_sink (nd h i)) as [|s1 r1]; [cbn [sbind]; exact G|].
      destruct (nd_qid (nd h s1) =? nd_qid (nd h self)); cbn [sbind]; [exact G|eauto].
  Qed.
  Lemma identity_raises h vis l q i : wf h vis -> incl l vis -> In q l -> In i vis -> In q (inputs_of h i) ->
    exists h', exec h (Identity l) = (h', Raise GenericException).
  Proof.
    intros W Hl Hq Hi Hqi. cbn [exec]. unfold new_node.
    cbv zeta. cbn iota.
    match goal with |- context [if ?n <=? 0 then _ else _] => destruct (Z.leb_spec n 0) end; [cbn; eauto|].
    pose proof (wf_sink _ _ W i q Hi Hqi) as Hs. destruct (nd_sink (nd h q)) as [|s0 rest] eqn:Es; [destruct Hs|].
    assert (Hqs : (q < size h)%nat) by (apply (wf_vis _ _ W); auto).
    assert (Hs0 : (s0 < size h)%nat) by (apply (wf_back _ (wf_base _ _ W) q s0); rewrite Es; left; auto).
    match goal with |- context [sfold _ l ?H] => set (h1 := H) end.
    assert (Hold : forall j, (j < size h)%nat -> nd h1 j = nd h j) by (intros j Hj; unfold nd, h1; cbn [h_nodes]; apply app_nth1; exact Hj).
    assert (Hself : nd_kind (nd h1 (size h)) = KQubit /\ nd_qid (nd h1 (size h)) = h_qid h).
    { unfold nd, h1, size. cbn [h_nodes]. rewrite nth_middle. auto. }
    destruct Hself as [Hk Hqid].
    destruct (sinks_raise (size h) q l h1 s0 rest) as (h' & E).
    - rewrite Hk. auto.
    - auto.
    - intros j Hj. unfold h1, size. cbn [h_nodes]. rewrite app_length. pose proof (wf_vis _ _ W j (Hl j Hj)). unfold size in *. lia.
    - rewrite Hold; auto.
    - rewrite Hold, Hqid by auto. pose proof (wf_next _ (wf_base _ _ W) s0 Hs0). lia.
    - rewrite E. cbn. eauto.
  Qed.
End Clone.

(** ** linearity *)
Section Linear.
  Context {K : Type} {OK : OrdRing K}.
  Notation C := (Cx K).
  Add Ring CRing10 : (@rth C _).
  Variable n : Z.
  Hypothesis Hn : 0 <= n.
  Local Notation eqv := (fun v v' : Z -> C => forall r, 0 <= r < 2 ^ n -> v r = v' r).
  Local Notation lin a v b u := (fun r : Z => (a * v r + b * u r)%r).

  Lemma apply1_lin g q (a b : C) v u r : apply1 n g q (lin a v b u) r = (a * apply1 n g q v r + b * apply1 n g q u r)%r.
  Proof. unfold apply1. destruct g as [[[x y] z] t]. destruct (qbit n r q); ring. Qed.
  Lemma apply_each_lin g qs (a b : C) v u : (forall q, In q qs -> 0 <= q < n) ->
    eqv (apply_each n g qs (lin a v b u)) (lin a (apply_each n g qs v) b (apply_each n g qs u)).
  Proof.
    unfold apply_each. induction qs as [|q qs IH]; cbn [fold_right]; intros Hq r Hr; auto.
    rewrite <- (apply1_lin g q a b (fold_right (apply1 n g) v qs) (fold_right (apply1 n g) u qs) r).
    unfold apply1 at 1 3. pose proof (flipped_range n q r (Hq q (or_introl eq_refl)) Hr). destruct g as [[[x y] z] t].
    rewrite !IH by (auto; intros; apply Hq; right; auto). reflexivity.
  Qed.
  Lemma op_acts_lin o : forall groups (a b : C) v u, (forall q, In q (concat groups) -> 0 <= q < n) ->
    eqv (op_acts n o groups (lin a v b u)) (lin a (op_acts n o groups v) b (op_acts n o groups u)).
  Proof.
    induction o; intros groups a b v u Hq r Hr; cbn [op_acts]; try (apply apply_each_lin; auto; fail); auto.
    destruct (forallb _ _); auto. apply IHo; auto. destruct groups; cbn [tl concat] in *; auto. intros q Hi. apply Hq, in_app_iff; auto.
  Qed.
  Lemma node_sem_lin rsqrt groups (a b : C) v u x v' u' x' k cv cu cx : k <> KMeasure -> qubits_ok n (concat groups) ->
    eqv x (lin a v b u) -> node_sem rsqrt n groups v v' k cv -> node_sem rsqrt n groups u u' k cu -> node_sem rsqrt n groups x x' k cx ->
    eqv x' (lin a v' b u').
  Proof.
    intros Hk Hq Hx Hv Hu Hxx. destruct Hv as [Hv|l Hv|o Hv|o Hv|func f reg1 reg2 Eg Hf Hv|m p Hm1 Hp Hp0 Hv|ps Hv Hps|t l Hv Ht Pl Hd].
    - inversion Hu as [Hu'| | | | | | |]; subst. inversion Hxx as [Hx'| | | | | | |]; subst. intros r Hr. rewrite Hx', Hx, Hv, Hu'; auto.
    - inversion Hu as [|l' Hu'| | | | | |]; subst. inversion Hxx as [|l' Hx'| | | | | |]; subst. intros r Hr. rewrite Hx', Hx, Hv, Hu'; auto.
    - inversion Hu as [| |o' Hu'| | | | |]; subst. inversion Hxx as [| |o' Hx'| | | | |]; subst. intros r Hr. rewrite Hx', Hv, Hu' by auto.
      rewrite (op_acts_ext n Hn o groups x (lin a v b u)); auto; [|apply Hq]. apply op_acts_lin; auto. apply Hq.
    - inversion Hu as [| | |o' Hu'| | | |]; subst. inversion Hxx as [| | |o' Hx'| | | |]; subst. intros r Hr. rewrite Hx', Hv, Hu' by auto.
      rewrite (op_acts_ext n Hn (op_adj o) groups x (lin a v b u)); auto; [|apply Hq]. apply op_acts_lin; auto. apply Hq.
    - inversion Hu as [| | | |func1 f1 reg1' reg2' Eg1 Hf1 Hu'| | |]; subst. inversion Hxx as [| | | |func2 f2 reg1'' reg2'' Eg2 Hf2 Hx'| | |]; subst.
      inversion Eg1; subst reg1' reg2'. inversion Eg2; subst reg1'' reg2''.
      cbn [concat] in Hq. rewrite app_nil_r in Hq.
      assert (Eff : forall g, (forall x, 0 <= x < 2 ^ zlen reg1 -> func x = Ok (g x)) -> forall x, fxor n reg1 reg2 g x = fxor n reg1 reg2 f x).
      { intros g Hg y. unfold fxor. f_equal. f_equal. f_equal. pose proof (reg_range n reg1 y) as Hrr.
        pose proof (Hf _ Hrr) as E1. pose proof (Hg _ Hrr) as E2. congruence. }
      intros r Hr. pose proof (fxor_range n reg1 reg2 f r Hn) as Hr2.
      specialize (Hv _ Hr2). specialize (Hu' _ Hr2). specialize (Hx' _ Hr2). rewrite (Eff f1 Hf1) in Hu'. rewrite (Eff f2 Hf2) in Hx'.
      rewrite fxor_invol in Hv, Hu', Hx' by auto. rewrite Hv, Hu', Hx'. auto.
    - congruence.
    - intros r Hr. rewrite Hv by auto. inversion Hu as [| | | | | |ps1 Hu' Hps'|t1 l1 Hu' Ht1 Pl1 Hd1]; subst;
        inversion Hxx as [| | | | | |ps2 Hx' Hps2|t2 l2 Hx' Ht2 Pl2 Hd2]; subst; rewrite Hx', Hu'; auto.
    - intros r Hr. rewrite Hv by auto. inversion Hu as [| | | | | |ps1 Hu' Hps'|t1 l1 Hu' Ht1 Pl1 Hd1]; subst;
        inversion Hxx as [| | | | | |ps2 Hx' Hps2|t2 l2 Hx' Ht2 Pl2 Hd2]; subst; rewrite Hx', Hu'; auto.
  Qed.
End Linear.

Section Mat.
  Context {K : Type} {OK : OrdRing K}.
  Notation C := (Cx K).
  Add Ring CRing11 : (@rth C _).
  Variables (h : heap K) (vis args : list nat) (srcs : list nat).
  Hypothesis W : wf h vis.
  Hypothesis Hargs : incl args vis.
  Hypothesis Hsplit : forall i idx k, ancestor h args i -> nd_kind (nd h i) = KSplit idx -> inputs_of h i <> [] ->
    In k idx -> 0 <= k < widths h (inputs_of h i).
  Hypothesis Hsrcs : sources h args srcs.
  Hypothesis Hok : forall i, ancestor h args i -> node_ok h srcs (widths h srcs) i.
  Hypothesis Hnm : no_measure h args.
  Notation w := (wire h srcs).
  Notation n := (widths h srcs).
  Local Notation eqv := (fun v v' : Z -> C => forall r, 0 <= r < 2 ^ n -> v r = v' r).
  Local Notation lin a v b u := (fun r : Z => (a * v r + b * u r)%r).

  Lemma evolves_lin rsqrt (a b : C) : forall l v v', evolves rsqrt h srcs n l v v' -> forall l1 u u', evolves rsqrt h srcs n l1 u u' ->
    forall l2 x x', evolves rsqrt h srcs n l2 x x' -> map fst l1 = map fst l -> map fst l2 = map fst l ->
    (forall i, In i (map fst l) -> ancestor h args i) -> eqv x (lin a v b u) -> eqv x' (lin a v' b u').
  Proof.
    assert (Hn : 0 <= n) by (eapply n_nonneg; eauto).
    induction 1 as [v v' Hv|i cv l gs v v1 v' Hgs Hsem Hev IH]; intros l1 u u' Hu l2 x x' Hx E1 E2 Hanc Hvu.
    - destruct l1; [|discriminate]. destruct l2; [|discriminate]. inversion Hu as [u1 u2 Hu1|]; subst. inversion Hx as [x1 x2 Hx1|]; subst.
      intros r Hr. rewrite Hx1, Hvu, Hv, Hu1; auto.
    - destruct l1 as [|[i1 c1] l1]; [discriminate|]. destruct l2 as [|[i2 c2] l2]; [discriminate|]. cbn [map fst] in E1, E2.
      injection E1 as E1i E1. injection E2 as E2i E2. subst i1 i2.
      inversion Hu as [|i' cv' l3 gs' u0 u1 u0' Hgs' Hsem' Hev']; subst. inversion Hx as [|i'' cv'' l4 gs'' x0 x1 x0' Hgs'' Hsem'' Hev'']; subst.
      assert (Ha : ancestor h args i) by (apply Hanc; left; auto).
      rewrite (wires_inputs_fun h vis args srcs W Hargs Hsplit Hsrcs i gs Ha Hgs) in *.
      rewrite (wires_inputs_fun h vis args srcs W Hargs Hsplit Hsrcs i gs' Ha Hgs') in *.
      rewrite (wires_inputs_fun h vis args srcs W Hargs Hsplit Hsrcs i gs'' Ha Hgs'') in *.
      apply (IH l1 u1 u' Hev' l2 x1 x' Hev''); auto.
      { intros j Hj. apply Hanc. right; auto. }
      assert (Hk : (nd_kind (nd h i) = KQubit \/ exists l, nd_kind (nd h i) = KSplit l) \/
                   (nd_kind (nd h i) <> KQubit /\ forall l, nd_kind (nd h i) <> KSplit l)).
      { destruct (nd_kind (nd h i)); eauto; right; split; try discriminate; intros; discriminate. }
      destruct Hk as [[Hk|[ix Hk]]|[Hk1 Hk2]].
      + rewrite Hk in *. inversion Hsem as [A| | | | | | |]; subst. inversion Hsem' as [B| | | | | | |]; subst. inversion Hsem'' as [D| | | | | | |]; subst.
        intros r Hr. rewrite D, Hvu, A, B; auto.
      + rewrite Hk in *. inversion Hsem as [|ix1 A| | | | | |]; subst. inversion Hsem' as [|ix2 B| | | | | |]; subst. inversion Hsem'' as [|ix3 D| | | | | |]; subst.
        intros r Hr. rewrite D, Hvu, A, B; auto.
      + destruct (a_qubits_ok h vis args srcs W Hargs Hsplit Hsrcs Hok i Ha Hk1 Hk2) as [Hq _].
        refine (node_sem_lin n Hn rsqrt _ a b v u x v1 u1 x1 _ _ _ _ (Hnm i Ha) Hq Hvu Hsem Hsem' Hsem'').
  Qed.
End Mat.
