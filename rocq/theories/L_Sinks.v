(** Which objects get new sinks. *)
From Verif Require Import Base M_Kron M_Ops M_Feed M_Graph S_Graph L_Graph1.

Section Sinks.
  Context {K : Type} {OK : OrdRing K}.
  Implicit Types h : heap K.

  (** only objects of [old] get new sinks; those of [new] have none *)
  Definition moves h h' (old new : list nat) : Prop :=
    (forall j, (j < size h)%nat -> ~ In j old -> nd_sink (nd h' j) = nd_sink (nd h j)) /\
    forall j, In j new -> nd_sink (nd h' j) = [].

  Lemma nd_beyond h j : (size h <= j)%nat -> nd_sink (nd h j) = [].
  Proof. intros H. unfold nd. rewrite nth_overflow by exact H. reflexivity. Qed.
  Lemma set_sink_touch self i h h' r : set_sink h i self = (h', r) -> forall j, j <> i -> nd_sink (nd h' j) = nd_sink (nd h j).
  Proof.
    intros E j Hj. assert (A : nd_sink (nd (add_sink h i self) j) = nd_sink (nd h j)).
    { destruct (sink_add_sink h i self j) as [->|(-> & _)]; auto. congruence. }
    unfold set_sink in E. destruct (is_qubit _).
    - destruct (nd_sink (nd h i)); [inversion E; subst; auto|]. destruct (_ =? _); inversion E; subst; auto.
    - inversion E; subst; auto.
  Qed.
  Lemma sinks_touch self : forall l h h' r, sfold (fun h item => set_sink h item self) l h = (h', r) ->
    forall j, ~ In j l -> nd_sink (nd h' j) = nd_sink (nd h j).
  Proof.
    induction l as [|i l IH]; intros h h' r E j Hj; cbn [sfold] in E; [inversion E; auto|].
    destruct (set_sink h i self) as [h1 [u|e]] eqn:E1; cbn [sbind] in E.
    - rewrite (IH _ _ _ E) by (intros H; apply Hj; right; auto). eapply set_sink_touch; eauto. intros ->. apply Hj; left; auto.
    - inversion E; subst. eapply set_sink_touch; eauto. intros ->. apply Hj; left; auto.
  Qed.
  Lemma snoc_sink h nodes x q : h_nodes h = nodes -> nd_sink x = [] -> forall j, nd_sink (nd (mkHeap (nodes ++ [x]) q) j) = nd_sink (nd h j).
  Proof.
    intros E Hx j. unfold nd. cbn [h_nodes]. rewrite E. destruct (Nat.lt_total j (length nodes)) as [H|[->|H]].
    - rewrite app_nth1; auto.
    - rewrite nth_middle, nth_overflow by lia. auto.
    - rewrite !nth_overflow; auto; rewrite ?app_length; cbn; lia.
  Qed.
  Lemma new_node_touch h k inputs n qid nosink d h' r : new_node h k inputs n qid nosink d = (h', r) ->
    forall j, ~ In j inputs -> nd_sink (nd h' j) = nd_sink (nd h j).
  Proof.
    unfold new_node. intros E j Hj.
    destruct (match d with Some (DList _) => _ | _ => _ end); [inversion E; auto|]. destruct (_ <=? 0); [inversion E; auto|].
    destruct (match qid with Some q => (q, h_qid h) | None => (h_qid h, h_qid h + 1) end) as [q nx].
    destruct nosink; [inversion E; subst; apply snoc_sink; auto|].
    destruct (sfold _ _ _) as [h1 [u|e]] eqn:Es; cbn [sbind] in E; inversion E; subst;
      rewrite (sinks_touch _ _ _ _ _ Es) by auto; apply snoc_sink; auto.
  Qed.
  Lemma new_gate_touch g : forall h inputs qid nosink dg h' r, new_gate h g inputs qid nosink dg = (h', r) ->
    forall j, ~ In j inputs -> nd_sink (nd h' j) = nd_sink (nd h j).
  Proof.
    induction g as [| | | | | |g IHg ins]; intros h inputs qid nosink dg h' r E j Hj; cbn [new_gate] in E; try (eapply new_node_touch; eauto; fail).
    - destruct (new_node _ _ _ _ _ _ _) as [h1 [u|x]] eqn:E1; cbn [sbind] in E.
      + assert (h' = h1) as -> by (destruct inputs as [|? [|? [|]]]; try (inversion E; auto; fail); destruct (_ =? _); inversion E; auto).
        eapply new_node_touch; eauto.
      + inversion E; subst. eapply new_node_touch; eauto.
    - destruct (_ <? 2); [inversion E; auto|]. destruct inputs as [|c rest]; [inversion E; auto|].
      destruct (negb _); [inversion E; auto|]. destruct (repeated _); [inversion E; auto|].
      destruct (new_gate h g rest None ins dg) as [h1 [i|x]] eqn:E1; cbn [sbind] in E.
      + assert (H1 : nd_sink (nd h1 j) = nd_sink (nd h j)) by (eapply IHg; eauto; intros H; apply Hj; right; auto).
        rewrite <- H1. destruct (nd_kind (nd h1 i)); try (inversion E; auto; fail). eapply new_node_touch; eauto.
      + inversion E; subst. eapply IHg; eauto. intros H; apply Hj; right; auto.
  Qed.
  Lemma split_loop_touch self : forall bounds h qid qs h' r, split_loop h self bounds qid qs = (h', r) ->
    forall j, j <> self -> nd_sink (nd h' j) = nd_sink (nd h j).
  Proof.
    induction bounds as [|s [|e rest] IH]; intros h qid qs h' r E j Hj; cbn [split_loop] in E; try (inversion E; auto; fail).
    unfold new_split in E. destruct (new_node _ _ _ _ _ _ _) as [h1 [sq|x]] eqn:E1; cbn [sbind] in E.
    - rewrite (IH _ _ _ _ _ E) by auto. eapply new_node_touch; eauto. intros [->|[]]; auto.
    - inversion E; subst. eapply new_node_touch; eauto. intros [->|[]]; auto.
  Qed.
  Lemma split_touch self h idx h' r : split h self idx = (h', r) -> forall j, j <> self -> nd_sink (nd h' j) = nd_sink (nd h j).
  Proof.
    unfold split. intros E j Hj. destruct (split_bounds h self idx); [|inversion E; auto]. eapply split_loop_touch; eauto.
  Qed.

  (** a Qubit made of objects without sinks *)
  Lemma sinks_idle self : forall l h, NoDup l -> (forall i, In i l -> nd_sink (nd h i) = []) ->
    exists h', sfold (fun h item => set_sink h item self) l h = (h', Ok tt).
  Proof.
    induction l as [|i l IH]; intros h Hd Hi; cbn [sfold]; [eauto|]. inversion Hd; subst.
    assert (E : set_sink h i self = (add_sink h i self, Ok tt)).
    { unfold set_sink. rewrite (Hi i) by (left; auto). destruct (is_qubit _); auto. }
    rewrite E. cbn [sbind]. apply IH; auto. intros j Hj. rewrite (set_sink_touch _ _ _ _ _ E); [apply Hi; right; auto|]. intros ->; auto.
  Qed.
  Lemma qubit_total h l : NoDup l -> l <> [] -> (forall i, In i l -> (i < size h)%nat /\ nd_sink (nd h i) = []) -> 0 < sum_n h l ->
    exists h', new_node h KQubit l None None false None = (h', Ok (size h)).
  Proof.
    intros Hd Hne Hi Hp. unfold new_node. destruct l as [|a l]; [congruence|]. rewrite (proj2 (Z.leb_gt _ _) Hp).
    match goal with |- context [sfold _ _ ?H] => destruct (sinks_idle (size h) (a :: l) H Hd) as (h' & ->) end.
    - intros i Hin. rewrite (snoc_sink h); auto. apply Hi; auto.
    - cbn [sbind]. eauto.
  Qed.
End Sinks.
