(** Topological orders: independent neighbours can be exchanged. *)
From Coq Require Import Sorted.
From Verif Require Import Base S_Bits L_Bits M_Kron S_Kron M_Ops S_Ops M_Feed S_Feed M_Func S_Func
  M_Measure S_Measure L_Alg M_Graph S_Graph L_Graph1 L_Graph2 L_Graph3 L_Graph4 L_Graph5 S_Order.

Section Bubble.
  Context {A : Type}.
  Variables (R : list A -> Prop) (P : A -> Prop) (k1 k2 : A -> nat).
  Hypothesis Hswap : forall l1 a b l2, P a -> P b -> (k1 a < k1 b)%nat -> (k2 b < k2 a)%nat -> R (l1 ++ a :: b :: l2) -> R (l1 ++ b :: a :: l2).
  Let lt1 x y := (k1 x < k1 y)%nat.
  Let lt2 x y := (k2 x < k2 y)%nat.

  Lemma to_front l0 a Q : forall L, P a -> (forall p, In p L -> P p /\ (k1 p < k1 a)%nat /\ (k2 a < k2 p)%nat) -> R (l0 ++ L ++ a :: Q) -> R (l0 ++ a :: L ++ Q).
  Proof.
    intros L Ha. revert Q. induction L as [|p L IH] using rev_ind; intros Q HL HR; [exact HR|].
    rewrite <- app_assoc. cbn [app]. apply IH; [intros x Hx; apply HL, in_app_iff; auto|].
    destruct (HL p) as (Hp & H1 & H2); [apply in_app_iff; right; left; auto|].
    rewrite app_assoc. apply Hswap; auto. rewrite <- !app_assoc in *. exact HR.
  Qed.
  Lemma sorted_mid (lt : A -> A -> Prop) : forall L a Q, StronglySorted lt (L ++ a :: Q) -> (forall p, In p L -> lt p a) /\ StronglySorted lt (L ++ Q).
  Proof.
    induction L as [|x L IH]; cbn [app]; intros a Q H; inversion H as [|? ? HS HF]; subst.
    - split; [intros p []|auto].
    - destruct (IH a Q HS) as [H1 H2]. rewrite Forall_forall in HF. split.
      + intros p [<-|Hp]; auto. apply HF, in_app_iff. right; left; auto.
      + constructor; auto. apply Forall_forall. intros y Hy. apply HF. apply in_app_iff in Hy. apply in_app_iff. cbn. tauto.
  Qed.
  Theorem bubble : forall L' L l0, Permutation L L' -> (forall x, In x L -> P x) -> StronglySorted lt1 L -> StronglySorted lt2 L' ->
    R (l0 ++ L) -> R (l0 ++ L').
  Proof.
    induction L' as [|a L' IH]; intros L l0 HP HPr H1 H2 HR.
    - apply Permutation_sym, Permutation_nil in HP. subst. exact HR.
    - assert (Ha : In a L) by (eapply Permutation_in; [apply Permutation_sym; exact HP|left; auto]).
      destruct (in_split a L Ha) as (X & Q & ->). destruct (sorted_mid lt1 X a Q H1) as [H3 H4].
      assert (HP' : Permutation (X ++ Q) L') by (apply Permutation_sym; eapply Permutation_cons_app_inv; apply Permutation_sym; exact HP).
      inversion H2 as [|? ? HS HF]; subst. rewrite Forall_forall in HF.
      replace (l0 ++ a :: L') with ((l0 ++ [a]) ++ L') by (rewrite <- app_assoc; reflexivity).
      apply (IH (X ++ Q)); auto.
      + intros x Hx. apply HPr. apply in_app_iff in Hx. apply in_app_iff. cbn. tauto.
      + rewrite <- app_assoc. cbn [app]. apply to_front; auto. intros p Hp. split; [apply HPr, in_app_iff; auto|]. split; [apply H3; auto|].
        apply HF. eapply Permutation_in; [exact HP'|apply in_app_iff; auto].
  Qed.
End Bubble.

Section Chain.
  Context {K : Type} {OK : OrdRing K}.
  Variables (h : heap K) (vis args : list nat) (srcs : list nat).
  Hypothesis W : wf h vis.
  Hypothesis Hargs : incl args vis.
  Hypothesis Hsplit : forall i idx k, ancestor h args i -> nd_kind (nd h i) = KSplit idx -> inputs_of h i <> [] ->
    In k idx -> 0 <= k < widths h (inputs_of h i).
  Hypothesis Hsrcs : sources h args srcs.
  Hypothesis Honce : used_once h args srcs.
  Notation WF0 := (wf_base _ _ W).
  Notation w := (wire h srcs).
  Notation n := (widths h srcs).

  (** the wires of a node with inputs are among those of its inputs *)
  Lemma w_from i q : ancestor h args i -> inputs_of h i <> [] -> In q (w i) -> exists j, In j (inputs_of h i) /\ In q (w j).
  Proof.
    intros Hi Hne Hq. pose proof (a_size h vis args W Hargs i Hi) as Hlt. pose proof (a_inlen h vis args srcs W Hargs Hsrcs i Hi) as El.
    assert (Hc : In q (concat (map w (inputs_of h i)))).
    { rewrite (wire_eq h srcs i WF0 Hlt) in Hq. destruct (inputs_of h i) as [|a l] eqn:E; [congruence|]. rewrite <- E in *.
      pose proof (Hsplit i) as Hr. destruct (nd_kind (nd h i)) as [|ix| | | |]; cbn [sel] in Hq; auto.
      apply in_map_iff in Hq. destruct Hq as (k & <- & Hk). apply znth_in. specialize (Hr ix k Hi eq_refl Hne Hk). lia. }
    apply in_concat in Hc. destruct Hc as (g & Hg & Hq'). apply in_map_iff in Hg. destruct Hg as (j & <- & Hj). exists j. auto.
  Qed.
  Lemma w_source i j q : ancestor h args i -> ancestor h args j -> inputs_of h i = [] -> inputs_of h j = [] -> In q (w i) -> In q (w j) -> i = j.
  Proof.
    intros Hi Hj Ei Ej Hqi Hqj. rewrite (wire_eq h srcs i WF0 (a_size h vis args W Hargs i Hi)), Ei in Hqi.
    rewrite (wire_eq h srcs j WF0 (a_size h vis args W Hargs j Hj)), Ej in Hqj.
    assert (Hnd : NoDup srcs) by (apply sorted_lt_NoDup, Hsrcs).
    assert (Hsi : In i srcs) by (apply Hsrcs; auto). assert (Hsj : In j srcs) by (apply Hsrcs; auto).
    assert (Hw : forall l, incl l srcs -> 0 <= widths h l).
    { intros l Hl. apply widths_nonneg. intros x Hx. apply (src_nonneg h vis args srcs W Hargs Hsrcs). auto. }
    assert (G : forall x y l1 l2 m1 m2, srcs = l1 ++ x :: l2 -> srcs = m1 ++ y :: m2 -> In q (src_wire h srcs x) -> In q (src_wire h srcs y) ->
      (length l1 < length m1)%nat -> False).
    { intros x y l1 l2 m1 m2 E1 E2 Q1 Q2 HL. rewrite (src_wire_eq h srcs l1 x l2 Hnd E1) in Q1. rewrite (src_wire_eq h srcs m1 y m2 Hnd E2) in Q2.
      apply in_zrange in Q1, Q2. assert (E : exists t, m1 = l1 ++ x :: t).
      { exists (firstn (length m1 - length l1 - 1) l2). rewrite E1 in E2. assert (F : firstn (length m1) (l1 ++ x :: l2) = m1).
        { rewrite E2, firstn_app, Nat.sub_diag, firstn_O, app_nil_r. apply firstn_all. }
        rewrite <- F at 1. rewrite firstn_app, firstn_all2 by lia. f_equal.
        destruct (length m1 - length l1)%nat as [|k] eqn:Ek; [lia|]. cbn [firstn]. rewrite Nat.sub_1_r. reflexivity. }
      destruct E as (t & ->). rewrite widths_app, widths_cons in Q2.
      assert (0 <= widths h t); [|lia]. apply Hw. intros z Hz. rewrite E2. apply in_app_iff. left. apply in_app_iff. right; right; auto. }
    destruct (in_split i srcs Hsi) as (l1 & l2 & E1). destruct (in_split j srcs Hsj) as (m1 & m2 & E2).
    destruct (Nat.lt_trichotomy (length l1) (length m1)) as [H|[H|H]].
    - exfalso. exact (G i j l1 l2 m1 m2 E1 E2 Hqi Hqj H).
    - rewrite E1 in E2. assert (X : nth_error (l1 ++ i :: l2) (length l1) = nth_error (m1 ++ j :: m2) (length m1)) by (rewrite E2, H; auto).
      rewrite !nth_error_app2, !Nat.sub_diag in X by lia. cbn in X. congruence.
    - exfalso. exact (G j i m1 m2 l1 l2 E2 E1 Hqj Hqi H).
  Qed.

  (** a path from [i] to [j] along nodes that carry [q] *)
  Inductive thru (q : Z) (i : nat) : nat -> Prop :=
  | thru_refl : thru q i i
  | thru_step k j : thru q i k -> In k (inputs_of h j) -> ancestor h args j -> In q (w j) -> thru q i j.
  Lemma thru_trans q a b c : thru q a b -> thru q b c -> thru q a c.
  Proof. intros H1 H2. induction H2 as [|k j H IH Hk Hj Hq]; auto. eapply thru_step; eauto. Qed.
  Lemma thru_first q i j : thru q i j -> i = j \/ exists k, In i (inputs_of h k) /\ ancestor h args k /\ In q (w k) /\ thru q k j.
  Proof.
    induction 1 as [|k j H IH Hk Hj Hq]; auto. right. destruct IH as [<-|(x & H1 & H2 & H3 & H4)].
    - exists j. split; auto. split; auto. split; auto. constructor.
    - exists x. split; auto. split; auto. split; auto. eapply thru_step; eauto.
  Qed.
  Lemma same_user p j j' q : ancestor h args j -> ancestor h args j' -> In p (inputs_of h j) -> In p (inputs_of h j') -> In q (w j) -> In q (w j') -> j = j'.
  Proof.
    intros Hj Hj' Hp Hp' Hq Hq'. apply (Honce p j j' (w j) (w j') q); auto; apply (a_wires h vis args srcs W Hargs Hsplit Hsrcs); auto.
  Qed.
  Lemma chain q : forall m i j, (i + j < m)%nat -> ancestor h args i -> ancestor h args j -> In q (w i) -> In q (w j) -> thru q i j \/ thru q j i.
  Proof.
    assert (Up : forall i j p, In p (inputs_of h j) -> ancestor h args i -> ancestor h args j -> In q (w i) -> In q (w j) ->
      thru q i p \/ thru q p i -> thru q i j \/ thru q j i).
    { intros i j p Hp Hi Hj Hqi Hqj [H|H].
      - left. eapply thru_step; eauto.
      - destruct (thru_first q p i H) as [<-|(k & H1 & H2 & H3 & H4)].
        + left. apply (thru_step q p p j); auto.
        + right. rewrite (same_user p j k q); auto. }
    induction m as [|m IH]; intros i j Hm Hi Hj Hqi Hqj; [lia|].
    pose proof (a_size h vis args W Hargs i Hi) as Si. pose proof (a_size h vis args W Hargs j Hj) as Sj.
    destruct (inputs_of h j) as [|a l] eqn:Ej.
    - destruct (inputs_of h i) as [|a l] eqn:Ei.
      + left. rewrite (w_source i j q); auto. constructor.
      + destruct (w_from i q Hi) as (p & Hp & Hqp); auto; [congruence|].
        pose proof (wf_in h WF0 i p Si Hp). destruct (Up j i p Hp Hj Hi Hqj Hqi) as [H'|H']; auto.
        assert (Hpa : ancestor h args p) by (exact (anc_input h args i p Hi Hp)). destruct (IH p j ltac:(lia) Hpa Hj Hqp Hqj); auto.
    - destruct (w_from j q Hj) as (p & Hp & Hqp); auto; [congruence|].
      pose proof (wf_in h WF0 j p Sj Hp). apply (Up i j p Hp Hi Hj Hqi Hqj).
      apply (IH i p); auto; [lia|]. eapply anc_input; eauto.
  Qed.
  (** two nodes whose order differs in two topological orders have no qubit in common *)
  Lemma independent (k2 : nat -> nat) i j : (forall a b, ancestor h args b -> In a (inputs_of h b) -> (k2 a < k2 b)%nat) ->
    ancestor h args i -> ancestor h args j -> (i < j)%nat -> (k2 j < k2 i)%nat -> forall q, In q (w i) -> ~ In q (w j).
  Proof.
    intros Hk Hi Hj H1 H2 q Hqi Hqj.
    assert (G : forall a b, thru q a b -> (a <= b)%nat /\ (k2 a <= k2 b)%nat).
    { induction 1 as [|k b H [IH1 IH2] Hk' Hb Hqb]; [lia|]. pose proof (wf_in h WF0 b k (a_size h vis args W Hargs b Hb) Hk'). pose proof (Hk k b Hb Hk'). lia. }
    destruct (chain q _ i j (Nat.lt_succ_diag_r _) Hi Hj Hqi Hqj) as [H|H]; apply G in H; lia.
  Qed.
End Chain.
