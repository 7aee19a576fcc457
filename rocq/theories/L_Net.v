From Verif Require Import Base M_Net S_Net.

Section NetLemmas.
  Context {P M R : Type} (peqb : P -> P -> bool) (peqb_ok : forall a b, peqb a b = true <-> a = b) (cap : P -> P -> option nat).
  Notation net := (net P M R).
  Notation exec := (exec peqb cap).
  Notation runs := (runs peqb cap).

  Lemma peqb_refl a : peqb a a = true.
  Proof. apply peqb_ok. reflexivity. Qed.
  Lemma peqb_neq a b : a <> b -> peqb a b = false.
  Proof. intros H. destruct (peqb a b) eqn:E; [|reflexivity]. apply peqb_ok in E. contradiction. Qed.
  Lemma peqb_dec (a b : P) : {a = b} + {a <> b}.
  Proof. destruct (peqb a b) eqn:E; [left; apply peqb_ok; exact E|right]. intros ->. rewrite peqb_refl in E. discriminate. Qed.

  (** the same process: continuations that agree on every message *)
  Inductive peq : proc P M R -> proc P M R -> Prop :=
  | peq_ret r : peq (Ret r) (Ret r)
  | peq_fail e : peq (Fail e) (Fail e)
  | peq_send to m k k' : peq k k' -> peq (Send to m k) (Send to m k')
  | peq_recv from k k' : (forall m, peq (k m) (k' m)) -> peq (Recv from k) (Recv from k').
  Lemma peq_refl p : peq p p. Proof. induction p; constructor; auto. Qed.
  Lemma peq_sym p q : peq p q -> peq q p. Proof. induction 1; constructor; auto. Qed.
  Lemma peq_trans p q : peq p q -> forall r, peq q r -> peq p r.
  Proof. induction 1; intros x Hx; inversion Hx; subst; constructor; auto. Qed.
  Lemma peq_eq p q : p = q -> peq p q. Proof. intros ->. apply peq_refl. Qed.

  Definition eqv (s t : net) : Prop := (forall i, peq (procs s i) (procs t i)) /\ (forall a b, chans s a b = chans t a b).
  Lemma eqv_intro s t : (forall i, procs s i = procs t i) -> (forall a b, chans s a b = chans t a b) -> eqv s t.
  Proof. intros H1 H2. split; [intros i; apply peq_eq, H1|exact H2]. Qed.
  Lemma eqv_refl s : eqv s s. Proof. apply eqv_intro; reflexivity. Qed.
  Lemma eqv_sym s t : eqv s t -> eqv t s. Proof. intros [H1 H2]. split; intros; [apply peq_sym|symmetry]; auto. Qed.
  Lemma eqv_trans s t u : eqv s t -> eqv t u -> eqv s u. Proof. intros [H1 H2] [H3 H4]. split; intros; [eapply peq_trans; [apply H1|apply H3]|rewrite H2]; auto. Qed.

  Lemma exec_eqv s t i s1 : eqv s t -> exec s i = Some s1 -> exists t1, exec t i = Some t1 /\ eqv s1 t1.
  Proof.
    intros [Hp Hc]. unfold M_Net.exec. assert (Hi := Hp i). destruct (procs s i) as [r|e|to m k|from k]; try discriminate.
    - inversion Hi as [| |? ? ? k' Hk E1 E2|]; subst. rewrite <- Hc. destruct (has_room (cap i to) (chans s i to)); [|discriminate]. intros E. injection E as <-. eexists. split; [reflexivity|].
      split; cbn [procs chans]; unfold set1, set2; intros; [destruct (peqb i0 i); auto|rewrite ?Hc; reflexivity].
    - inversion Hi as [| | |? ? k' Hk E1 E2]; subst. rewrite <- Hc. destruct (chans s from i) as [|m l]; [discriminate|]. intros E. injection E as <-. eexists. split; [reflexivity|].
      split; cbn [procs chans]; unfold set1, set2; intros; [destruct (peqb i0 i); auto|rewrite ?Hc; reflexivity].
  Qed.

  (** the run by schedule l ends in a net that looks like t *)
  Fixpoint steps (s : net) (l : list P) (t : net) : Prop :=
    match l with [] => eqv s t | i :: l => exists s1, exec s i = Some s1 /\ steps s1 l t end.
  Lemma steps_eqv_l l : forall s s' t, eqv s s' -> steps s l t -> steps s' l t.
  Proof.
    induction l as [|i l IH]; intros s s' t He H; cbn in *; [exact (eqv_trans _ _ _ (eqv_sym _ _ He) H)|].
    destruct H as (s1 & E & H). destruct (exec_eqv s s' i s1 He E) as (t1 & E1 & He1). exists t1. split; [exact E1|exact (IH _ _ _ He1 H)].
  Qed.
  Lemma steps_eqv_r l : forall s t t', eqv t t' -> steps s l t -> steps s l t'.
  Proof.
    induction l as [|i l IH]; intros s t t' He H; cbn in *; [exact (eqv_trans _ _ _ H He)|].
    destruct H as (s1 & E & H). exists s1. split; [exact E|exact (IH _ _ _ He H)].
  Qed.
  Lemma steps_app l l' : forall s t u, steps s l t -> steps t l' u -> steps s (l ++ l') u.
  Proof.
    induction l as [|i l IH]; intros s t u H H'; cbn in *; [exact (steps_eqv_l l' t s u (eqv_sym _ _ H) H')|].
    destruct H as (s1 & E & H). exists s1. split; [exact E|exact (IH _ _ _ H H')].
  Qed.

  Lemma has_room_tail c (m : M) l : has_room c (m :: l) = true -> has_room c l = true.
  Proof. destruct c as [c|]; [|reflexivity]. unfold has_room. rewrite !Nat.ltb_lt. cbn [length]. lia. Qed.
  Lemma pair_eqb_neq a b c d : (a, b) <> (c, d) -> peqb a c && peqb b d = false.
  Proof. intros H. destruct (peqb a c) eqn:E1; [|reflexivity]. destruct (peqb b d) eqn:E2; [|reflexivity]. apply peqb_ok in E1, E2. congruence. Qed.

  Ltac cases := repeat match goal with
    | |- context [peqb ?a ?b] => let E := fresh in destruct (peqb a b) eqn:E; [apply peqb_ok in E|]; cbn [andb]; try subst; try congruence end.
  Lemma set1_eq {A} (f : P -> A) p a : set1 peqb f p a p = a.
  Proof. unfold set1. rewrite peqb_refl. reflexivity. Qed.
  Lemma set1_ne {A} (f : P -> A) p a q : q <> p -> set1 peqb f p a q = f q.
  Proof. intros H. unfold set1. rewrite (peqb_neq q p H). reflexivity. Qed.
  Lemma set2_eq {A} (f : P -> P -> A) p q a : set2 peqb f p q a p q = a.
  Proof. unfold set2. rewrite !peqb_refl. reflexivity. Qed.
  Lemma set2_ne {A} (f : P -> P -> A) p q a x y : (x, y) <> (p, q) -> set2 peqb f p q a x y = f x y.
  Proof. intros H. unfold set2. rewrite (pair_eqb_neq x y p q H). reflexivity. Qed.
  Lemma diamond s i j a b : i <> j -> exec s i = Some a -> exec s j = Some b -> exists c d, exec a j = Some c /\ exec b i = Some d /\ eqv c d.
  Proof.
    intros Hij. assert (Hji : j <> i) by congruence.
    unfold M_Net.exec. destruct (procs s i) as [|?|to m k|from k] eqn:Ei; try discriminate; destruct (procs s j) as [|?|to' m' k'|from' k'] eqn:Ej; try discriminate.
    - destruct (has_room (cap i to) (chans s i to)) eqn:R1; [|discriminate]. intros E. injection E as <-. destruct (has_room (cap j to') (chans s j to')) eqn:R2; [|discriminate]. intros E. injection E as <-.
      cbn [procs chans]. rewrite !set1_ne, Ei, Ej by assumption. rewrite !set2_ne, R1, R2 by congruence. do 2 eexists. split; [reflexivity|]. split; [reflexivity|].
      apply eqv_intro; cbn [procs chans]; unfold set1, set2; intros; cases.
    - destruct (has_room (cap i to) (chans s i to)) eqn:R1; [|discriminate]. intros E. injection E as <-. destruct (chans s from' j) as [|y l] eqn:C2; [discriminate|]. intros E. injection E as <-.
      cbn [procs chans]. rewrite !set1_ne, Ei, Ej by assumption.
      destruct (peqb_dec from' i) as [->|Hf]; [destruct (peqb_dec to j) as [->|Ht]|].
      + rewrite !set2_eq, C2. cbn [app]. rewrite C2 in R1. rewrite (has_room_tail _ _ _ R1). do 2 eexists. split; [reflexivity|]. split; [reflexivity|]. apply eqv_intro; cbn [procs chans]; unfold set1, set2; intros; cases.
      + rewrite !set2_ne, C2, R1 by congruence. do 2 eexists. split; [reflexivity|]. split; [reflexivity|]. apply eqv_intro; cbn [procs chans]; unfold set1, set2; intros; cases.
      + rewrite !set2_ne, C2, R1 by congruence. do 2 eexists. split; [reflexivity|]. split; [reflexivity|]. apply eqv_intro; cbn [procs chans]; unfold set1, set2; intros; cases.
    - destruct (chans s from i) as [|y l] eqn:C1; [discriminate|]. intros E. injection E as <-. destruct (has_room (cap j to') (chans s j to')) eqn:R2; [|discriminate]. intros E. injection E as <-.
      cbn [procs chans]. rewrite !set1_ne, Ei, Ej by assumption.
      destruct (peqb_dec from j) as [->|Hf]; [destruct (peqb_dec to' i) as [->|Ht]|].
      + rewrite !set2_eq, C1. cbn [app]. rewrite C1 in R2. rewrite (has_room_tail _ _ _ R2). do 2 eexists. split; [reflexivity|]. split; [reflexivity|]. apply eqv_intro; cbn [procs chans]; unfold set1, set2; intros; cases.
      + rewrite !set2_ne, C1, R2 by congruence. do 2 eexists. split; [reflexivity|]. split; [reflexivity|]. apply eqv_intro; cbn [procs chans]; unfold set1, set2; intros; cases.
      + rewrite !set2_ne, C1, R2 by congruence. do 2 eexists. split; [reflexivity|]. split; [reflexivity|]. apply eqv_intro; cbn [procs chans]; unfold set1, set2; intros; cases.
    - destruct (chans s from i) as [|y l] eqn:C1; [discriminate|]. intros E. injection E as <-. destruct (chans s from' j) as [|y' l'] eqn:C2; [discriminate|]. intros E. injection E as <-.
      cbn [procs chans]. rewrite !set1_ne, Ei, Ej by assumption. rewrite !set2_ne, C1, C2 by congruence.
      do 2 eexists. split; [reflexivity|]. split; [reflexivity|]. apply eqv_intro; cbn [procs chans]; unfold set1, set2; intros; cases.
  Qed.

  Definition terminal (s : net) : Prop := forall i, exec s i = None.
  Lemma step_towards l : forall s t j b, steps s l t -> terminal t -> exec s j = Some b -> exists l', steps b l' t /\ length l = S (length l').
  Proof.
    induction l as [|i l IH]; intros s t j b H Ht Ej; cbn in H.
    - destruct (exec_eqv s t j b H Ej) as (t1 & E & _). rewrite Ht in E. discriminate.
    - destruct H as (s1 & Ei & H). destruct (peqb_dec i j) as [->|Hij]; [rewrite Ei in Ej; injection Ej as ->; exists l; auto|].
      destruct (diamond s i j s1 b Hij Ei Ej) as (c & d & Ec & Ed & He). destruct (IH s1 t j c H Ht Ec) as (l2 & H2 & El).
      exists (i :: l2). split; [|cbn; rewrite El; reflexivity]. cbn. exists d. split; [exact Ed|]. exact (steps_eqv_l l2 c d t He H2).
  Qed.
  Lemma runs_towards l' : forall s l t s', steps s l t -> terminal t -> runs s l' = Some s' -> exists l'', steps s' l'' t /\ length l = (length l' + length l'')%nat.
  Proof.
    induction l' as [|j l' IH]; intros s l t s' H Ht E; cbn in E; [injection E as <-; exists l; auto|].
    destruct (exec s j) as [b|] eqn:Ej; [|discriminate]. destruct (step_towards l s t j b H Ht Ej) as (l1 & H1 & El).
    destruct (IH b l1 t s' H1 Ht E) as (l2 & H2 & El2). exists l2. split; [exact H2|]. cbn. lia.
  Qed.
  (** one terminating run settles all schedules *)
  Lemma confluence s l t (Q : net -> Prop) : steps s l t -> terminal t -> (forall t', eqv t t' -> Q t') -> always_ends peqb cap s Q.
  Proof.
    intros H Ht HQ. exists (length l). intros sched s' E. destruct (runs_towards sched s l t s' H Ht E) as (l2 & H2 & El). split; [lia|].
    destruct l2 as [|i l2]; cbn in H2; [left; apply HQ, eqv_sym; exact H2|right]. destruct H2 as (s1 & E1 & _). eauto.
  Qed.

  (** ** Building runs *)
  Definition go (s t : net) : Prop := exists l, steps s l t.
  Lemma go_refl s t : eqv s t -> go s t. Proof. intros H. exists []. exact H. Qed.
  Lemma go_trans s t u : go s t -> go t u -> go s u.
  Proof. intros [l H] [l' H']. exists (l ++ l'). exact (steps_app _ _ _ _ _ H H'). Qed.
  Lemma go_eqv_r s t t' : go s t -> eqv t t' -> go s t'. Proof. intros [l H] He. exists l. exact (steps_eqv_r _ _ _ _ He H). Qed.
  Lemma go_eqv_l s s' t : eqv s s' -> go s' t -> go s t. Proof. intros He [l H]. exists l. exact (steps_eqv_l _ _ _ _ (eqv_sym _ _ He) H). Qed.

  Lemma go_send s t i to m k : procs s i = Send to m k -> has_room (cap i to) (chans s i to) = true ->
    procs t i = k -> (forall x, x <> i -> procs t x = procs s x) -> chans t i to = chans s i to ++ [m] -> (forall x y, (x, y) <> (i, to) -> chans t x y = chans s x y) -> go s t.
  Proof.
    intros Ep Er Hk Hx Hc Hy. exists [i]. cbn. unfold M_Net.exec. rewrite Ep, Er. eexists. split; [reflexivity|]. apply eqv_intro; cbn [procs chans]; unfold set1, set2; intros.
    - destruct (peqb i0 i) eqn:E; [apply peqb_ok in E; subst; auto|]. symmetry. apply Hx. intros ->. rewrite peqb_refl in E. discriminate.
    - destruct (peqb a i && peqb b to) eqn:E; [apply andb_prop in E; destruct E as [E1 E2]; apply peqb_ok in E1, E2; subst; auto|].
      symmetry. apply Hy. intros E'. injection E' as -> ->. rewrite !peqb_refl in E. discriminate.
  Qed.
  Lemma go_recv s t i from m l k : procs s i = Recv from k -> chans s from i = m :: l ->
    procs t i = k m -> (forall x, x <> i -> procs t x = procs s x) -> chans t from i = l -> (forall x y, (x, y) <> (from, i) -> chans t x y = chans s x y) -> go s t.
  Proof.
    intros Ep Er Hk Hx Hc Hy. exists [i]. cbn. unfold M_Net.exec. rewrite Ep, Er. eexists. split; [reflexivity|]. apply eqv_intro; cbn [procs chans]; unfold set1, set2; intros.
    - destruct (peqb i0 i) eqn:E; [apply peqb_ok in E; subst; auto|]. symmetry. apply Hx. intros ->. rewrite peqb_refl in E. discriminate.
    - destruct (peqb a from && peqb b i) eqn:E; [apply andb_prop in E; destruct E as [E1 E2]; apply peqb_ok in E1, E2; subst; auto|].
      symmetry. apply Hy. intros E'. injection E' as -> ->. rewrite !peqb_refl in E. discriminate.
  Qed.
  (** another writing of a process *)
  Lemma recast s i p : peq (procs s i) p -> exists t, go s t /\ procs t i = p /\ (forall x, x <> i -> procs t x = procs s x) /\ (forall x y, chans t x y = chans s x y).
  Proof.
    intros H. exists (mkNet (set1 peqb (procs s) i p) (chans s)). cbn [procs chans]. split; [apply go_refl; split; cbn [procs chans]|].
    - intros x. unfold set1. destruct (peqb x i) eqn:E; [apply peqb_ok in E; subst; exact H|apply peq_refl].
    - reflexivity.
    - rewrite set1_eq. split; [reflexivity|]. split; [intros x Hx; apply set1_ne; exact Hx|reflexivity].
  Qed.
  (** one element of a list after the other *)
  Lemma go_list {X} (l : list X) (F : list X -> net) : (forall pre x post, l = pre ++ x :: post -> go (F pre) (F (pre ++ [x]))) -> go (F []) (F l).
  Proof.
    intros H. assert (H' : forall post pre, l = pre ++ post -> go (F pre) (F l)).
    { induction post as [|x post IH]; intros pre E; [rewrite app_nil_r in E; subst; apply go_refl, eqv_refl|].
      apply go_trans with (F (pre ++ [x])); [apply (H pre x post E)|]. apply IH. rewrite <- app_assoc. exact E. }
    apply (H' l []). reflexivity.
  Qed.
End NetLemmas.

(** ** Exception handlers: a run of a process without handlers is a run of the process with handlers, up to the point where
    the process ends *)
Section Handlers.
  Context {P M R : Type} (peqb : P -> P -> bool) (peqb_ok : forall a b, peqb a b = true <-> a = b) (cap : P -> P -> option nat).
  Notation net := (net P M R).
  Context (HR : R -> proc P M R -> Prop) (HF : exn -> proc P M R -> Prop).

  Inductive prel : proc P M R -> proc P M R -> Prop :=
  | prel_ret r q : HR r q -> prel (Ret r) q
  | prel_fail e q : HF e q -> prel (Fail e) q
  | prel_send to m k k' : prel k k' -> prel (Send to m k) (Send to m k')
  | prel_recv from k k' : (forall m, prel (k m) (k' m)) -> prel (Recv from k) (Recv from k').
  Lemma prel_peq p p' : peq p p' -> forall q, prel p q -> prel p' q.
  Proof. induction 1; intros q Hq; inversion Hq; subst; constructor; auto. Qed.
  Lemma prel_try {A} (p : proc P M A) f g h : (forall a, prel (f a) (g a)) -> (forall e, HF e (h e)) -> prel (pbind p f) (ptry p g h).
  Proof. intros H1 H2. induction p; cbn; try constructor; auto. Qed.

  Definition with_proc (s : net) (g : P) (q : proc P M R) : net := mkNet (set1 peqb (procs s) g q) (chans s).
  Lemma exec_with g s q i s1 : prel (procs s g) q -> exec peqb cap s i = Some s1 ->
    exists q1 t1, prel (procs s1 g) q1 /\ exec peqb cap (with_proc s g q) i = Some t1 /\ eqv t1 (with_proc s1 g q1).
  Proof.
    intros Hq. unfold exec. destruct (peqb_dec peqb peqb_ok i g) as [->|Hi].
    - cbn [with_proc procs chans]. rewrite (set1_eq peqb peqb_ok). destruct (procs s g) as [r|e|to m k|from k] eqn:E; try discriminate.
      + inversion Hq as [| |? ? ? k' Hk|]; subst. destruct (has_room (cap g to) (chans s g to)) eqn:Er; [|discriminate]. intros H. injection H as <-. exists k'. eexists. cbn [procs chans].
        rewrite (set1_eq peqb peqb_ok). split; [exact Hk|]. split; [reflexivity|]. apply eqv_intro; cbn [with_proc procs chans]; intros; [|reflexivity]. unfold set1. destruct (peqb i g); reflexivity.
      + inversion Hq as [| | |? ? k' Hk]; subst. destruct (chans s from g) as [|m l] eqn:Er; [discriminate|]. intros H. injection H as <-. exists (k' m). eexists. cbn [procs chans].
        rewrite (set1_eq peqb peqb_ok). split; [apply Hk|]. split; [reflexivity|]. apply eqv_intro; cbn [with_proc procs chans]; intros; [|reflexivity]. unfold set1. destruct (peqb i g); reflexivity.
    - cbn [with_proc procs chans]. rewrite (set1_ne peqb peqb_ok) by exact Hi. destruct (procs s i) as [r|e|to m k|from k] eqn:E; try discriminate.
      + destruct (has_room (cap i to) (chans s i to)) eqn:Er; [|discriminate]. intros H. injection H as <-. exists q. eexists. cbn [procs chans].
        rewrite (set1_ne peqb peqb_ok) by auto. split; [exact Hq|]. split; [reflexivity|]. apply eqv_intro; cbn [with_proc procs chans]; intros; [|reflexivity]. unfold set1.
        destruct (peqb i0 g) eqn:E1, (peqb i0 i) eqn:E2; auto. apply peqb_ok in E1, E2. congruence.
      + destruct (chans s from i) as [|m l] eqn:Er; [discriminate|]. intros H. injection H as <-. exists q. eexists. cbn [procs chans].
        rewrite (set1_ne peqb peqb_ok) by auto. split; [exact Hq|]. split; [reflexivity|]. apply eqv_intro; cbn [with_proc procs chans]; intros; [|reflexivity]. unfold set1.
        destruct (peqb i0 g) eqn:E1, (peqb i0 i) eqn:E2; auto. apply peqb_ok in E1, E2. congruence.
  Qed.
  Lemma go_with g s t q : go peqb cap s t -> prel (procs s g) q -> exists q', go peqb cap (with_proc s g q) (with_proc t g q') /\ prel (procs t g) q'.
  Proof.
    intros [l H]. revert s q H. induction l as [|i l IH]; intros s q H Hq; cbn in H.
    - exists q. split; [|exact (prel_peq _ _ (proj1 H g) _ Hq)]. apply go_refl. destruct H as [H1 H2]. split; cbn [with_proc procs chans]; auto. intros i. unfold set1. destruct (peqb i g); [apply peq_refl|apply H1].
    - destruct H as (s1 & E & H). destruct (exec_with g s q i s1 Hq E) as (q1 & t1 & Hq1 & E1 & He). destruct (IH s1 q1 H Hq1) as (q' & G & Hq'). exists q'. split; [|exact Hq'].
      eapply go_trans; [|exact G]. exists [i]. cbn. exists t1. auto.
  Qed.
End Handlers.

Section Bind.
  Context {P M : Type}.
  Lemma peq_bind {A B} (p q : proc P M A) (f g : A -> proc P M B) : peq p q -> (forall a, peq (f a) (g a)) -> peq (pbind p f) (pbind q g).
  Proof. intros H Hf. induction H; cbn [pbind]; try constructor; auto. Qed.
  Lemma bind_assoc {A B D} (p : proc P M A) (f : A -> proc P M B) (g : B -> proc P M D) : peq (pbind (pbind p f) g) (pbind p (fun a => pbind (f a) g)).
  Proof. induction p; cbn [pbind]; try constructor; auto using peq_refl. Qed.
  Lemma bind_ret {A} (p : proc P M A) : peq (pbind p (fun a => Ret a)) p.
  Proof. induction p; cbn [pbind]; constructor; auto. Qed.
End Bind.

Section Pair.
  Context {P M R : Type} (peqb : P -> P -> bool) (peqb_ok : forall a b, peqb a b = true <-> a = b) (cap : P -> P -> option nat).
  Notation net := (net P M R).
  (** two processes and the two connections between them, in the surroundings s *)
  Definition pair_net (s : net) (i j : P) (pi pj : proc P M R) (cij cji : list M) : net :=
    mkNet (set1 peqb (set1 peqb (procs s) i pi) j pj) (set2 peqb (set2 peqb (chans s) i j cij) j i cji).
  Ltac nets := cbn [pair_net procs chans]; unfold set1, set2; intros;
    repeat match goal with |- context [peqb ?a ?b] => let E := fresh in destruct (peqb a b) eqn:E; [apply peqb_ok in E|]; cbn [andb]; try subst; try congruence end;
    repeat match goal with H : peqb ?a ?a = false |- _ => rewrite (peqb_refl peqb peqb_ok a) in H; discriminate end; try congruence.
  Lemma pair_send_i s i j m k pj cij cji : i <> j -> has_room (cap i j) cij = true ->
    go peqb cap (pair_net s i j (Send j m k) pj cij cji) (pair_net s i j k pj (cij ++ [m]) cji).
  Proof. intros H Hr. assert (H' : j <> i) by congruence. apply (go_send peqb peqb_ok cap) with i j m k; nets. Qed.
  Lemma pair_send_j s i j m k pi cij cji : i <> j -> has_room (cap j i) cji = true ->
    go peqb cap (pair_net s i j pi (Send i m k) cij cji) (pair_net s i j pi k cij (cji ++ [m])).
  Proof. intros H Hr. assert (H' : j <> i) by congruence. apply (go_send peqb peqb_ok cap) with j i m k; nets. Qed.
  Lemma pair_recv_i s i j m k pj cij cji : i <> j ->
    go peqb cap (pair_net s i j (Recv j k) pj cij (m :: cji)) (pair_net s i j (k m) pj cij cji).
  Proof. intros H. assert (H' : j <> i) by congruence. apply (go_recv peqb peqb_ok cap) with i j m cji k; nets. Qed.
  Lemma pair_recv_j s i j m k pi cij cji : i <> j ->
    go peqb cap (pair_net s i j pi (Recv i k) (m :: cij) cji) (pair_net s i j pi (k m) cij cji).
  Proof. intros H. assert (H' : j <> i) by congruence. apply (go_recv peqb peqb_ok cap) with j i m cij k; nets. Qed.
  Lemma pair_in s i j pi pj cij cji : i <> j -> procs s i = pi -> procs s j = pj -> chans s i j = cij -> chans s j i = cji -> eqv s (pair_net s i j pi pj cij cji).
  Proof. intros H H1 H2 H3 H4. apply eqv_intro; nets. Qed.
  Lemma pair_out s i j pi pj cij cji t : i <> j -> procs t i = pi -> procs t j = pj -> chans t i j = cij -> chans t j i = cji ->
    (forall x, x <> i -> x <> j -> procs t x = procs s x) -> (forall x y, (x, y) <> (i, j) -> (x, y) <> (j, i) -> chans t x y = chans s x y) -> eqv (pair_net s i j pi pj cij cji) t.
  Proof.
    intros H H1 H2 H3 H4 H5 H6. apply eqv_intro; nets;
      symmetry; (apply H5 || apply H6); intros E; try (injection E; intros); subst; rewrite ?(peqb_refl peqb peqb_ok) in *; try discriminate; congruence.
  Qed.
End Pair.
