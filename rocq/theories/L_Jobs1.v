(** A job by itself: what cannot happen on the way to a clean end. *)
From Verif Require Import Base M_Kron M_Measure M_Net S_Net L_Net M_Worker L_Worker1 M_Jobs S_Jobs.

Section Steps.
  Context {P M R : Type} (peqb : P -> P -> bool) (peqb_ok : forall a b, peqb a b = true <-> a = b) (cap : P -> P -> option nat).
  Notation net := (net P M R).
  Notation exec := (exec peqb cap).
  Notation runs := (M_Net.runs peqb cap).

  Lemma runs_app l : forall (s : net) l', runs s (l ++ l') = match runs s l with Some t => runs t l' | None => None end.
  Proof. induction l as [|i l IH]; intros s l'; cbn; [reflexivity|]. destruct (exec s i); [apply IH|reflexivity]. Qed.
  Lemma runs_snoc (s : net) l t i u : runs s l = Some t -> exec t i = Some u -> runs s (l ++ [i]) = Some u.
  Proof. intros H1 H2. rewrite runs_app, H1. cbn. rewrite H2. reflexivity. Qed.

  Lemma exec_cases (s : net) x s' : exec s x = Some s' ->
    (exists to m k, procs s x = Send to m k /\ has_room (cap x to) (chans s x to) = true /\
       s' = mkNet (set1 peqb (procs s) x k) (set2 peqb (chans s) x to (chans s x to ++ [m]))) \/
    (exists from m l k, procs s x = Recv from k /\ chans s from x = m :: l /\
       s' = mkNet (set1 peqb (procs s) x (k m)) (set2 peqb (chans s) from x l)).
  Proof.
    unfold M_Net.exec. destruct (procs s x) as [r|e|to m k|from k]; try discriminate.
    - destruct (has_room _ _) eqn:Er; [|discriminate]. intros E. injection E as <-. left. exists to, m, k. auto.
    - destruct (chans s from x) as [|m l] eqn:Ec; [discriminate|]. intros E. injection E as <-. right. exists from, m, l, k. auto.
  Qed.
  Lemma exec_proc (s : net) x s' y : exec s x = Some s' -> y <> x -> procs s' y = procs s y.
  Proof.
    intros H Hy. destruct (exec_cases s x s' H) as [(to & m & k & _ & _ & ->)|(from & m & l & k & _ & _ & ->)]; cbn [procs]; apply (set1_ne peqb peqb_ok); exact Hy.
  Qed.
  (** nobody else reads from the connections to y *)
  Lemma exec_to (s : net) x s' y a : exec s x = Some s' -> y <> x -> exists l, chans s' a y = chans s a y ++ l.
  Proof.
    intros H Hy. destruct (exec_cases s x s' H) as [(to & m & k & _ & _ & ->)|(from & m & l & k & _ & _ & ->)]; cbn [chans]; unfold set2.
    - destruct (peqb a x) eqn:E1, (peqb y to) eqn:E2; cbn [andb]; try (exists []; symmetry; apply app_nil_r).
      apply peqb_ok in E1, E2. subst. exists [m]. reflexivity.
    - destruct (peqb y x) eqn:E; [apply peqb_ok in E; contradiction|]. rewrite Bool.andb_false_r. exists []. symmetry. apply app_nil_r.
  Qed.
  (** nobody else writes to the connections from y *)
  Lemma exec_from (s : net) x s' y a : exec s x = Some s' -> y <> x -> exists l, chans s y a = l ++ chans s' y a.
  Proof.
    intros H Hy. destruct (exec_cases s x s' H) as [(to & m & k & _ & _ & ->)|(from & m & l & k & _ & Ec & ->)]; cbn [chans]; unfold set2.
    - destruct (peqb y x) eqn:E; [apply peqb_ok in E; contradiction|]. exists []. reflexivity.
    - destruct (peqb y from) eqn:E1, (peqb a x) eqn:E2; cbn [andb]; try (exists []; reflexivity).
      apply peqb_ok in E1, E2. subst. exists [m]. exact Ec.
  Qed.

  Lemma never (s0 : net) (Q I : net -> Prop) : always_ends peqb cap s0 Q ->
    (forall s s' i, I s -> exec s i = Some s' -> I s') -> (forall t, Q t -> ~ I t) ->
    forall s, (exists sched, runs s0 sched = Some s) -> ~ I s.
  Proof.
    intros [b Hb] Hstep HQ s [sched Hs]. remember (b - length sched)%nat as d eqn:Ed.
    revert sched s Hs Ed. induction d as [d IH] using (well_founded_induction lt_wf). intros sched s Hs Ed HI.
    destruct (Hb sched s Hs) as [Hl [Hq|(i & s'' & He)]]; [exact (HQ s Hq HI)|].
    assert (Hs' := runs_snoc s0 sched s i s'' Hs He). destruct (Hb _ _ Hs') as [Hl' _]. rewrite app_length in Hl'. cbn in Hl'.
    refine (IH (b - length (sched ++ [i]))%nat _ (sched ++ [i]) s'' Hs' eq_refl (Hstep s s'' i HI He)). rewrite app_length. cbn. lia.
  Qed.
End Steps.

Section Alone.
  Context {K : Type} {OK : OrdRing K}.
  Variables (rsqrt : K -> K) (capd capu : Z -> option nat) (capw : nat -> wid -> wid -> option nat) (jobs : nat -> job K) (j : nat).
  Notation net := (net pid (msg K) (ending K)).
  Notation cap := (job_cap capd capu capw jobs j).
  Notation ws := (j_ws (jobs j)).
  Notation al := (alone rsqrt capd capu capw jobs j).
  Notation exec := (exec pid_eqb cap).
  Hypothesis Hclean : clean rsqrt capd capu capw jobs j.

  Lemma alone_init : al (j_net rsqrt (jobs j)).
  Proof. exists []. reflexivity. Qed.
  Lemma alone_step (s : net) i s' : al s -> exec s i = Some s' -> al s'.
  Proof. intros [l H] He. exists (l ++ [i]). exact (runs_snoc pid_eqb _ _ _ _ _ _ H He). Qed.
  Lemma ended_still (s : net) x s' : ended (procs s Mgr) -> exec s x = Some s' -> x <> Mgr.
  Proof.
    intros H He ->. unfold M_Net.exec in He. destruct (procs s Mgr); try discriminate; contradiction.
  Qed.

  Lemma left_read (s : net) w r : al s -> In w ws -> procs s (Wk w) = Ret r -> chans s Mgr (Wk w) = [].
  Proof.
    intros Hs Hw Hr. destruct (chans s Mgr (Wk w)) as [|m l] eqn:Ec; [reflexivity|exfalso].
    refine (never pid_eqb cap _ _ (fun s : net => (exists r, procs s (Wk w) = Ret r) /\ chans s Mgr (Wk w) <> []) Hclean _ _ s Hs _).
    - intros t t' x [[r' Hp] Hc] He. assert (Hx : Wk w <> x). { intros <-. unfold M_Net.exec in He. rewrite Hp in He. discriminate. }
      split; [exists r'; rewrite (exec_proc pid_eqb pid_eqb_ok cap t x t' (Wk w) He Hx); exact Hp|].
      destruct (exec_to pid_eqb pid_eqb_ok cap t x t' (Wk w) Mgr He Hx) as [l' ->]. intros E. apply app_eq_nil in E. tauto.
    - intros t [_ Hq] [_ Hc]. destruct (Hq w Hw) as (_ & E & _). contradiction.
    - split; [eauto|]. rewrite Ec. discriminate.
  Qed.
  Lemma end_read (s : net) w : al s -> In w ws -> ended (procs s Mgr) -> chans s (Wk w) Mgr = [].
  Proof.
    intros Hs Hw Hr. destruct (chans s (Wk w) Mgr) as [|m l] eqn:Ec; [reflexivity|exfalso].
    refine (never pid_eqb cap _ _ (fun s : net => ended (procs s Mgr) /\ chans s (Wk w) Mgr <> []) Hclean _ _ s Hs _).
    - intros t t' x [Hp Hc] He. assert (Hx : Mgr <> x) by (intros E; exact (ended_still t x t' Hp He (eq_sym E))).
      split; [rewrite (exec_proc pid_eqb pid_eqb_ok cap t x t' Mgr He Hx); exact Hp|].
      destruct (exec_to pid_eqb pid_eqb_ok cap t x t' Mgr (Wk w) He Hx) as [l' ->]. intros E. apply app_eq_nil in E. tauto.
    - intros t [_ Hq] [_ Hc]. destruct (Hq w Hw) as (_ & _ & E). contradiction.
    - split; [exact Hr|]. rewrite Ec. discriminate.
  Qed.
  Lemma end_closed (s : net) w k : al s -> In w ws -> ended (procs s Mgr) -> procs s (Wk w) = Recv Mgr k -> chans s Mgr (Wk w) <> [].
  Proof.
    intros Hs Hw Hr Hp Hc.
    refine (never pid_eqb cap _ _ (fun s : net => ended (procs s Mgr) /\ (exists k, procs s (Wk w) = Recv Mgr k) /\ chans s Mgr (Wk w) = []) Hclean _ _ s Hs _).
    - clear. intros t t' x (Hp & [k Hk] & Hc) He. assert (Hx : Mgr <> x) by (intros E; exact (ended_still t x t' Hp He (eq_sym E))).
      assert (Hx' : Wk w <> x). { intros <-. unfold M_Net.exec in He. rewrite Hk, Hc in He. discriminate. }
      split; [rewrite (exec_proc pid_eqb pid_eqb_ok cap t x t' Mgr He Hx); exact Hp|].
      split; [exists k; rewrite (exec_proc pid_eqb pid_eqb_ok cap t x t' (Wk w) He Hx'); exact Hk|].
      destruct (exec_from pid_eqb pid_eqb_ok cap t x t' Mgr (Wk w) He Hx) as [l' E]. rewrite Hc in E. symmetry in E. apply app_eq_nil in E. tauto.
    - intros t [_ Hq] (_ & [k' E] & _). destruct (Hq w Hw) as ([b Eb] & _). rewrite E in Eb. discriminate.
    - split; [exact Hr|]. eauto.
  Qed.
  Lemma end_silent (s : net) w m k : al s -> In w ws -> ended (procs s Mgr) -> procs s (Wk w) <> Send Mgr m k.
  Proof.
    intros Hs Hw Hr Hp.
    refine (never pid_eqb cap _ _ (fun s : net => ended (procs s Mgr) /\ ((exists m k, procs s (Wk w) = Send Mgr m k) \/ chans s (Wk w) Mgr <> [])) Hclean _ _ s Hs _).
    - clear. intros t t' x (Hp & Hk) He. assert (Hx : Mgr <> x) by (intros E; exact (ended_still t x t' Hp He (eq_sym E))).
      split; [rewrite (exec_proc pid_eqb pid_eqb_ok cap t x t' Mgr He Hx); exact Hp|].
      assert (Hto : chans t (Wk w) Mgr <> [] -> chans t' (Wk w) Mgr <> []).
      { intros Hc. destruct (exec_to pid_eqb pid_eqb_ok cap t x t' Mgr (Wk w) He Hx) as [l' ->]. intros E. apply app_eq_nil in E. tauto. }
      destruct Hk as [(m & k & Hk)|Hc]; [|right; exact (Hto Hc)].
      destruct (exec_cases pid_eqb cap t x t' He) as [(to & m' & k' & E1 & _ & E2)|(from & m' & l & k' & E1 & _ & _)].
      + destruct (peqb_dec pid_eqb pid_eqb_ok x (Wk w)) as [->|Hn].
        * right. rewrite Hk in E1. injection E1 as <- <- <-. subst t'. cbn [chans]. rewrite (set2_eq pid_eqb pid_eqb_ok). intros E. apply app_eq_nil in E. destruct E. discriminate.
        * left. exists m, k. rewrite (exec_proc pid_eqb pid_eqb_ok cap t x t' (Wk w) He); [exact Hk|congruence].
      + left. exists m, k. rewrite (exec_proc pid_eqb pid_eqb_ok cap t x t' (Wk w) He); [exact Hk|]. intros <-. congruence.
    - intros t [_ Hq] (_ & [(m' & k' & E)|E]); destruct (Hq w Hw) as ([b Eb] & _ & E'); [rewrite E in Eb; discriminate|contradiction].
    - split; [exact Hr|]. eauto.
  Qed.
  Lemma no_failure (s : net) w e : al s -> In w ws -> procs s (Wk w) <> Fail e.
  Proof.
    intros Hs Hw Hp.
    refine (never pid_eqb cap _ _ (fun s : net => procs s (Wk w) = Fail e) Hclean _ _ s Hs Hp).
    - intros t t' x Hk He. rewrite (exec_proc pid_eqb pid_eqb_ok cap t x t' (Wk w) He); [exact Hk|]. intros <-. unfold M_Net.exec in He. rewrite Hk in He. discriminate.
    - intros t [_ Hq] E. destruct (Hq w Hw) as ([b Eb] & _). rewrite E in Eb. discriminate.
  Qed.
End Alone.
