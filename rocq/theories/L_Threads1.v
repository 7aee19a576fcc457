(** Objects created by several threads: constructions that do not overlap. *)
From Verif Require Import Base M_Kron M_Ops M_Feed M_Graph M_Threads S_Threads.

Section Serial.
  Context {K : Type} {OK : OrdRing K}.
  Implicit Types h : heap K.

  (** what is left of a construction if no other thread interferes *)
  Definition sinks h (self : nat) (rest : list nat) : st (heap K) nat := sbind (sfold (fun h item => set_sink h item self) rest h) (fun h _ => (h, Ok self)).
  Definition enter h (c : ctor K) (q : Z) : st (heap K) nat :=
    sinks (mkHeap (h_nodes h ++ [mkNode (ct_kind c) (ct_inputs c) (ctor_n h c) q (ct_default c) []]) (h_qid h)) (size h) (ct_inputs c).
  Definition resume h (c : ctor K) (p : phase) : st (heap K) nat :=
    match p with
    | PStart => new_node h (ct_kind c) (ct_inputs c) (ct_n c) (ct_qid c) false (ct_default c)
    | PLoaded q => enter (mkHeap (h_nodes h) (h_qid h + 1)) c q
    | PAgain q t => enter (mkHeap (h_nodes h) (t + 1)) c q
    | PNew q => enter h c q
    | PCheck self rest => sinks h self rest
    | PAppend self item rest => sinks (add_sink h item self) self rest
    end.
  Lemma step_resume h t h' t' c p : th_now t = Some (c, p) -> tstep h t = Some (h', t') ->
    (exists p', t' = at_phase t c p' /\ resume h' c p' = resume h c p) \/ (exists r, t' = finish t r /\ resume h c p = (h', r)).
  Proof.
    intros En E. unfold tstep in E. rewrite En in E. injection E as E. destruct p as [|q|q x|q|self rest|self item rest].
    - cbn [resume]. unfold new_node. change (match ct_n c with Some n => n | None => match ct_inputs c with [] => 1 | _ :: _ => sum_n h (ct_inputs c) end end) with (ctor_n h c).
      destruct (match ct_default c with Some (DList l) => negb (zlen l =? 2 ^ ctor_n h c) | _ => false end); [inversion E; subst; right; eauto|].
      destruct (ctor_n h c <=? 0); [inversion E; subst; right; eauto|]. inversion E; subst. left. destruct (ct_qid c) as [q|]; eexists; (split; [reflexivity|]); reflexivity.
    - inversion E; subst. left. eexists. split; reflexivity.
    - inversion E; subst. left. eexists. split; reflexivity.
    - inversion E; subst. left. eexists. split; reflexivity.
    - destruct rest as [|item rest]; [inversion E; subst; right; eexists; split; reflexivity|].
      assert (Es : resume h c (PCheck self (item :: rest)) = match set_sink h item self with (h1, Ok _) => sinks h1 self rest | (h1, Raise e) => (h1, Raise e) end)
        by (cbn [resume]; unfold sinks; cbn [sfold]; destruct (set_sink h item self) as [h1 [[]|e]]; reflexivity).
      unfold set_sink in Es. rewrite Es.
      destruct (is_qubit (nd_kind (nd h self))); [destruct (nd_sink (nd h item)) as [|s0 l]; [|destruct (nd_qid (nd h s0) =? nd_qid (nd h self))]|]; inversion E; subst;
        try (left; eexists; split; [reflexivity|]; reflexivity).
      right. eexists. split; reflexivity.
    - inversion E; subst. left. eexists. split; reflexivity.
  Qed.

  Lemma upd_upd {A} (l : list A) : forall i x y, upd (upd l i x) i y = upd l i y.
  Proof. induction l as [|a l IH]; intros [|i] x y; cbn; auto. f_equal. apply IH. Qed.
  Lemma nth_error_upd {A} (l : list A) : forall i j x, nth_error (upd l i x) j = if Nat.eqb i j then (match nth_error l j with Some _ => Some x | None => None end) else nth_error l j.
  Proof. induction l as [|a l IH]; intros [|i] [|j] x; cbn; auto; try (destruct (Nat.eqb i j); reflexivity). Qed.
  Lemma upd_same {A} (l : list A) : forall i x, nth_error l i = Some x -> upd l i x = l.
  Proof. induction l as [|a l IH]; intros [|i] x; cbn; intros E; try discriminate; [congruence|]. f_equal. auto. Qed.

  (** s has been reached from s0 by turns of thread i, which is in its next construction *)
  Definition within (s0 s : sys K) (i : nat) : Prop := exists f todo results p,
    nth_error (sy_threads s0) i = Some (mkThread None (f :: todo) results) /\
    sy_threads s = upd (sy_threads s0) i (mkThread (Some (f results, p)) todo results) /\
    resume (sy_heap s) (f results) p = resume (sy_heap s0) (f results) PStart.
  Lemma within_turn s0 s i : within s0 s i -> within s0 (turn s i) i \/ turn s i = constructs s0 i.
  Proof.
    intros (f & todo & results & p & E0 & Et & Er). unfold turn. rewrite Et, nth_error_upd, Nat.eqb_refl, E0.
    destruct (tstep (sy_heap s) _) as [[h' t']|] eqn:E; [|unfold tstep in E; cbn in E; discriminate].
    destruct (step_resume (sy_heap s) (mkThread (Some (f results, p)) todo results) h' t' (f results) p eq_refl E) as [(p' & -> & Ep)|(r & -> & Ep)]; rewrite upd_upd.
    - left. exists f, todo, results, p'. cbn [sy_threads sy_heap at_phase th_todo th_done]. split; auto. split; auto. congruence.
    - right. unfold constructs. rewrite E0. cbn [finish th_todo th_done]. rewrite Ep in Er. cbn [resume] in Er. rewrite <- Er. reflexivity.
  Qed.
  Lemma idle_constructs (s : sys K) i : idle s -> idle (constructs s i).
  Proof.
    intros Hi. unfold constructs. destruct (nth_error (sy_threads s) i) as [[[x|] [|f todo] results]|] eqn:E; auto.
    destruct (new_node _ _ _ _ _ _ _) as [h r]. intros t Ht. cbn [sy_threads] in Ht. apply In_nth_error in Ht. destruct Ht as (j & Hj). rewrite nth_error_upd in Hj.
    destruct (Nat.eqb_spec i j); [subst; rewrite E in Hj; inversion Hj; reflexivity|]. apply Hi. eapply nth_error_In; eauto.
  Qed.
  Lemma serial_ok : forall sched (s0 s : sys K), idle s0 -> (s = s0 \/ exists i, within s0 s i) -> serial s sched -> idle (turns s sched) ->
    exists who, turns s sched = in_turn s0 who.
  Proof.
    induction sched as [|i sched IH]; intros s0 s Hi0 Hs Hser Hend; unfold turns in *; cbn [fold_left] in *.
    - destruct Hs as [->|(i & f & todo & results & p & E0 & Et & _)]; [exists []; reflexivity|].
      exfalso. assert (H : In (mkThread (Some (f results, p)) todo results) (sy_threads s)).
      { rewrite Et. apply nth_error_In with i. rewrite nth_error_upd, Nat.eqb_refl, E0. reflexivity. }
      apply Hend in H. discriminate H.
    - inversion Hser as [|? ? ? Hal Hser']; subst. destruct Hs as [->|(j & Hw)].
      + destruct (nth_error (sy_threads s0) i) as [t|] eqn:E0.
        2:{ assert (Et : turn s0 i = s0) by (unfold turn; rewrite E0; reflexivity). rewrite Et in *. apply (IH s0 s0); auto. }
        destruct t as [now todo results]. pose proof (Hi0 _ (nth_error_In _ _ E0)) as Hn. cbn [th_now] in Hn. subst now.
        destruct todo as [|f todo].
        { assert (Et : turn s0 i = s0) by (unfold turn; rewrite E0; reflexivity). rewrite Et in *. apply (IH s0 s0); auto. }
        apply (IH s0 (turn s0 i)); auto. right. exists i, f, todo, results, PStart. unfold turn. rewrite E0. cbn [tstep th_now th_todo th_done sy_threads sy_heap]. auto.
      + assert (Eij : i = j).
        { destruct (Nat.eq_dec i j); auto. exfalso. destruct Hw as (f & todo & results & p & E0 & Et & _).
          specialize (Hal j (mkThread (Some (f results, p)) todo results)). rewrite Et, nth_error_upd, Nat.eqb_refl, E0 in Hal.
          assert (Hx : @None (ctor K * phase) = Some (f results, p)) by (symmetry; apply Hal; auto). discriminate Hx. }
        subst j. destruct (within_turn s0 s i Hw) as [Hw'|Hc].
        * apply (IH s0 (turn s i)); auto. right. eauto.
        * rewrite Hc in *. destruct (IH (constructs s0 i) (constructs s0 i)) as (who & Ew); auto; [apply idle_constructs; auto|].
          exists (i :: who). exact Ew.
  Qed.

  (** ids of objects that are created one after the other *)
  Lemma add_sink_nodes h i x j : nd_qid (nd (add_sink h i x) j) = nd_qid (nd h j).
  Proof. unfold add_sink, nd. cbn [h_nodes]. rewrite nth_upd. destruct (Nat.eqb i j && Nat.ltb i (length (h_nodes h)))%bool eqn:E; [|reflexivity]. apply andb_prop in E. destruct E as [E _]. apply Nat.eqb_eq in E. subst. reflexivity. Qed.
  Lemma add_sink_size h i x : size (add_sink h i x) = size h.
  Proof. unfold add_sink, size. cbn [h_nodes]. apply upd_length. Qed.
  Lemma set_sink_ids h i x h' r : set_sink h i x = (h', r) -> size h' = size h /\ h_qid h' = h_qid h /\ forall j, nd_qid (nd h' j) = nd_qid (nd h j).
  Proof.
    unfold set_sink. intros E. assert (H : h' = h \/ h' = add_sink h i x).
    { destruct (is_qubit _); [destruct (nd_sink _); [|destruct (_ =? _)]|]; inversion E; auto. }
    destruct H as [-> | ->]; auto. split; [apply add_sink_size|]. split; [reflexivity|]. intros j. apply add_sink_nodes.
  Qed.
  Lemma sinks_ids self : forall rest h h' r, sinks h self rest = (h', r) -> size h' = size h /\ h_qid h' = h_qid h /\ (forall j, nd_qid (nd h' j) = nd_qid (nd h j)) /\ (forall x, r = Ok x -> x = self).
  Proof.
    induction rest as [|item rest IH]; intros h h' r E; unfold sinks in E; cbn [sfold sbind] in E.
    - inversion E; subst. split; auto. split; auto. split; auto. intros x Hx; inversion Hx; auto.
    - destruct (set_sink h item self) as [h1 [[]|e]] eqn:E1; cbn [sbind] in E; apply set_sink_ids in E1; destruct E1 as (A & B & D).
      + destruct (IH h1 h' r E) as (A' & B' & D' & F). split; [congruence|]. split; [congruence|]. split; auto. intros j. rewrite D'. apply D.
      + inversion E; subst. split; auto. split; auto. split; auto. discriminate.
  Qed.
  Lemma new_node_ids h k inputs n dflt h' r : new_node h k inputs n None false dflt = (h', r) ->
    h' = h \/ size h' = S (size h) /\ h_qid h' = h_qid h + 1 /\ nd_qid (nd h' (size h)) = h_qid h /\ forall i, (i < size h)%nat -> nd_qid (nd h' i) = nd_qid (nd h i).
  Proof.
    unfold new_node. set (m := match n with Some n => n | None => _ end).
    destruct (match dflt with Some (DList l) => negb (zlen l =? 2 ^ m) | _ => false end); [intros E; inversion E; auto|].
    destruct (m <=? 0); [intros E; inversion E; auto|]. intros E. right. apply (sinks_ids (size h) inputs) in E. destruct E as (A & B & D & _). cbn [h_qid] in B.
    split; [rewrite A; unfold size; cbn; rewrite app_length; cbn; lia|]. split; auto.
    split; [rewrite D; unfold nd, size; cbn [h_nodes]; rewrite app_nth2, Nat.sub_diag by lia; reflexivity|]. intros i Hi. rewrite D. unfold nd. cbn [h_nodes]. rewrite app_nth1; auto.
  Qed.
  Definition no_qids (s : sys K) : Prop := forall t f results, In t (sy_threads s) -> In f (th_todo t) -> ct_qid (f results) = None.
  Definition new_ids (n0 : nat) h : Prop := (n0 <= size h)%nat /\ forall i j, (i < j < size h)%nat -> (n0 <= j)%nat -> nd_qid (nd h i) <> nd_qid (nd h j).
  Lemma constructs_ids n0 s i : no_qids s -> ids_below (sy_heap s) -> new_ids n0 (sy_heap s) ->
    no_qids (constructs s i) /\ ids_below (sy_heap (constructs s i)) /\ new_ids n0 (sy_heap (constructs s i)).
  Proof.
    intros Hq Hb Hn. unfold constructs. destruct (nth_error (sy_threads s) i) as [[[x|] [|f todo] results]|] eqn:E; auto.
    pose proof (nth_error_In _ _ E) as Hin. rewrite (Hq _ f results Hin (or_introl eq_refl)). destruct (new_node _ _ _ _ _ _ _) as [h r] eqn:En. cbn [sy_heap].
    split.
    { intros t g rs Ht Hg. cbn [sy_threads] in Ht. apply In_nth_error in Ht. destruct Ht as (j & Hj). rewrite nth_error_upd in Hj. destruct (Nat.eqb_spec i j) as [->|].
      - rewrite E in Hj. inversion Hj; subst t. apply (Hq _ g rs Hin). right. exact Hg.
      - apply (Hq t g rs); auto. eapply nth_error_In; eauto. }
    apply new_node_ids in En. destruct En as [->|(A & B & D & F)]; auto. destruct Hn as [Hn0 Hn]. split; [|split; [lia|]].
    - intros j Hj. destruct (Nat.eq_dec j (size (sy_heap s))) as [->|]; [lia|]. rewrite F by lia. specialize (Hb j ltac:(lia)). lia.
    - intros j k Hjk Hk. destruct (Nat.eq_dec k (size (sy_heap s))) as [->|]; [|rewrite !F by lia; apply Hn; lia].
      rewrite D, F by lia. specialize (Hb j ltac:(lia)). lia.
  Qed.
  Lemma in_turn_ids n0 who : forall s, no_qids s -> ids_below (sy_heap s) -> new_ids n0 (sy_heap s) -> new_ids n0 (sy_heap (in_turn s who)).
  Proof.
    induction who as [|i who IH]; intros s H1 H2 H3; [exact H3|]. destruct (constructs_ids n0 s i H1 H2 H3) as (A & B & D). exact (IH _ A B D).
  Qed.
  Lemma serial_all (s : sys K) sched : idle s -> serial s sched -> idle (turns s sched) -> (exists who, turns s sched = in_turn s who) /\
    (ids_below (sy_heap s) -> (forall t f results, In t (sy_threads s) -> In f (th_todo t) -> ct_qid (f results) = None) ->
     forall i j, (i < j < size (sy_heap (turns s sched)))%nat -> (size (sy_heap s) <= j)%nat -> nd_qid (nd (sy_heap (turns s sched)) i) <> nd_qid (nd (sy_heap (turns s sched)) j)).
  Proof.
    intros Hi Hs He. destruct (serial_ok sched s s Hi (or_introl eq_refl) Hs He) as (who & Ew). split; [eauto|]. intros Hb Hq. rewrite Ew.
    apply (in_turn_ids (size (sy_heap s)) who s); auto. split; [lia|]. intros i j Hij Hj. lia.
  Qed.
End Serial.
