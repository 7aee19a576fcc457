(** Runs by several threads: what other threads may do to a run. *)
From Coq Require Import Sorted.
From Verif Require Import Base M_Kron M_Ops M_Feed M_Func M_Measure M_Graph S_Graph L_Graph1 L_Graph2 L_Graph3 L_Graph4 L_Graph5 L_Graph6 L_Graph7 L_Graph8 L_Graph9 L_Graph10 L_Graph11 M_DistRun L_DistRun1
  M_Runs S_Runs L_Threads1 L_Runs1.

Section Interference.
  Context {K : Type} {OK : OrdRing K}.
  Notation C := (Cx K).
  Implicit Types c : cache K.

  Section Rely.
    (** the ops a run needs, those that another run needs, too, and what the latter put into an empty cache *)
    Variables (N : nat -> Prop) (sh : nat -> bool) (c0 : cache K) (target : nat -> option (mats_arg K)).
    Definition rely c c' : Prop := forall i, N i -> (sh i = false -> c' i = c i) /\ (sh i = true -> c' i = c i \/ c' i = target i).
    Lemma rely_refl c : rely c c.
    Proof. intros i _. auto. Qed.
    Lemma rely_trans c c' c'' : rely c c' -> rely c' c'' -> rely c c''.
    Proof.
      intros H1 H2 i Hi. destruct (H1 i Hi) as [A1 B1], (H2 i Hi) as [A2 B2]. split; intros Hs.
      - rewrite A2, A1; auto.
      - destruct (B2 Hs) as [E|E]; [rewrite E; auto|auto].
    Qed.
    Fixpoint steady {A} (p : prog K A) c (r : A) : Prop :=
      match p with
      | PRet a => a = r
      | PRead i k => forall c', rely c c' -> steady (k (c' i)) c' r
      | PWrite i ms k => N i /\ (sh i = true -> Some ms = target i) /\ forall c', rely c c' -> steady k (cache_set c' i ms) r
      end.
    Lemma steady_rely {A} (p : prog K A) c c' r : rely c c' -> steady p c r -> steady p c' r.
    Proof.
      intros HR. destruct p as [a|i k|i ms k]; cbn [steady]; auto.
      - intros H c2 H2. apply H. eapply rely_trans; eauto.
      - intros (H1 & H2 & H3). split; auto. split; auto. intros c2 H4. apply H3. eapply rely_trans; eauto.
    Qed.

    (** a cache as other runs may have left it *)
    Definition agrees c (i : nat) : Prop := (sh i = false -> c i = c0 i) /\ (sh i = true -> c i = c0 i \/ c i = target i).
    Lemma agrees_rely c c' i : N i -> rely c c' -> agrees c i -> agrees c' i.
    Proof.
      intros Hi HR [A1 B1]. destruct (HR i Hi) as [A2 B2]. split; intros Hs.
      - rewrite A2; auto.
      - destruct (B2 Hs) as [E|E]; [rewrite E; auto|auto].
    Qed.

    Variables (h : heap K) (gsof : nat -> list (list Z)).
    (** the condition on shared ops *)
    Hypothesis Hsh : forall i o d, N i -> sh i = true -> nd_kind (nd h i) = KMat o d ->
      match c0 i with
      | Some ms => target i = Some ms
      | None => d = false /\ target i = match makemats o (gsof i) with Ok ms => Some ms | Raise _ => None end
      end.

    Lemma cache_set_same c i (ms : mats_arg K) : cache_set c i ms i = Some ms.
    Proof. unfold cache_set. rewrite Nat.eqb_refl. reflexivity. Qed.
    Lemma cache_set_other c i j (ms : mats_arg K) : j <> i -> cache_set c i ms j = c j.
    Proof. intros H. unfold cache_set. destruct (Nat.eqb_spec j i); congruence. Qed.

    Lemma feed_steady {A} ev i a (next : res (acc K) -> prog K A) (rest : nat -> Prop) :
      N i -> (forall j, rest j -> N j /\ j <> i) ->
      (forall r c c1, (forall j, rest j -> agrees c j /\ c1 j = c0 j) -> steady (next r) c (snd (uninterrupted (next r) c1))) ->
      forall c c1, agrees c i -> c1 i = c0 i -> (forall j, rest j -> agrees c j /\ c1 j = c0 j) ->
        steady (feed_p ev h a i (gsof i) next) c (snd (uninterrupted (feed_p ev h a i (gsof i) next) c1)).
    Proof.
      intros Hi Hrest Hnext c c1 Hc Hc1 Hr.
      unfold feed_p. destruct (nd_kind (nd h i)) as [|ix|o d|fn| |k] eqn:Ek.
      1, 2, 4, 5, 6: destruct (node_feed ev h a i (gsof i)) as [a1 [[]|e]]; apply Hnext; auto.
      set (use := PRead i (fun v => match v with None => next (Raise TypeError) | Some ms =>
              match bk_kron (e_sched ev i) (a_back a) ms with
              | Raise e => next (Raise e)
              | Ok b => next (Ok (mkAcc b (a_n a - 0) (odict_set (a_cm a) i CZero) (a_cache a))) end end)).
      (* the last read *)
      assert (Step : forall c' c2, (forall j, rest j -> agrees c' j) -> rely c' c2 -> forall j, rest j -> agrees c2 j).
      { intros c' c2 H1 H2 j Hj. eapply agrees_rely; [apply Hrest|exact H2|apply H1]; auto. }
      assert (Set_ : forall c' ms, (forall j, rest j -> agrees c' j) -> forall j, rest j -> agrees (cache_set c' i ms) j).
      { intros c' ms H1 j Hj. destruct (Hrest j Hj) as [_ Hne]. unfold agrees. rewrite cache_set_other by auto. apply H1; auto. }
      assert (Set1 : forall c' ms, (forall j, rest j -> c' j = c0 j) -> forall j, rest j -> cache_set c' i ms j = c0 j).
      { intros c' ms H1 j Hj. destruct (Hrest j Hj) as [_ Hne]. rewrite cache_set_other by auto. auto. }
      assert (Ha : forall j, rest j -> agrees c j) by (intros; apply Hr; auto).
      assert (H1r : forall j, rest j -> c1 j = c0 j) by (intros; apply Hr; auto).
      assert (Use : forall c' c2 ms, (forall c3, rely c' c3 -> c3 i = Some ms) -> c2 i = Some ms -> (forall j, rest j -> agrees c' j) ->
        (forall j, rest j -> c2 j = c0 j) -> steady use c' (snd (uninterrupted use c2))).
      { intros c' c2 ms H1 H2 H3 H4. unfold use. cbn [steady uninterrupted]. intros c3 H5. rewrite (H1 _ H5), H2.
        destruct (bk_kron (e_sched ev i) (a_back a) ms); apply Hnext; intros j Hj; (split; [apply (Step c'); auto|auto]). }
      destruct (sh i) eqn:Es.
      - pose proof (Hsh i o d Hi Es Ek) as Ht. destruct Hc as [_ Hc]. specialize (Hc Es). destruct (c0 i) as [ms|] eqn:E0.
        + (* it was run before *)
          assert (Kp : forall c', rely c c' -> c' i = Some ms).
          { intros c' HR. destruct (HR i Hi) as [_ B]. destruct (B Es) as [E|E]; rewrite E; [|auto]. destruct Hc as [E2|E2]; rewrite E2; auto. }
          cbn [steady]. intros c' HR. rewrite (Kp _ HR).
          cbn [uninterrupted]. rewrite Hc1. apply (Use c' c1 ms); auto.
          * intros c3 H3. apply Kp. eapply rely_trans; eauto.
          * apply (Step c); auto.
        + destruct Ht as [-> Ht]. cbn [steady]. intros c' HR. cbn [uninterrupted]. rewrite Hc1. destruct (makemats o (gsof i)) as [ms|e] eqn:Em.
          * assert (Keep : forall c2 c3, c2 i = Some ms -> rely c2 c3 -> c3 i = Some ms).
            { intros c2 c3 E H3. destruct (H3 i Hi) as [_ B]. destruct (B Es) as [E2|E2]; rewrite E2; auto. }
            destruct (c' i) as [ms'|] eqn:Ec'.
            -- assert (ms' = ms).
               { destruct (HR i Hi) as [_ B]. destruct (B Es) as [E|E]; [|congruence]. destruct Hc as [E2|E2]; congruence. }
               subst ms'. cbn [uninterrupted]. apply (Use c' _ ms); [intros c3; apply Keep; auto|apply cache_set_same|apply (Step c); auto|apply Set1; auto].
            -- cbn [steady]. split; auto. split; [intros _; auto|]. intros c2 HR2. cbn [uninterrupted]. apply (Use _ _ ms); [intros c3; apply Keep, cache_set_same|apply cache_set_same| |apply Set1; auto].
               apply Set_. apply (Step c'); auto. apply (Step c); auto.
          * assert (Hn : c' i = None).
            { destruct (HR i Hi) as [_ B]. destruct (B Es) as [E|E]; rewrite E; auto. destruct Hc as [E2|E2]; rewrite E2; auto. }
            rewrite Hn. apply Hnext. intros j Hj. split; auto. apply (Step c); auto.
      - destruct Hc as [Hc _]. specialize (Hc Es).
        assert (Keep : forall c2 c3, rely c2 c3 -> c3 i = c2 i) by (intros c2 c3 H3; apply (H3 i Hi); auto).
        cbn [steady]. intros c' HR. rewrite (Keep _ _ HR), Hc. cbn [uninterrupted]. rewrite Hc1.
        destruct (c0 i) as [ms|] eqn:E0.
        { apply (Use c' c1 ms); eauto. intros c3 H3. rewrite (Keep _ _ H3), (Keep _ _ HR). auto. }
        destruct (makemats o (gsof i)) as [ms|e].
        2:{ apply Hnext. intros j Hj. split; auto. apply (Step c); auto. }
        cbn [steady]. split; auto. split; [congruence|]. intros c2 H2. cbn [uninterrupted].
        assert (A2 : forall j, rest j -> agrees (cache_set c2 i ms) j) by (apply Set_, (Step c'); auto; apply (Step c); auto).
        destruct d.
        2:{ apply (Use _ _ ms); [intros c3 H3; rewrite (Keep _ _ H3); apply cache_set_same|apply cache_set_same|auto|apply Set1; auto]. }
        cbn [steady]. intros c3 H3. rewrite (Keep _ _ H3), cache_set_same. cbn [uninterrupted]. rewrite cache_set_same.
        assert (A3 : forall j, rest j -> agrees c3 j) by (apply (Step (cache_set c2 i ms)); auto).
        destruct (adj_ms ms) as [ms'|e].
        2:{ apply Hnext. intros j Hj. split; auto. }
        cbn [steady]. split; auto. split; [congruence|]. intros c4 H4. cbn [uninterrupted].
        apply (Use _ _ ms'); [intros c5 H5; rewrite (Keep _ _ H5); apply cache_set_same|apply cache_set_same| |].
        + apply Set_. apply (Step c3); auto.
        + apply Set1, Set1; auto.
    Qed.
    Lemma feeds_steady ev fin : forall l a c c1, NoDup l -> (forall i, In i l -> N i) -> (forall i, In i l -> agrees c i /\ c1 i = c0 i) ->
      steady (feeds_p ev h (map (fun i => (i, gsof i)) l) fin a) c (snd (uninterrupted (feeds_p ev h (map (fun i => (i, gsof i)) l) fin a) c1)).
    Proof.
      induction l as [|i l IH]; intros a c c1 Hd HN Hc; [destruct fin; reflexivity|]. cbn [map feeds_p].
      inversion Hd as [|x y Hni Hd']; subst.
      apply (feed_steady ev i a _ (fun j => In j l)).
      - apply HN; left; auto.
      - intros j Hj. split; [apply HN; right; auto|intros ->; auto].
      - intros [a'|e] c' c1' H'; [apply IH; auto; intros; apply HN; right; auto|reflexivity].
      - apply Hc; left; auto.
      - apply Hc; left; auto.
      - intros j Hj. apply Hc; right; auto.
    Qed.
    Lemma run_steady ev args feed strict state ord :
      NoDup ord -> (forall i, In i ord -> N i) -> (forall fr gn, (exists n g s, prepare ev h args feed strict state = Ok (fr, gn, n, g, s)) ->
        visits h fr gn = (map (fun i => (i, gsof i)) ord, Ok tt)) ->
      steady (run_p ev h args feed strict state) c0 (snd (run ev c0 h args feed strict state)).
    Proof.
      intros Hd HN Hv. rewrite <- run_alone. unfold run_p. destruct (prepare ev h args feed strict state) as [[[[[fr gn] n] gs] sts]|e]; [|reflexivity].
      destruct (make_state _ _ _ _ _ _ _ _) as [b|e]; [|reflexivity].
      rewrite (Hv fr gn) by eauto. apply feeds_steady; auto. intros i Hi. split; [split; auto|auto].
    Qed.
  End Rely.

  (** ** the traversal *)
  Lemma sfold_log (g : nat -> list (list Z)) : forall l l0,
    sfold (fun (a : list (nat * list (list Z))) i => (a ++ [(i, g i)], Ok tt)) l l0 = (l0 ++ map (fun i => (i, g i)) l, Ok tt).
  Proof.
    induction l as [|i l IH]; intros l0; cbn [sfold map]; [rewrite app_nil_r; reflexivity|]. cbn [sbind]. rewrite IH, <- app_assoc. reflexivity.
  Qed.
  Lemma prepare_visits h vis args : built h vis -> incl args vis -> splits_in_range h vis ->
    exists srcs order gsof, sources h args srcs /\ NoDup order /\ (forall i, In i order <-> ancestor h args i) /\
      (forall i, In i order -> Forall2 (wires h srcs) (inputs_of h i) (gsof i)) /\
      forall ev feed strict state, enum_ok ev -> forall fr gn, (exists n g s, prepare ev h args feed strict state = Ok (fr, gn, n, g, s)) ->
        visits h fr gn = (map (fun i => (i, gsof i)) order, Ok tt).
  Proof.
    intros B Ha Hs. pose proof (built_wf _ _ B) as W. pose proof (splits_anc h vis args W Ha Hs) as Hsp.
    destruct (sources_exists h vis args W Ha) as (srcs & Hsrc). destruct (ord_exists h vis args W Ha) as (ord & Ho & Hoi).
    exists srcs, ord, (fun i => map (wire h srcs) (inputs_of h i)).
    split; auto. split; [apply sorted_lt_NoDup; auto|]. split; auto. split; [intros i Hi; eapply a_inputs; eauto; apply Hoi; auto|].
    intros ev feed strict state He fr gn (n & g & s & E).
    destruct (graph_trace h vis args srcs ord W Ha Hsp Hsrc Ho Hoi ev He) as (fr0 & gn0 & E1 & Pf & Es & E2).
    unfold prepare in E. rewrite E1 in E. cbn [bind] in E. rewrite Es in E.
    destruct (strict && _); [discriminate|]. destruct (assign_indices h srcs) as [qb m].
    destruct (mmap _ _) as [gs|e]; cbn [bind] in E; [|discriminate]. destruct (truthy state) as [[|]|e]; cbn [bind] in E; inversion E; subst;
      (unfold visits; rewrite E2 by reflexivity; apply sfold_log).
  Qed.
End Interference.
