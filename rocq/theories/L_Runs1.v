(** Runs by several threads: a run with the program to itself, and what other threads may do to it. *)
From Coq Require Import Sorted.
From Verif Require Import Base M_Kron M_Ops M_Feed M_Func M_Measure M_Graph S_Graph M_DistRun L_DistRun1 M_Runs S_Runs L_Threads1.

Section Alone.
  Context {K : Type} {OK : OrdRing K}.
  Notation C := (Cx K).
  Implicit Types c : cache K.

  (** the traversal does not depend on the feeds *)
  Fixpoint vfold {A} (feed : A -> nat -> list (list Z) -> st A unit) (l : list (nat * list (list Z))) (fin : res unit) (a : A) : st A unit :=
    match l with
    | [] => (a, fin)
    | (i, g) :: l => sbind (feed a i g) (fun a _ => vfold feed l fin a)
    end.
  Lemma loop_visits {A} (feed : A -> nat -> list (list Z) -> st A unit) (h : heap K) gn : forall fuel fr seen qb l0 a,
    exists l, fst (graph_loop (fun l i groups => (l ++ [(i, groups)], Ok tt)) h gn fuel fr seen qb l0) = l0 ++ l /\
      graph_loop feed h gn fuel fr seen qb a =
        vfold feed l (snd (graph_loop (fun l i groups => (l ++ [(i, groups)], Ok tt)) h gn fuel fr seen qb l0)) a.
  Proof.
    induction fuel as [|fuel IH]; intros fr seen qb l0 a; cbn [graph_loop].
    - destruct (sort_by (qid_of h) fr); exists []; rewrite app_nil_r; split; reflexivity.
    - destruct (sort_by (qid_of h) fr) as [|x fr']; [exists []; rewrite app_nil_r; split; reflexivity|].
      destruct (mmap (odict_get qb) (nd_inputs (nd h x))) as [gs|e]; [|exists []; rewrite app_nil_r; split; reflexivity].
      cbn [sbind]. destruct (push_sinks h gn (set_add seen x) (nd_sink (nd h x)) fr' qb) as [[fr2 qb2]|e] eqn:Ep.
      + destruct (feed a x gs) as [a1 [[]|e]] eqn:Ef; cbn [sbind].
        * destruct (IH fr2 (set_add seen x) qb2 (l0 ++ [(x, gs)]) a1) as (l & E1 & E2). exists ((x, gs) :: l).
          rewrite E1, <- app_assoc. split; [reflexivity|]. cbn [vfold]. rewrite Ef. cbn [sbind]. exact E2.
        * destruct (IH fr2 (set_add seen x) qb2 (l0 ++ [(x, gs)]) a1) as (l & E1 & E2). exists ((x, gs) :: l).
          rewrite E1, <- app_assoc. split; [reflexivity|]. cbn [vfold]. rewrite Ef. reflexivity.
      + exists [(x, gs)]. split; [reflexivity|]. cbn [vfold fst snd]. destruct (feed a x gs) as [a1 [[]|e2]]; reflexivity.
  Qed.
  Lemma run_visits {A} (feed : A -> nat -> list (list Z) -> st A unit) (h : heap K) fr gn a :
    run_graph feed h fr gn a = vfold feed (fst (visits h fr gn)) (snd (visits h fr gn)) a.
  Proof.
    unfold visits, run_graph. destruct (loop_visits feed h gn (length gn) fr [] (fst (assign_indices h (sort_by (qid_of h) fr))) [] a) as (l & E1 & E2).
    rewrite E2. rewrite E1. reflexivity.
  Qed.

  Definition with_cache (a : acc K) c : acc K := mkAcc (a_back a) (a_n a) (a_cm a) c.
  Definition is_mat (k : kind K) : bool := match k with KMat _ _ => true | _ => false end.
  Lemma feed_cache ev h a i gs c : is_mat (nd_kind (nd h i)) = false ->
    node_feed ev h (with_cache a c) i gs = (with_cache (fst (node_feed ev h a i gs)) c, snd (node_feed ev h a i gs)).
  Proof.
    intros Hm. unfold node_feed. destruct (nd_kind (nd h i)); try discriminate; cbn [with_cache a_back a_n a_cm a_cache]; try reflexivity.
    - destruct (fop_feed _ _ _ _ _ _); reflexivity.
    - destruct (bk_measure _ _ _ _ _ _ _ _ _) as [[[m p] b]|e]; reflexivity.
    - destruct (bk_measure_probabilities _ _ _); reflexivity.
  Qed.
  (** a feed and what follows *)
  Lemma feed_alone {A} ev h i gs (next : res (acc K) -> prog K A) (f : st (acc K) unit -> cache K * A) a c :
    (forall c' e a', a_cache a' = c' -> uninterrupted (next (Raise e)) c' = f (a', Raise e)) ->
    (forall c' a', uninterrupted (next (Ok (with_cache a' (a_cache a)))) c' = f (with_cache a' c', Ok tt)) ->
    uninterrupted (feed_p ev h a i gs next) c = f (node_feed ev h (with_cache a c) i gs).
  Proof.
    intros HR HO. destruct (is_mat (nd_kind (nd h i))) eqn:Em.
    - unfold feed_p, node_feed, op_mats. destruct (nd_kind (nd h i)) as [|ix|o d|fn| |k]; try discriminate. cbn [with_cache a_cache a_back a_n a_cm].
      assert (U : forall c' ms, c' i = Some ms ->
        uninterrupted (PRead i (fun v => match v with None => next (Raise TypeError) | Some ms =>
              match bk_kron (e_sched ev i) (a_back a) ms with
              | Raise e => next (Raise e)
              | Ok b => next (Ok (mkAcc b (a_n a - 0) (odict_set (a_cm a) i CZero) (a_cache a))) end end)) c' =
        f match bk_kron (e_sched ev i) (a_back a) ms with
          | Raise e => (mkAcc (a_back a) (a_n a) (a_cm a) c', Raise e)
          | Ok b => (mkAcc b (a_n a - 0) (odict_set (a_cm a) i CZero) c', Ok tt) end).
      { intros c' ms E. cbn [uninterrupted]. rewrite E. destruct (bk_kron (e_sched ev i) (a_back a) ms) as [b|e].
        - exact (HO c' (mkAcc b (a_n a - 0) (odict_set (a_cm a) i CZero) (a_cache a))).
        - apply HR. reflexivity. }
      assert (Cs : forall c' ms, cache_set c' i ms i = Some ms) by (intros c' ms; unfold cache_set; rewrite Nat.eqb_refl; reflexivity).
      match goal with |- uninterrupted (PRead i ?k) c = _ => change (uninterrupted (k (c i)) c = f (match match c i with Some ms => (c, Ok ms) | None =>
        match makemats o gs with Raise e => (c, Raise e) | Ok ms => if d then match adj_ms ms with Raise e => (cache_set c i ms, Raise e) |
          Ok ms0 => (cache_set (cache_set c i ms) i ms0, Ok ms0) end else (cache_set c i ms, Ok ms) end end with (c1, Ok ms) =>
            match bk_kron (e_sched ev i) (a_back a) ms with Raise e => (mkAcc (a_back a) (a_n a) (a_cm a) c1, Raise e)
            | Ok b => (mkAcc b (a_n a - 0) (odict_set (a_cm a) i CZero) c1, Ok tt) end
          | (c1, Raise e) => (mkAcc (a_back a) (a_n a) (a_cm a) c1, Raise e) end)) end.
      destruct (c i) as [ms|] eqn:Ec; [apply U; auto|].
      destruct (makemats o gs) as [ms|e]; [|apply HR; reflexivity].
      cbn [uninterrupted]. destruct d; [|apply U; auto]. cbn [uninterrupted]. rewrite Cs.
      destruct (adj_ms ms) as [ms'|e]; [|apply HR; reflexivity]. apply (U (cache_set (cache_set c i ms) i ms')); auto.
    - rewrite feed_cache by auto. unfold feed_p.
      assert (E : a = with_cache a (a_cache a)) by (destruct a; reflexivity).
      pose proof (feed_cache ev h a i gs (a_cache a) Em) as E2. rewrite <- E in E2.
      destruct (node_feed ev h a i gs) as [a1 r]. cbn [fst snd] in E2 |- *. inversion E2 as [E3].
      destruct (nd_kind (nd h i)); try discriminate; (destruct r as [[]|e]; [rewrite E3; apply HO|apply HR; reflexivity]).
  Qed.
  Lemma feeds_alone ev h fin : forall l a c,
    uninterrupted (feeds_p ev h l fin a) c =
      match vfold (node_feed ev h) l fin (with_cache a c) with
      | (a, Raise e) => (a_cache a, Raise e)
      | (a, Ok _) => (a_cache a, Ok (bk_state (a_back a), a_cm a))
      end.
  Proof.
    induction l as [|[i gs] l IH]; intros a c; cbn [feeds_p vfold].
    - destruct fin; reflexivity.
    - rewrite (feed_alone ev h i gs _ (fun x => match sbind x (fun a _ => vfold (node_feed ev h) l fin a) with
        | (a, Raise e) => (a_cache a, Raise e) | (a, Ok _) => (a_cache a, Ok (bk_state (a_back a), a_cm a)) end)); [reflexivity| |].
      + intros c' e a' E. cbn [uninterrupted sbind]. rewrite E. reflexivity.
      + intros c' a'. cbn [sbind]. rewrite IH. reflexivity.
  Qed.
  Lemma run_alone ev h args feed strict state c : uninterrupted (run_p ev h args feed strict state) c = run ev c h args feed strict state.
  Proof.
    rewrite run_prepare. unfold run_p. destruct (prepare ev h args feed strict state) as [[[[[fr gn] n] gs] sts]|e]; [|reflexivity].
    destruct (make_state _ _ _ _ _ _ _ _) as [b|e]; [|reflexivity].
    rewrite run_visits. destruct (visits h fr gn) as [l fin]. cbn [fst snd]. rewrite feeds_alone. reflexivity.
  Qed.

  (** ** the number of turns *)
  Fixpoint ends {A} (n : nat) (p : prog K A) {struct p} : Prop :=
    match p with
    | PRet _ => True
    | PRead i k => match n with O => False | S n => forall v, ends n (k v) end
    | PWrite i ms k => match n with O => False | S n => ends n k end
    end.
  Lemma ends_mono {A} (p : prog K A) : forall n m, (n <= m)%nat -> ends n p -> ends m p.
  Proof.
    induction p as [a|i k IH|i ms k IH]; intros n m Hm Hp; [exact I| |]; (destruct n; [destruct Hp|]); (destruct m; [lia|]); cbn [ends] in *.
    - intros v. apply (IH v n m); [lia|auto].
    - apply (IH n m); [lia|auto].
  Qed.
  Lemma feed_ends {A} ev h i gs (next : res (acc K) -> prog K A) a n : (forall r, ends n (next r)) -> ends (5 + n) (feed_p ev h a i gs next).
  Proof.
    intros Hn. assert (M : forall k r, ends (k + n) (next r)) by (intros k r; apply (ends_mono _ n); [lia|auto]).
    unfold feed_p. destruct (nd_kind (nd h i)) as [|ix|o d|fn| |k].
    1, 2, 4, 5, 6: destruct (node_feed ev h a i gs) as [a1 [[]|e]]; apply (M 5%nat).
    cbn [ends Nat.add]. intros [ms|].
    - intros [ms'|]; [|apply (M 3%nat)]. destruct (bk_kron _ _ _); apply (M 3%nat).
    - destruct (makemats o gs) as [ms|e]; [|apply (M 4%nat)]. destruct d.
      + intros [ms'|]; [|apply (M 2%nat)]. destruct (adj_ms ms') as [ms2|e]; [|apply (M 2%nat)].
        intros [ms3|]; [|apply (M 0%nat)]. destruct (bk_kron _ _ _); apply (M 0%nat).
      + intros [ms3|]; [|apply (M 2%nat)]. destruct (bk_kron _ _ _); apply (M 2%nat).
  Qed.
  Lemma feeds_end ev h fin : forall l a, ends (5 * length l) (feeds_p ev h l fin a).
  Proof.
    induction l as [|[i gs] l IH]; intros a; [exact I|]. cbn [feeds_p length].
    replace (5 * S (length l))%nat with (5 + 5 * length l)%nat by lia. apply feed_ends. intros [a'|e]; [apply IH|exact I].
  Qed.
  Lemma run_ends ev h args feed strict state : exists n, ends n (run_p ev h args feed strict state).
  Proof.
    unfold run_p. destruct (prepare ev h args feed strict state) as [[[[[fr gn] n] gs] sts]|e]; [|exists 0%nat; exact I].
    destruct (make_state _ _ _ _ _ _ _ _) as [b|e]; [|exists 0%nat; exact I].
    destruct (visits h fr gn) as [l fin]. eexists. apply feeds_end.
  Qed.
  Lemma advance_other {A} (s : runs K A) t u : t <> u -> nth_error (r_threads (advance s u)) t = nth_error (r_threads s) t.
  Proof.
    intros Hne. unfold advance. destruct (nth_error (r_threads s) u) as [[a|i k|i ms k]|]; auto; cbn [r_threads]; rewrite nth_error_upd;
    destruct (Nat.eqb_spec u t); congruence.
  Qed.
  Lemma ends_sched {A} t : forall sched (s : runs K A) n p, nth_error (r_threads s) t = Some p -> ends n p ->
    (n <= count_occ Nat.eq_dec sched t)%nat -> exists r, ended (advances s sched) t r.
  Proof.
    induction sched as [|u sched IH]; intros s n p Hp He Hn; unfold advances in *; cbn [fold_left count_occ] in *.
    - destruct n; [|lia]. destruct p as [a|i k|i ms k]; try destruct He. exists a. exact Hp.
    - destruct (Nat.eq_dec u t) as [->|Hne].
      + assert (X : exists p', nth_error (r_threads (advance s t)) t = Some p' /\ ends (pred n) p').
        { unfold advance. rewrite Hp. destruct p as [a|i k|i ms k]; [exists (PRet a); split; [auto|exact I]| |]; (destruct n; [destruct He|]);
          cbn [r_threads pred];
          (eexists; split; [rewrite nth_error_upd, Nat.eqb_refl, Hp; reflexivity|apply He]). }
        destruct X as (p' & Hp' & He'). apply (IH _ (pred n) p'); auto. lia.
      + apply (IH _ n p); auto. rewrite advance_other; auto.
  Qed.
End Alone.
