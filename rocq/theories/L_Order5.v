(** The same circuit built in another order: whole runs. *)
From Coq Require Import Sorted.
From Verif Require Import Base S_Bits L_Bits M_Kron S_Kron M_Ops S_Ops M_Feed S_Feed M_Func S_Func
  M_Measure S_Measure L_Measure2 L_Alg M_Graph S_Graph L_Graph1 L_Graph2 L_Graph3 L_Graph4 L_Graph5 L_Graph7 L_Graph8 L_Graph10 L_Graph11
  S_Born L_Born L_Grow1 L_Context3 S_Order L_Order1 L_Order2 L_Order3 L_Order4.

Section OrderTop.
  Context {K : Type} {OK : OrdRing K}.
  Notation C := (Cx K).
  Implicit Types h : heap K.

  (** the state and the reports of two runs, as evolutions of the nodes of the first circuit *)
  Definition two_runs h args srcs (f : nat -> nat) (r r' : K -> K) (v v' : Z -> C) (st st' : list C) (cm cm' : list (nat * cval K)) : Prop :=
    exists l l2 (o o' : nat -> cval K), cm = map (fun i => (i, o i)) l /\ cm' = map (fun i => (f i, o' i)) l2 /\
      Permutation l l2 /\ StronglySorted lt l /\ StronglySorted (fun x y => (f x < f y)%nat) l2 /\
      (forall i, In i l -> ancestor h args i) /\ (forall i, In i l2 -> ancestor h args i) /\
      evolves r h srcs (widths h srcs) (map (fun i => (i, o i)) l) v (amp st) /\
      evolves r' h srcs (widths h srcs) (map (fun i => (i, o' i)) l2) v' (amp st').

  Section Two.
    Variables (h : heap K) (vis args : list nat) (srcs : list nat) (h' : heap K) (vis' args' : list nat) (srcs' : list nat) (f : nat -> nat).
    Hypothesis W : wf h vis.
    Hypothesis Hargs : incl args vis.
    Hypothesis Hsplit : forall i idx k, ancestor h args i -> nd_kind (nd h i) = KSplit idx -> inputs_of h i <> [] ->
      In k idx -> 0 <= k < widths h (inputs_of h i).
    Hypothesis Hsrcs : sources h args srcs.
    Hypothesis W' : wf h' vis'.
    Hypothesis Hargs' : incl args' vis'.
    Hypothesis Hsplit' : forall i idx k, ancestor h' args' i -> nd_kind (nd h' i) = KSplit idx -> inputs_of h' i <> [] ->
      In k idx -> 0 <= k < widths h' (inputs_of h' i).
    Hypothesis Hsrcs' : sources h' args' srcs'.
    Hypothesis Hsame : same_circuit h args srcs h' args' srcs' f.

    Lemma evolves_iso rsqrt n (o' : nat -> cval K) : forall l v u, (forall i, In i l -> ancestor h args i) ->
      evolves rsqrt h' srcs' n (map (fun i => (f i, o' i)) l) v u -> evolves rsqrt h srcs n (map (fun i => (i, o' i)) l) v u.
    Proof.
      induction l as [|i l IH]; intros v u Hl E; cbn [map] in *.
      - inversion E; subst. constructor. auto.
      - assert (Hi : ancestor h args i) by (apply Hl; left; auto).
        inversion E as [|i0 cv0 l0 groups v0 v1 u0 HF S E1]; subst.
        rewrite (wires_inputs_fun h' vis' args' srcs' W' Hargs' Hsplit' Hsrcs' (f i) groups (iso_anc h args srcs h' args' srcs' f Hsame i Hi) HF) in S.
        rewrite (iso_groups h vis args srcs h' vis' args' srcs' f W Hargs Hsrcs W' Hargs' Hsrcs' Hsame i Hi) in S.
        destruct Hsame as (_ & _ & _ & Hn). destruct (Hn i Hi) as (Ek & _). rewrite Ek in S.
        apply (evolves_cons rsqrt h srcs n i (o' i) _ (map (wire h srcs) (inputs_of h i)) v v1 u); auto.
        + apply (a_inputs h vis args srcs W Hargs Hsplit Hsrcs); auto.
        + apply IH; auto. intros; apply Hl; right; auto.
    Qed.
  End Two.

  Lemma runs_order h vis c l args srcs h' vis' c' l' args' srcs' f :
    session h vis c l -> splits_in_range h vis -> no_swap_dagger h vis -> incl args vis ->
    (forall a, In a l -> same_qubits h args a) -> sources h args srcs ->
    session h' vis' c' l' -> splits_in_range h' vis' -> no_swap_dagger h' vis' -> incl args' vis' ->
    (forall a, In a l' -> same_qubits h' args' a) -> sources h' args' srcs' ->
    same_circuit h args srcs h' args' srcs' f ->
    let n := widths h srcs in circuit_ok h args srcs n ->
    forall ev feed strict state init ev' feed' strict' state' init',
    enum_ok ev -> scheds_ok ev h n -> initial h srcs n feed state init ->
    enum_ok ev' -> scheds_ok ev' h' n -> initial h' srcs' n feed' state' init' ->
    forall d d' st cm st' cm', run ev c h args feed strict state = (d, Ok (st, cm)) -> run ev' c' h' args' feed' strict' state' = (d', Ok (st', cm')) ->
    zlen st = 2 ^ n /\ zlen st' = 2 ^ n /\
    two_runs h args srcs f (e_rsqrt ev) (e_rsqrt ev') (amp (map (fed_amp n init) (zrange 0 (2 ^ n)))) (amp (map (fed_amp n init') (zrange 0 (2 ^ n)))) st st' cm cm'.
  Proof.
    intros S Hs Hd Ha Hq Hsrc S' Hs' Hd' Ha' Hq' Hsrc' Hsame n Hok ev feed strict state init ev' feed' strict' state' init' He Hsc HI He' Hsc' HI' d d' st cm st' cm' E E'.
    pose proof (session_wf _ _ _ _ S) as W. pose proof (session_wf _ _ _ _ S') as W'.
    pose proof (splits_anc h vis args W Ha Hs) as Hsp. pose proof (splits_anc h' vis' args' W' Ha' Hs') as Hsp'.
    assert (En : widths h' srcs' = n) by (eapply iso_n; eauto).
    assert (Hok' : circuit_ok h' args' srcs' n) by (eapply (iso_ok h vis args srcs h' vis' args' srcs' f); eauto).
    destruct (run_top h vis c l args srcs S Hs Hd Ha Hq Hsrc Hok ev feed strict state init He Hsc HI) as (R & _ & _).
    destruct (R d st cm E) as (Z1 & So & An & Ev).
    rewrite <- En in *.
    destruct (run_top h' vis' c' l' args' srcs' S' Hs' Hd' Ha' Hq' Hsrc' Hok' ev' feed' strict' state' init' He' Hsc' HI') as (R' & _ & _).
    destruct (R' d' st' cm' E') as (Z1' & So' & An' & Ev'). rewrite En in *. split; auto. split; auto.
    destruct (iso_order h args srcs h' args' srcs' f Hsame (map fst cm) (map fst cm') So An So' An') as (l2 & E2 & P & Sf & A2).
    destruct (assoc_fun (CZero (K := K)) cm (sorted_lt_NoDup _ So)) as (o & Eo).
    destruct (assoc_fun (CZero (K := K)) cm' (sorted_lt_NoDup _ So')) as (o' & Eo').
    assert (Eo2 : cm' = map (fun i => (f i, o' (f i))) l2) by (rewrite Eo', E2, map_map; reflexivity).
    exists (map fst cm), l2, o, (fun i => o' (f i)). rewrite <- Eo. repeat (split; auto).
    - intros i Hi. apply An. auto.
    - eapply (evolves_iso h vis args srcs h' vis' args' srcs' f); eauto. rewrite <- Eo2. exact Ev'.
  Qed.

  Lemma amp_ext (st st' : list C) n : zlen st = 2 ^ n -> zlen st' = 2 ^ n -> eqn n (amp st) (amp st') -> st = st'.
  Proof. intros H H' E. apply list_eq_znth with (d := 0%r); [congruence|]. intros j Hj. apply E. lia. Qed.
  Lemma fed_eqn n (init init' : list (list Z * list C)) : 0 <= n -> (forall x, 0 <= x < 2 ^ n -> fed_amp n init x = fed_amp n init' x) ->
    eqn n (amp (map (fed_amp n init) (zrange 0 (2 ^ n)))) (amp (map (fed_amp n init') (zrange 0 (2 ^ n)))).
  Proof.
    intros Hn H x Hx. f_equal. apply map_ext_in. intros y Hy. apply in_zrange in Hy. apply H. lia.
  Qed.
  Lemma factor_one h args srcs rsqrt : no_measure h args -> forall l v u, (forall i, In i (map fst l) -> ancestor h args i) ->
    evolves rsqrt h srcs (widths h srcs) l v u -> total_factor rsqrt l = 1%r.
  Proof.
    intros Hnm l v u Hl E. induction E as [|i cv l groups v v1 u HF S E IH]; auto.
    cbn [total_factor fold_right snd]. fold (total_factor rsqrt l). rewrite IH by (intros; apply Hl; right; auto).
    assert (Hk : nd_kind (nd h i) <> KMeasure) by (apply Hnm; apply Hl; left; auto).
    replace (factor rsqrt cv) with (1%r : K); [apply (Rmul_1_l rth)|]. destruct cv; auto. inversion S; congruence.
  Qed.

  Section Tops.
    Variables (h : heap K) (vis : list nat) (c : cache K) (l : list (list nat)) (args srcs : list nat).
    Variables (h' : heap K) (vis' : list nat) (c' : cache K) (l' : list (list nat)) (args' srcs' : list nat) (f : nat -> nat).
    Hypothesis T : twins h vis c l args srcs h' vis' c' l' args' srcs' f.
    Notation n := (widths h srcs).
    Hypothesis Hok : circuit_ok h args srcs n.
    Variables (ev : env K) (feed : list (fkey * feed_t K)) (strict : bool) (state : state_kw K) (init : list (list Z * list C)).
    Variables (ev' : env K) (feed' : list (fkey * feed_t K)) (strict' : bool) (state' : state_kw K) (init' : list (list Z * list C)).
    Hypothesis He : enum_ok ev.
    Hypothesis Hsc : scheds_ok ev h n.
    Hypothesis HI : initial h srcs n feed state init.
    Hypothesis He' : enum_ok ev'.
    Hypothesis Hsc' : scheds_ok ev' h' n.
    Hypothesis HI' : initial h' srcs' n feed' state' init'.
    Hypothesis Hin : forall x, 0 <= x < 2 ^ n -> fed_amp n init x = fed_amp n init' x.
    Variables (d d' : cache K) (st st' : list C) (cm cm' : list (nat * cval K)).
    Hypothesis R : run ev c h args feed strict state = (d, Ok (st, cm)).
    Hypothesis R' : run ev' c' h' args' feed' strict' state' = (d', Ok (st', cm')).

    Lemma tops : wf h vis /\ incl args vis /\
      (forall i idx k, ancestor h args i -> nd_kind (nd h i) = KSplit idx -> inputs_of h i <> [] -> In k idx -> 0 <= k < widths h (inputs_of h i)) /\
      sources h args srcs /\ used_once h args srcs /\ 0 <= n /\
      (forall a b, ancestor h args b -> In a (inputs_of h b) -> (f a < f b)%nat) /\
      zlen st = 2 ^ n /\ zlen st' = 2 ^ n /\
      exists v0, eqn n v0 (amp (map (fed_amp n init') (zrange 0 (2 ^ n)))) /\
      two_runs h args srcs f (e_rsqrt ev) (e_rsqrt ev') v0 (amp (map (fed_amp n init') (zrange 0 (2 ^ n)))) st st' cm cm'.
    Proof.
      destruct T as ((S & Hs & Hd & Ha & Hq & Hsrc) & (S' & Hs' & Hd' & Ha' & Hq' & Hsrc') & Hsame & Honce).
      pose proof (session_wf _ _ _ _ S) as W. pose proof (session_wf _ _ _ _ S') as W'.
      pose proof (splits_anc h vis args W Ha Hs) as Hsp. assert (Hn : 0 <= n) by (eapply n_nonneg; eauto).
      destruct (runs_order h vis c l args srcs h' vis' c' l' args' srcs' f S Hs Hd Ha Hq Hsrc S' Hs' Hd' Ha' Hq' Hsrc' Hsame Hok
        ev feed strict state init ev' feed' strict' state' init' He Hsc HI He' Hsc' HI' d d' st cm st' cm' R R') as (Z1 & Z2 & TR).
      repeat (split; auto).
      - intros a b Hb Hab. eapply (iso_key h args srcs h' vis' args' srcs' f); eauto.
      - eexists. split; [|exact TR]. apply fed_eqn; auto.
    Qed.

    Lemma same_state : no_measure h args -> st = st'.
    Proof.
      intros Hnm. destruct tops as (W & Ha & Hsp & Hsrc & Honce & Hn & Hkey & Z1 & Z2 & v0 & E0 & L & L2 & o & o' & Ec & Ec' & P & So & Sf & A & A2 & E & E').
      apply (amp_ext st st' n); auto. intros r Hr. set (z := fun _ : nat => 0).
      assert (M : forall (q : nat -> cval K) LL, (forall i, In i LL -> ancestor h args i) -> forall i cv, In (i, cv) (map (fun i => (i, q i)) LL) -> nd_kind (nd h i) = KMeasure -> z i = seen cv).
      { intros q LL HL i cv Hi Hk. apply in_map_iff in Hi. destruct Hi as (j & Ej & Hj). injection Ej as <- _. exfalso. apply (Hnm j); auto. }
      assert (F : forall q : nat -> cval K, forall LL : list nat, map fst (map (fun i => (i, q i)) LL) = LL) by (intros; rewrite map_map; apply map_id).
      assert (AF : forall i, In i (map fst (map (fun i => (i, o i)) L)) -> ancestor h args i) by (rewrite F; exact A).
      assert (AF2 : forall i, In i (map fst (map (fun i => (i, o' i)) L2)) -> ancestor h args i) by (rewrite F; exact A2).
      rewrite (evolves_acts h vis args srcs W Ha Hsp Hsrc Hok (e_rsqrt ev) z _ _ _ E AF (M o L A) r Hr).
      rewrite (evolves_acts h vis args srcs W Ha Hsp Hsrc Hok (e_rsqrt ev') z _ _ _ E' AF2 (M o' L2 A2) r Hr).
      rewrite (factor_one h args srcs (e_rsqrt ev) Hnm _ _ _ AF E), (factor_one h args srcs (e_rsqrt ev') Hnm _ _ _ AF2 E'), !F.
      f_equal. rewrite (run_eqn h vis args srcs W Ha Hsp Hsrc Hok z L _ _ A E0 r Hr).
      apply (run_acts_order h vis args srcs W Ha Hsp Hsrc Hok Honce z f L L2); auto.
    Qed.
    Lemma same_reports : no_measure h args -> gates_exact h args -> forall i cv, In (i, cv) cm -> exists cv', In (f i, cv') cm' /\ same_report cv cv'.
    Proof.
      intros Hnm Hg. destruct tops as (W & Ha & Hsp & Hsrc & Honce & Hn & Hkey & Z1 & Z2 & v0 & E0 & L & L2 & o & o' & Ec & Ec' & P & So & Sf & A & A2 & E & E').
      pose proof (evolves_order h vis args srcs W Ha Hsp Hsrc Hok Hg Hnm (e_rsqrt ev) Honce o f L L2 _ _ Hkey A P So Sf E) as E2.
      destruct (evolves_same h vis args srcs W Ha Hsp Hsrc Hok Hnm (e_rsqrt ev) (e_rsqrt ev') o o' L2 _ _ _ _ A2 E0 E2 E') as (_ & Hr).
      intros i cv Hi. rewrite Ec in Hi. apply in_map_iff in Hi. destruct Hi as (j & Ej & Hj). injection Ej as <- <-.
      assert (Hj2 : In j L2) by (eapply Permutation_in; eauto). exists (o' j). split; auto. rewrite Ec'. apply in_map_iff. eauto.
    Qed.
  End Tops.
End OrderTop.
