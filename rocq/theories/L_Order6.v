(** The same circuit built in another order: measured runs with the same outcomes. *)
From Coq Require Import Sorted.
From Verif Require Import Base S_Bits L_Bits M_Kron S_Kron M_Ops S_Ops M_Feed S_Feed M_Func S_Func
  M_Measure S_Measure L_Measure2 L_Alg M_Graph S_Graph L_Graph1 L_Graph2 L_Graph3 L_Graph4 L_Graph5 L_Graph7 L_Graph8 L_Graph10 L_Graph11
  S_Born L_Born L_Grow1 L_Context3 S_Order L_Order1 L_Order2 L_Order3 L_Order4 L_Order5.

Section Measured.
  Context {K : Type} {OK : OrdRing K}.
  Notation C := (Cx K).
  Add Ring KRing : (@rth K _).
  Add Ring CRing : (@rth (Cx K) _).
  Implicit Types h : heap K.

  Lemma root_unique (s s' x : K) : rle 0%r s -> rle 0%r s' -> (s * s * x = 1)%r -> (s' * s' * x = 1)%r -> s = s'.
  Proof.
    enough (G : forall s s', rle 0%r s -> rle 0%r s' -> rle s' s -> (s * s * x = 1)%r -> (s' * s' * x = 1)%r -> s = s').
    { intros H1 H2 E1 E2. destruct (rle_lt_dec s' s) as [H|H]; auto. symmetry. apply G; auto. apply rlt_le. auto. }
    clear s s'. intros s s' H1 H2 H3 E1 E2. set (y := (s - s')%r).
    assert (Hy : rle 0%r y).
    { unfold y. pose proof (rle_add_r s' s (- s')%r H3) as G. replace (s' + - s')%r with (0%r : K) in G by ring. replace (s - s')%r with (s + - s')%r by ring. exact G. }
    assert (Z : (y * s + y * s' = 0)%r).
    { transitivity ((s * s - s' * s') * 1)%r; [unfold y; ring|]. rewrite <- E1. transitivity (s * s * (s * s * x - s' * s' * x))%r; [ring|].
      rewrite E1, E2. ring. }
    assert (Ys : (y * s = 0)%r).
    { apply rle_antisym; [|apply rle_mul_nonneg; auto]. rewrite <- Z. replace (y * s)%r with (y * s + 0)%r at 1 by ring. apply rle_add_l. apply rle_mul_nonneg; auto. }
    assert (Y0 : y = 0%r). { transitivity (y * (s * s * x))%r; [rewrite E1; ring|]. transitivity (y * s * (s * x))%r; [ring|]. rewrite Ys. ring. }
    unfold y in Y0. transitivity (s - s' + s')%r; [ring|]. rewrite Y0. ring.
  Qed.
  Lemma norm_scaled n (a : K) (v : Z -> C) : norm_of n (fun r => creal a * v r)%r = (a * a * norm_of n v)%r.
  Proof.
    unfold norm_of. rewrite <- sum_mul_l. apply sum_ext. intros r _. rewrite cnorm2_mul, cnorm2_creal. reflexivity.
  Qed.

  Section Nodes.
    Variables (h : heap K) (vis args : list nat) (srcs : list nat).
    Hypothesis W : wf h vis.
    Hypothesis Hargs : incl args vis.
    Hypothesis Hsplit : forall i idx k, ancestor h args i -> nd_kind (nd h i) = KSplit idx -> inputs_of h i <> [] ->
      In k idx -> 0 <= k < widths h (inputs_of h i).
    Hypothesis Hsrcs : sources h args srcs.
    Notation w := (wire h srcs).
    Notation n := (widths h srcs).
    Hypothesis Hok : circuit_ok h args srcs n.
    Hypothesis Hg : gates_exact h args.
    Variable ev : env K.
    Hypothesis Hd : draws_ok ev.
    Hypothesis Hpos : forall p, rle 0%r (e_rsqrt ev p).

    Lemma measured_norm l v u : evolves (e_rsqrt ev) h srcs n l v u -> (forall i, In i (map fst l) -> ancestor h args i) -> norm_of n v = 1%r ->
      norm_of n u = 1%r /\ rle 0%r (total_factor (e_rsqrt ev) l) /\ (total_factor (e_rsqrt ev) l * total_factor (e_rsqrt ev) l * likelihood l = 1)%r.
    Proof.
      induction 1 as [v u E|i cv l groups v v1 u HF S E IH]; intros Hl Hv.
      - rewrite <- Hv. split; [apply norm_ext; auto|]. split; [apply rle_0_1|]. rewrite Hv. cbn [total_factor fold_right likelihood]. ring.
      - assert (Hi : ancestor h args i) by (apply Hl; left; auto). rewrite (wires_inputs_fun h vis args srcs W Hargs Hsplit Hsrcs i groups Hi HF) in S.
        cbn [total_factor fold_right snd]. fold (total_factor (e_rsqrt ev) l).
        assert (D : (nd_kind (nd h i) = KMeasure /\ exists m p, cv = CMeas m p) \/ (nd_kind (nd h i) <> KMeasure /\ factor (e_rsqrt ev) cv = 1%r /\ likelihood ((i, cv) :: l) = likelihood l)).
        { destruct (nd_kind (nd h i)) as [|ix|oo dd|func| |k]; inversion S; subst; try (right; split; [congruence|split; reflexivity]).
          left. eauto. }
        destruct D as [(Ek & m & p & ->)|(Ek & Ef & El)].
        + rewrite Ek in S. destruct (meas_norm h vis args srcs W Hargs Hsplit Hsrcs ev Hok Hd i v v1 m p Hi Ek Hv S) as (Hv1 & Hm & Hp & Ep).
          destruct (IH ltac:(intros; apply Hl; right; auto) Hv1) as (A & B & D). split; auto. cbn [factor likelihood].
          split; [apply rle_mul_nonneg; auto|].
          assert (Hp1 : rle p 1%r).
          { rewrite <- Hv, Ep. eapply rle_trans; [|apply (below_le n (measured_order n (concat (map w (inputs_of h i)))) v (m + 1)); lia].
            rewrite below_succ by lia. match goal with |- rle ?x _ => replace x with (0 + x)%r at 1 by ring end. apply rle_add_r.
            unfold below. apply sum_nonneg. intros x _. apply marginal_nonneg. }
          destruct Hd as (_ & _ & Hrs). pose proof (Hrs p Hp Hp1) as Q.
          transitivity ((e_rsqrt ev p * e_rsqrt ev p * p) * (total_factor (e_rsqrt ev) l * total_factor (e_rsqrt ev) l * likelihood l))%r; [ring|].
          rewrite Q, D. ring.
        + pose proof (sem_norm h vis args srcs W Hargs Hsplit Hsrcs ev Hok Hg i v v1 cv Hi Ek S) as Hv1. rewrite Hv in Hv1.
          destruct (IH ltac:(intros; apply Hl; right; auto) Hv1) as (A & B & D). rewrite Ef, El. split; auto.
          replace (1 * total_factor (e_rsqrt ev) l)%r with (total_factor (e_rsqrt ev) l) by ring. auto.
    Qed.
  End Nodes.

  Section Tops.
    Variables (h : heap K) (vis : list nat) (c : cache K) (l : list (list nat)) (args srcs : list nat).
    Variables (h' : heap K) (vis' : list nat) (c' : cache K) (l' : list (list nat)) (args' srcs' : list nat) (f : nat -> nat).
    Hypothesis T : twins h vis c l args srcs h' vis' c' l' args' srcs' f.
    Notation n := (widths h srcs).
    Hypothesis Hok : circuit_ok h args srcs n.
    Variables (ev : env K) (feed : list (fkey * feed_t K)) (strict : bool) (state : state_kw K) (init : list (list Z * list C)).
    Variables (ev' : env K) (feed' : list (fkey * feed_t K)) (strict' : bool) (state' : state_kw K) (init' : list (list Z * list C)).
    Hypothesis He : enum_ok ev.
    Hypothesis Hsc : scheds_ok ev h n.
    Hypothesis HI : initial h srcs n feed state init.
    Hypothesis He' : enum_ok ev'.
    Hypothesis Hsc' : scheds_ok ev' h' n.
    Hypothesis HI' : initial h' srcs' n feed' state' init'.
    Hypothesis Hin : forall x, 0 <= x < 2 ^ n -> fed_amp n init x = fed_amp n init' x.
    Variables (d d' : cache K) (st st' : list C) (cm cm' : list (nat * cval K)).
    Hypothesis R : run ev c h args feed strict state = (d, Ok (st, cm)).
    Hypothesis R' : run ev' c' h' args' feed' strict' state' = (d', Ok (st', cm')).
    Hypothesis Hg : gates_exact h args.
    Hypothesis Hd : draws_ok ev.
    Hypothesis Hpos : forall p, rle 0%r (e_rsqrt ev p).
    Hypothesis Hd' : draws_ok ev'.
    Hypothesis Hpos' : forall p, rle 0%r (e_rsqrt ev' p).
    Hypothesis Ht : forall g v, In (g, v) init -> total v = 1%r.
    Hypothesis Hout : forall i m p, reports cm i m p -> exists p', reports cm' (f i) m p'.

    Lemma same_measured : st = st' /\ likelihood cm = likelihood cm'.
    Proof.
      destruct (tops h vis c l args srcs h' vis' c' l' args' srcs' f T Hok ev feed strict state init ev' feed' strict' state' init'
        He Hsc HI He' Hsc' HI' Hin d d' st st' cm cm' R R')
        as (W & Ha & Hsp & Hsrc & Honce & Hn & Hkey & Z1 & Z2 & v0 & E0 & L & L2 & o & o' & Ec & Ec' & P & So & Sf & A & A2 & E & E').
      set (v' := amp (map (fed_amp n init') (zrange 0 (2 ^ n)))) in *.
      assert (Nv' : norm_of n v' = 1%r).
      { rewrite <- (init_norm h vis args srcs W Ha Hsrc feed state init HI Ht). apply norm_ext. intros x Hx. symmetry. apply fed_eqn; auto. }
      assert (Nv0 : norm_of n v0 = 1%r) by (rewrite <- Nv'; apply norm_ext; auto).
      assert (F : forall q : nat -> cval K, forall LL : list nat, map fst (map (fun i => (i, q i)) LL) = LL) by (intros; rewrite map_map; apply map_id).
      assert (AF : forall i, In i (map fst (map (fun i => (i, o i)) L)) -> ancestor h args i) by (rewrite F; exact A).
      assert (AF2 : forall i, In i (map fst (map (fun i => (i, o' i)) L2)) -> ancestor h args i) by (rewrite F; exact A2).
      destruct (measured_norm h vis args srcs W Ha Hsp Hsrc Hok Hg ev Hd Hpos _ _ _ E AF Nv0) as (N1 & F1 & Q1).
      destruct (measured_norm h vis args srcs W Ha Hsp Hsrc Hok Hg ev' Hd' Hpos' _ _ _ E' AF2 Nv') as (N2 & F2 & Q2).
      set (z := fun i => seen (o i)).
      assert (M1 : forall i cv, In (i, cv) (map (fun i => (i, o i)) L) -> nd_kind (nd h i) = KMeasure -> z i = seen cv).
      { intros i cv Hi _. apply in_map_iff in Hi. destruct Hi as (j & Ej & Hj). injection Ej as <- <-. reflexivity. }
      assert (Sem : forall j, In j L -> nd_kind (nd h j) = KMeasure -> exists m p, o j = CMeas m p).
      { intros j Hj Hk. assert (G : forall LL v u, evolves (e_rsqrt ev) h srcs n (map (fun i => (i, o i)) LL) v u -> In j LL -> exists m p, o j = CMeas m p).
        { clear - Hk. induction LL as [|i LL IH]; intros v u EE Hj; [destruct Hj|]. destruct Hj as [->|Hj]; cbn [map] in EE; inversion EE; subst.
          - match goal with HS : node_sem _ _ _ _ _ _ _ |- _ => rewrite Hk in HS; inversion HS; eauto end.
          - eauto. }
        eapply G; eauto. }
      assert (Inj : forall i j, In i L2 -> In j L2 -> f i = f j -> i = j).
      { intros i j Hi Hj Ef. destruct T as (_ & _ & (_ & _ & HH & _) & _). apply HH; auto. }
      assert (M2 : forall i cv, In (i, cv) (map (fun i => (i, o' i)) L2) -> nd_kind (nd h i) = KMeasure -> z i = seen cv).
      { intros i cv Hi Hk. apply in_map_iff in Hi. destruct Hi as (j & Ej & Hj). injection Ej as -> <-.
        assert (HiL : In i L) by (eapply Permutation_in; [apply Permutation_sym, P|]; auto).
        destruct (Sem i HiL Hk) as (m & p & Em). destruct (Hout i m p) as (p' & Hp').
        { unfold reports. rewrite Ec. apply in_map_iff. exists i. rewrite Em. auto. }
        unfold reports in Hp'. rewrite Ec' in Hp'. apply in_map_iff in Hp'. destruct Hp' as (j & Ej & Hj2). injection Ej as Ef Ho.
        apply Inj in Ef; auto. subst j. unfold z. rewrite Em, Ho. reflexivity. }
      pose proof (evolves_acts h vis args srcs W Ha Hsp Hsrc Hok (e_rsqrt ev) z _ _ _ E AF M1) as X1.
      pose proof (evolves_acts h vis args srcs W Ha Hsp Hsrc Hok (e_rsqrt ev') z _ _ _ E' AF2 M2) as X2.
      rewrite F in X1, X2.
      assert (X : eqn n (run_acts h srcs z L v0) (run_acts h srcs z L2 v')).
      { intros r Hr. rewrite (run_eqn h vis args srcs W Ha Hsp Hsrc Hok z L _ _ A E0 r Hr).
        apply (run_acts_order h vis args srcs W Ha Hsp Hsrc Hok Honce z f L L2); auto. }
      set (s := total_factor (e_rsqrt ev) _) in *. set (s' := total_factor (e_rsqrt ev') _) in *.
      set (N := norm_of n (run_acts h srcs z L2 v')).
      assert (P1 : (s * s * N = 1)%r).
      { rewrite <- N1. rewrite (norm_ext n _ _ X1), norm_scaled. f_equal. unfold N. symmetry. apply norm_ext. exact X. }
      assert (P2 : (s' * s' * N = 1)%r).
      { rewrite <- N2. rewrite (norm_ext n _ _ X2), norm_scaled. reflexivity. }
      assert (Es : s = s') by (apply (root_unique s s' N); auto).
      split.
      - apply (amp_ext st st' n); auto. intros r Hr. rewrite (X1 r Hr), (X2 r Hr), Es, (X r Hr). reflexivity.
      - assert (G : forall t x : K, (t * t * N = 1)%r -> (t * t * x = 1)%r -> x = N).
        { intros t x G1 G2. transitivity (x * (t * t * N))%r; [rewrite G1; ring|]. transitivity (t * t * x * N)%r; [ring|]. rewrite G2. ring. }
        transitivity N; [|symmetry].
        + apply (G s); auto. rewrite Ec. exact Q1.
        + apply (G s'); auto. rewrite Ec'. rewrite <- Q2. f_equal. clear. induction L2 as [|i L2 IH]; auto. cbn [map likelihood]. destruct (o' i); congruence.
    Qed.
  End Tops.

  Lemma order_state : forall h vis c l args srcs h' vis' c' l' args' srcs' f, twins h vis c l args srcs h' vis' c' l' args' srcs' f ->
    let n := widths h srcs in circuit_ok h args srcs n ->
    forall ev feed strict state init ev' feed' strict' state' init', starts h srcs n ev feed state init -> starts h' srcs' n ev' feed' state' init' ->
    (forall x, 0 <= x < 2 ^ n -> fed_amp n init x = fed_amp n init' x) ->
    forall d d' st cm st' cm', run ev c h args feed strict state = (d, Ok (st, cm)) -> run ev' c' h' args' feed' strict' state' = (d', Ok (st', cm')) ->
    no_measure h args -> st = st'.
  Proof.
    intros h vis c l args srcs h' vis' c' l' args' srcs' f T n Hok ev feed strict state init ev' feed' strict' state' init' (A1 & A2 & A3) (B1 & B2 & B3) Hin d d' st cm st' cm' R R' H.
    exact (same_state h vis c l args srcs h' vis' c' l' args' srcs' f T Hok ev feed strict state init ev' feed' strict' state' init' A1 A2 A3 B1 B2 B3 Hin d d' st st' cm cm' R R' H).
  Qed.
  Lemma order_reports : forall h vis c l args srcs h' vis' c' l' args' srcs' f, twins h vis c l args srcs h' vis' c' l' args' srcs' f ->
    let n := widths h srcs in circuit_ok h args srcs n ->
    forall ev feed strict state init ev' feed' strict' state' init', starts h srcs n ev feed state init -> starts h' srcs' n ev' feed' state' init' ->
    (forall x, 0 <= x < 2 ^ n -> fed_amp n init x = fed_amp n init' x) ->
    forall d d' st cm st' cm', run ev c h args feed strict state = (d, Ok (st, cm)) -> run ev' c' h' args' feed' strict' state' = (d', Ok (st', cm')) ->
    no_measure h args -> gates_exact h args -> forall i cv, In (i, cv) cm -> exists cv', In (f i, cv') cm' /\ same_report cv cv'.
  Proof.
    intros h vis c l args srcs h' vis' c' l' args' srcs' f T n Hok ev feed strict state init ev' feed' strict' state' init' (A1 & A2 & A3) (B1 & B2 & B3) Hin d d' st cm st' cm' R R' H Hg.
    exact (same_reports h vis c l args srcs h' vis' c' l' args' srcs' f T Hok ev feed strict state init ev' feed' strict' state' init' A1 A2 A3 B1 B2 B3 Hin d d' st st' cm cm' R R' H Hg).
  Qed.
  Lemma order_measured : forall h vis c l args srcs h' vis' c' l' args' srcs' f, twins h vis c l args srcs h' vis' c' l' args' srcs' f ->
    let n := widths h srcs in circuit_ok h args srcs n ->
    forall ev feed strict state init ev' feed' strict' state' init', starts h srcs n ev feed state init -> starts h' srcs' n ev' feed' state' init' ->
    (forall x, 0 <= x < 2 ^ n -> fed_amp n init x = fed_amp n init' x) ->
    forall d d' st cm st' cm', run ev c h args feed strict state = (d, Ok (st, cm)) -> run ev' c' h' args' feed' strict' state' = (d', Ok (st', cm')) ->
    gates_exact h args -> (forall g v, In (g, v) init -> total v = 1%r) ->
    draws_ok ev -> (forall p, rle 0%r (e_rsqrt ev p)) -> draws_ok ev' -> (forall p, rle 0%r (e_rsqrt ev' p)) ->
    (forall i m p, reports cm i m p -> exists p', reports cm' (f i) m p') -> st = st' /\ likelihood cm = likelihood cm'.
  Proof.
    intros h vis c l args srcs h' vis' c' l' args' srcs' f T n Hok ev feed strict state init ev' feed' strict' state' init' (A1 & A2 & A3) (B1 & B2 & B3) Hin d d' st cm st' cm' R R' Hg Ht D P D' P' Ho.
    exact (same_measured h vis c l args srcs h' vis' c' l' args' srcs' f T Hok ev feed strict state init ev' feed' strict' state' init' A1 A2 A3 B1 B2 B3 Hin d d' st st' cm cm' R R' Hg D P D' P' Ht Ho).
  Qed.
End Measured.
