(** What running a grown circuit computes. *)
From Coq Require Import Sorted.
From Verif Require Import Base S_Bits L_Bits M_Kron S_Kron M_Ops S_Ops M_Feed S_Feed M_Func S_Func
  M_Measure S_Measure L_Alg M_Graph S_Graph L_Graph1 L_Graph2 L_Graph3 L_Graph5 L_Graph6 L_Graph7 L_Graph8 L_Graph9 L_Graph10 L_Graph11
  M_Context S_Context L_Sinks L_Grow1 L_Grow2.

Lemma sorted_nodup_fst {B} (l : list (nat * B)) : StronglySorted lt (map fst l) -> forall i a b, In (i, a) l -> In (i, b) l -> a = b.
Proof.
  intros H i a b Ha Hb. apply sorted_lt_NoDup in H. induction l as [|[j c] l IH]; [destruct Ha|]. cbn [map fst] in H. inversion H; subst.
  destruct Ha as [Ha|Ha], Hb as [Hb|Hb]; try congruence; auto.
  - inversion Ha; subst. exfalso. apply H2. apply in_map_iff. exists (i, b); auto.
  - inversion Hb; subst. exfalso. apply H2. apply in_map_iff. exists (i, a); auto.
Qed.
Lemma map_app_inv {A B} (f : A -> B) : forall l l1 l2, map f l = l1 ++ l2 -> exists m1 m2, l = m1 ++ m2 /\ map f m1 = l1 /\ map f m2 = l2.
Proof.
  induction l as [|a l IH]; intros l1 l2 E; cbn in E.
  - symmetry in E. apply app_eq_nil in E. destruct E; subst. exists [], []. auto.
  - destruct l1 as [|b l1]; cbn in E.
    + subst l2. exists [], (a :: l). auto.
    + injection E as <- E. destruct (IH _ _ E) as (m1 & m2 & -> & <- & <-). exists (a :: m1), m2. auto.
Qed.

Section Runs.
  Context {K : Type} {OK : OrdRing K}.
  Notation C := (Cx K).
  Variable srcs : list nat.

  Lemma circ_circuit (h : heap K) vis lg : circ srcs h vis lg -> circuit h vis (map fst lg) srcs.
  Proof. intros [A B D E F G _]. repeat (split; auto). Qed.

  Lemma grow_continues (h : heap K) vis lg h' vis' lg' U : circ srcs h vis lg -> grow srcs h vis lg h' vis' lg' U ->
    continues h vis (map fst lg) srcs h' vis' (map fst lg') U.
  Proof.
    intros Ci G. pose proof (grow_widths _ _ _ _ _ _ _ _ Ci G) as EW. pose proof (grow_circ _ _ _ _ _ _ _ _ G) as Ci'.
    pose proof (built_wf _ _ (c_built _ _ _ _ Ci)) as W. pose proof (built_wf _ _ (c_built _ _ _ _ Ci')) as W'.
    destruct G as (_ & X & Hvi & Hses & HU & new & N1 & N2 & N3 & N4 & N5).
    split; [apply circ_circuit; auto|]. split; auto. split; auto. split; auto. split.
    { intros Hm i Hi. apply N3 in Hi. destruct Hi as [Hi|Hi]; [|apply N4; auto].
      rewrite (ext_kind h h'); auto. eapply circ_size; eauto. }
    split. { intros i w Hi. apply (wires_ext srcs h h' (wf_base _ _ W) X (fun s => circ_srcs _ _ _ _ Ci s)). apply (wf_vis _ _ W); auto. }
    unfold runs_then. cbv zeta. set (n := widths h srcs). intros c1 l1 ev1 feed1 strict1 state1 init c2 l2 ev2 feed2 strict2 state2 d1 st1 cm1 d2 st2 cm2
      S1 Q1 E1 Sc1 I1 S2 Q2 E2 Sc2 I2 Ers R1 R2 Hm r Hr.
    destruct Ci as [B In_ Sp Sw Sr Ok_ Wi]. destruct Ci' as [B' In' Sp' Sw' Sr' Ok' Wi'].
    pose proof (splits_anc h' vis' (map fst lg') W' In' Sp') as Hsp'. fold n in EW.
    destruct (run_top h vis c1 l1 (map fst lg) srcs S1 Sp Sw In_ Q1 Sr Ok_ ev1 feed1 strict1 state1 init E1 Sc1 I1) as (T1 & _).
    destruct (T1 _ _ _ R1) as (_ & So1 & An1 & Ev1). clear T1.
    assert (Ok2 := Ok'). rewrite EW in Ok2.
    destruct (run_top h' vis' c2 l2 (map fst lg') srcs S2 Sp' Sw' In' Q2 Sr' Ok' ev2 feed2 strict2 state2 init E2) as (T2 & _); try (rewrite EW; auto).
    destruct (T2 _ _ _ R2) as (_ & So2 & An2 & Ev2). clear T2. rewrite EW in Ev2. fold n in Ev1.
    assert (Efst : map fst cm2 = map fst cm1 ++ new).
    { apply sorted_lt_unique; auto.
      - apply sorted_app_lt; auto. intros a b Ha Hb. apply An1 in Ha. apply N2 in Hb.
        pose proof (anc_size h vis (map fst lg) W In_ a Ha). lia.
      - intros i. rewrite An2, N3, in_app_iff, An1. tauto. }
    apply map_app_inv in Efst. destruct Efst as (m1 & m2 & -> & F1 & F2).
    apply evolves_app_inv in Ev2. destruct Ev2 as (v1 & Ev2 & Ev3).
    assert (Ev1' : evolves (e_rsqrt ev1) h' srcs n cm1 (amp (map (fed_amp n init) (zrange 0 (2 ^ n)))) (amp st1)).
    { apply (evolves_ext srcs h h' (wf_base _ _ W) X (fun s => circ_srcs srcs h vis lg (mkCirc srcs _ _ _ B In_ Sp Sw Sr Ok_ Wi) s)); auto.
      intros i Hi. apply An1 in Hi. eapply anc_size; eauto. }
    assert (Hmeas : forall i cv, In (i, cv) cm1 -> nd_kind (nd h' i) = KMeasure -> In (i, cv) m1).
    { intros i cv Hi Hk. assert (Hia : ancestor h (map fst lg) i) by (apply An1, in_map_iff; exists (i, cv); auto).
      pose proof (anc_size h vis (map fst lg) W In_ i Hia) as His. rewrite (ext_kind h h') in Hk by auto.
      specialize (Hm i cv Hi Hk). apply in_app_iff in Hm. destruct Hm as [Hm|Hm]; auto.
      assert (In i new) by (rewrite <- F2; apply in_map_iff; exists (i, cv); auto). specialize (N2 i H). lia. }
    assert (So : same_outcomes h' cm1 m1).
    { assert (So1' : StronglySorted lt (map fst m1)) by congruence.
      assert (Huni := sorted_nodup_fst m1 So1').
      clear - F1 Hmeas Huni. unfold same_outcomes.
      assert (G : forall l l', map fst l = map fst l' -> incl l cm1 -> incl l' m1 ->
        Forall2 (fun x y => fst x = fst y /\ (nd_kind (nd h' (fst x)) = KMeasure -> snd x = snd y)) l l').
      { induction l as [|[i a] l IH]; intros [|[j b] l'] E Hl Hl'; cbn in E; try discriminate; constructor.
        - injection E as <- E. cbn [fst snd]. split; auto. intros Hk. apply (Huni i); [|apply Hl'; left; auto].
          apply Hmeas; auto. apply Hl; left; auto.
        - injection E as _ E. apply IH; auto; intros x Hx; [apply Hl|apply Hl']; right; auto. }
      apply G; auto; apply incl_refl. }
    rewrite <- Ers in Ev2, Ev3.
    pose proof (evolves_fun h' vis' (map fst lg') srcs W' In' Hsp' Sr' (e_rsqrt ev1) Ok') as EF. rewrite EW in EF.
    destruct (EF cm1 _ _ Ev1' m1 _ _ Ev2) as [EA _]; auto.
    { intros i Hi. apply N3. left. apply An1. auto. }
    destruct (EF (zeros new) _ _ (N5 (e_rsqrt ev1) v1) m2 _ _ Ev3) as [EB _]; auto.
    { intros i Hi. apply N3. right. unfold zeros in Hi. rewrite map_map, map_id in Hi. auto. }
    { rewrite <- F2. assert (Hk : forall i, In i (map fst m2) -> nd_kind (nd h' i) <> KMeasure) by (rewrite F2; intros i Hi; apply N4; auto).
      clear - Hk. unfold same_outcomes. induction m2 as [|[i a] m2 IH]; cbn [map zeros fst]; constructor.
      - cbn [fst snd]. split; auto. intros H. exfalso. apply (Hk i); [left; auto|auto].
      - apply IH. intros j Hj. apply Hk. right; auto. }
    rewrite <- EB by auto. fold n in HU. symmetry. apply HU; auto. 
  Qed.
End Runs.
