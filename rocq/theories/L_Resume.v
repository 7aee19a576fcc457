(** Runs that continue from the state of an earlier run. *)
From Coq Require Import Sorted.
From Verif Require Import Base S_Bits L_Bits M_Kron M_Ops S_Ops M_Feed S_Feed L_Feed M_Func M_Measure S_Measure M_Graph S_Graph L_Graph1 L_Graph2 L_Graph3 L_Graph5 L_Graph6
  L_Graph7 L_Graph8 L_Graph9 L_Graph10 L_Graph11 L_Grow1.

Section Resume.
  Context {K : Type} {OK : OrdRing K}.
  Notation C := (Cx K).
  Implicit Types h : heap K.

  Lemma run_array h vis args srcs : wf h vis -> incl args vis -> splits_in_range h vis -> sources h args srcs ->
    forall ev c feed strict (l : list C), enum_ok ev -> NoDup (map (fun kv => key_nodes (fst kv)) feed) -> incl (fed_nodes feed) srcs ->
    2 <= zlen l ->
    run ev c h args feed strict (SArray l) = (c, Raise ValueError).
  Proof.
    intros W Ha Hs Hsrc ev c feed strict l He Hnd Hi Hl. pose proof (splits_anc h vis args W Ha Hs) as Hsp.
    destruct (ord_exists h vis args W Ha) as (ord & Ho & Hoi).
    destruct (run_start h vis args srcs ord W Ha Hsp Hsrc Ho Hoi ev He c feed strict (SArray l)) as (fr & nn & Hfr & ->); auto.
    destruct (strict && not_fed srcs feed); auto. unfold start. destruct l as [|x [|y l]]; [unfold zlen in Hl; cbn in Hl; lia..|]. reflexivity.
  Qed.
  Lemma fed_whole n (l : list C) r : 0 <= n -> 0 <= r < 2 ^ n -> fed_amp n [(zrange 0 n, l)] r = amp l r.
  Proof.
    intros Hn Hr. unfold fed_amp. replace (forallb _ _) with true.
    - cbn [prod fst snd]. rewrite reg_full by auto. rewrite (Rmul_comm rth), (Rmul_1_l rth). reflexivity.
    - symmetry. apply forallb_forall. intros q Hq. apply orb_true_iff. left. apply existsb_exists. exists q. split; [|apply Z.eqb_refl].
      cbn [map fst concat]. rewrite app_nil_r. auto.
  Qed.

  Lemma sem_start rs n gs (v v' u : Z -> C) k cv : 0 <= n -> (forall q, In q (concat gs) -> 0 <= q < n) -> (forall r, 0 <= r < 2 ^ n -> u r = v r) ->
    node_sem rs n gs v v' k cv -> node_sem rs n gs u v' k cv.
  Proof.
    intros Hn Hq Hu H. assert (Hvu : forall r, 0 <= r < 2 ^ n -> v r = u r) by (intros r Hr; symmetry; auto).
    inversion H; subst; try (econstructor; eauto; intros; rewrite ?Hu by auto; auto; fail).
    - constructor. intros r Hr. rewrite H0 by auto. apply op_acts_ext; auto.
    - constructor. intros r Hr. rewrite H0 by auto. apply op_acts_ext; auto.
    - constructor; auto; [apply marginal_ext; auto|]. intros r Hr. rewrite H3 by auto. unfold collapsed. rewrite Hu by auto. auto.
    - constructor; [intros; rewrite Hu by auto; auto|]. apply map_ext. intros m. apply marginal_ext; auto.
    - constructor; auto; [intros; rewrite Hu by auto; auto|]. rewrite (map_ext _ (fun m => (m, marginal n (measured_order n (concat gs)) v m))); auto.
      intros m. f_equal. apply marginal_ext. auto.
  Qed.
  Lemma evolves_start h vis args srcs : wf h vis -> incl args vis -> splits_in_range h vis -> sources h args srcs -> circuit_ok h args srcs (widths h srcs) ->
    forall rs l v v', evolves rs h srcs (widths h srcs) l v v' -> (forall i, In i (map fst l) -> ancestor h args i) ->
    forall u, (forall r, 0 <= r < 2 ^ widths h srcs -> u r = v r) -> evolves rs h srcs (widths h srcs) l u v'.
  Proof.
    intros W Ha Hs Hsrc Hok rs l v v' H Hanc u Hu. pose proof (splits_anc h vis args W Ha Hs) as Hsp. pose proof (n_nonneg h vis args srcs W Ha Hsrc) as Hn.
    inversion H; subst; [constructor; intros r Hr; rewrite Hu by auto; auto|].
    econstructor; eauto. assert (Hi : ancestor h args i) by (apply Hanc; left; auto).
    rewrite (wires_inputs_fun h vis args srcs W Ha Hsp Hsrc i groups Hi) in * by auto.
    destruct (nd_kind (nd h i)) eqn:Ek; try (eapply sem_start; eauto; apply (a_qubits_ok h vis args srcs W Ha Hsp Hsrc Hok i Hi); rewrite Ek; discriminate).
    - inversion H1; subst. constructor. intros r Hr. rewrite Hu by auto. auto.
    - inversion H1; subst. constructor. intros r Hr. rewrite Hu by auto. auto.
  Qed.

  (** requirements of C33 on the arguments of a run *)
  Lemma resume h vis c l args1 args2 srcs : session h vis c l -> splits_in_range h vis -> no_swap_dagger h vis -> incl args1 vis -> incl args2 vis ->
    (forall a, In a l -> same_qubits h args1 a) -> (forall a, In a (args1 :: l) -> same_qubits h args2 a) -> sources h args1 srcs -> sources h args2 srcs ->
    let n := widths h srcs in circuit_ok h args1 srcs n -> circuit_ok h args2 srcs n -> 1 <= n ->
    forall ev1 ev2 feed1 feed2 strict1 strict2 state1 init c1 st1 cm1, enum_ok ev1 -> scheds_ok ev1 h n -> enum_ok ev2 -> scheds_ok ev2 h n ->
    e_rsqrt ev1 = e_rsqrt ev2 -> initial h srcs n feed1 state1 init -> NoDup (map (fun kv => key_nodes (fst kv)) feed2) -> incl (fed_nodes feed2) srcs ->
    run ev1 c h args1 feed1 strict1 state1 = (c1, Ok (st1, cm1)) ->
    run ev2 c1 h args2 feed2 strict2 (SArray st1) = (c1, Raise ValueError) /\
    (no_measure h args2 -> (strict2 = true -> incl srcs (fed_nodes feed2)) -> exists c2 r, run ev2 c1 h args2 feed2 strict2 (SList st1) = (c2, Ok r)) /\
    forall c2 st2 cm2, run ev2 c1 h args2 feed2 strict2 (SList st1) = (c2, Ok (st2, cm2)) ->
      zlen st2 = 2 ^ n /\ (forall i, In i (map fst cm1) <-> ancestor h args1 i) /\ (forall i, In i (map fst cm2) <-> ancestor h args2 i) /\
      evolves (e_rsqrt ev1) h srcs n (cm1 ++ cm2) (amp (map (fed_amp n init) (zrange 0 (2 ^ n)))) (amp st2).
  Proof.
    intros S Sp Sw I1 I2 Q1 Q2 S1 S2 n O1 O2 Hn ev1 ev2 feed1 feed2 strict1 strict2 state1 init c1 st1 cm1 He1 Hs1 He2 Hs2 Ers HI Hnd Hf R1.
    destruct (run_top h vis c l args1 srcs S Sp Sw I1 Q1 S1 O1 ev1 feed1 strict1 state1 init He1 Hs1 HI) as (T1 & _ & _).
    destruct (T1 _ _ _ R1) as (Z1 & _ & A1 & Ev1).
    assert (HI2 : initial h srcs n feed2 (SList st1) [(zrange 0 n, st1)]) by (apply initial_state; auto).
    assert (S' : session h vis c1 (args1 :: l)) by (apply (session_run h vis c l ev1 args1 feed1 strict1 state1 c1 _ S I1 He1 R1)).
    destruct (run_top h vis c1 (args1 :: l) args2 srcs S' Sp Sw I2 Q2 S2 O2 ev2 feed2 strict2 (SList st1) _ He2 Hs2 HI2) as (T2 & T3 & _).
    split; [|split; auto].
    - apply (run_array h vis args2 srcs); auto; [eapply session_wf; eauto|]. rewrite Z1. change 2 with (2 ^ 1) at 1. apply Z.pow_le_mono_r; lia.
    - intros c2 st2 cm2 R2. destruct (T2 _ _ _ R2) as (Z2 & _ & A2 & Ev2). split; auto. split; auto. split; auto.
      apply (evolves_app srcs (e_rsqrt ev1) h n cm1 cm2 _ (amp st1)); auto.
      intros u Hu. rewrite Ers. eapply (evolves_start h vis args2 srcs); eauto; [eapply session_wf; eauto|apply A2|]. fold n. intros r Hr. rewrite Hu by auto. unfold amp at 2. rewrite znth_map_zrange by lia.
      rewrite Z.add_0_l, fed_whole by lia. reflexivity.
  Qed.

  Lemma resume_array h vis c l args1 args2 srcs : session h vis c l -> splits_in_range h vis -> no_swap_dagger h vis -> incl args1 vis -> incl args2 vis ->
    (forall a, In a l -> same_qubits h args1 a) -> sources h args1 srcs -> sources h args2 srcs ->
    let n := widths h srcs in circuit_ok h args1 srcs n -> 1 <= n ->
    forall ev1 ev2 feed1 feed2 strict1 strict2 state1 init c1 st1 cm1, enum_ok ev1 -> scheds_ok ev1 h n -> enum_ok ev2 ->
    initial h srcs n feed1 state1 init -> NoDup (map (fun kv => key_nodes (fst kv)) feed2) -> incl (fed_nodes feed2) srcs ->
    run ev1 c h args1 feed1 strict1 state1 = (c1, Ok (st1, cm1)) ->
    run ev2 c1 h args2 feed2 strict2 (SArray st1) = (c1, Raise ValueError).
  Proof.
    intros S Sp Sw I1 I2 Q1 S1 S2 n O1 Hn ev1 ev2 feed1 feed2 strict1 strict2 state1 init c1 st1 cm1 He1 Hs1 He2 HI Hnd Hf R1.
    destruct (run_top h vis c l args1 srcs S Sp Sw I1 Q1 S1 O1 ev1 feed1 strict1 state1 init He1 Hs1 HI) as (T1 & _ & _).
    destruct (T1 _ _ _ R1) as (Z1 & _). apply (run_array h vis args2 srcs); auto; [eapply session_wf; eauto|].
    rewrite Z1. change 2 with (2 ^ 1) at 1. apply Z.pow_le_mono_r; lia.
  Qed.
  Lemma resume_list h vis c l args1 args2 srcs : session h vis c l -> splits_in_range h vis -> no_swap_dagger h vis -> incl args1 vis -> incl args2 vis ->
    (forall a, In a l -> same_qubits h args1 a) -> (forall a, In a (args1 :: l) -> same_qubits h args2 a) -> sources h args1 srcs -> sources h args2 srcs ->
    let n := widths h srcs in circuit_ok h args1 srcs n -> circuit_ok h args2 srcs n -> 1 <= n ->
    forall ev1 ev2 feed1 feed2 strict1 strict2 state1 init c1 st1 cm1, enum_ok ev1 -> scheds_ok ev1 h n -> enum_ok ev2 -> scheds_ok ev2 h n ->
    e_rsqrt ev1 = e_rsqrt ev2 -> initial h srcs n feed1 state1 init -> NoDup (map (fun kv => key_nodes (fst kv)) feed2) -> incl (fed_nodes feed2) srcs ->
    run ev1 c h args1 feed1 strict1 state1 = (c1, Ok (st1, cm1)) ->
    (no_measure h args2 -> (strict2 = true -> incl srcs (fed_nodes feed2)) -> exists c2 r, run ev2 c1 h args2 feed2 strict2 (SList st1) = (c2, Ok r)) /\
    forall c2 st2 cm2, run ev2 c1 h args2 feed2 strict2 (SList st1) = (c2, Ok (st2, cm2)) ->
      zlen st2 = 2 ^ n /\ (forall i, In i (map fst cm1) <-> ancestor h args1 i) /\ (forall i, In i (map fst cm2) <-> ancestor h args2 i) /\
      evolves (e_rsqrt ev1) h srcs n (cm1 ++ cm2) (amp (map (fed_amp n init) (zrange 0 (2 ^ n)))) (amp st2).
  Proof. intros. eapply resume; eauto. Qed.
End Resume.
