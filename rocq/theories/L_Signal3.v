(** Functions and measurements; two measurements. *)
From Coq Require Import Reals Lra.
From Verif Require Import Base BaseR S_Bits L_Bits M_Feed M_Func S_Func L_Func L_Func2
  M_Measure S_Measure L_Measure1 L_Measure2 L_Measure3 L_Measure4 L_Measure5 L_Measure6 M_Graph S_Graph S_Born L_Born S_Signal L_Signal L_Signal2.
Local Open Scope Z_scope.

Section Signal3.
  Context {K : Type} {OK : OrdRing K}.
  Notation C := (Cx K).
  Add Ring KRingS3 : (@rth K _).
  Add Ring CRingS3 : (@rth C _).

  Lemma func_measure rsqrt u acc0 m sched m' sched' (b : backend K) reg1 reg2 f func io oo io' oo' indices meas :
    full_backend b -> qubits_ok (bk_n b) (reg1 ++ reg2) ->
    zlen (others (bk_n b) reg1 reg2) = zlen reg2 \/ others (bk_n b) reg1 reg2 = [] /\ tame m /\ tame m' ->
    Permutation sched (zrange 0 (2 ^ zlen reg1)) -> Permutation sched' (zrange 0 (2 ^ zlen reg1)) ->
    (forall x, 0 <= x < 2 ^ zlen reg1 -> func x = Ok (f x)) ->
    qubits_ok (bk_n b) indices -> (forall q, In q indices -> ~ In q reg2) ->
    exists b1, bk_func_apply m sched b reg1 reg2 func io oo = Ok b1 /\
    bk_measure_probabilities b1 indices 0 = bk_measure_probabilities b indices 0 /\
    match bk_measure rsqrt u acc0 b indices meas None 0 0 with
    | Ok ((v, p), b1') => exists b2 b2', bk_measure rsqrt u acc0 b1 indices meas None 0 0 = Ok ((v, p), b2) /\
        bk_func_apply m' sched' b1' reg1 reg2 func io' oo' = Ok b2' /\ bk_state b2' = bk_state b2
    | Raise e => bk_measure rsqrt u acc0 b1 indices meas None 0 0 = Raise e
    end.
  Proof.
    intros HB Hq Ho Hs Hs' Hf HI Hd. assert (Hn : 0 <= bk_n b) by apply HB.
    assert (Hm : zlen (others (bk_n b) reg1 reg2) = zlen reg2 \/ zlen (others (bk_n b) reg1 reg2) <= zlen reg2 /\ harmless m (bk_n b) (others (bk_n b) reg1 reg2)).
    { destruct Ho as [Ho|(Ho & Ht & _)]; [left; auto|]. rewrite Ho. right. split; [apply zlen_nonneg|apply tame_harmless, Ht]. }
    assert (Hm' : zlen (others (bk_n b) reg1 reg2) = zlen reg2 \/ zlen (others (bk_n b) reg1 reg2) <= zlen reg2 /\ harmless m' (bk_n b) (others (bk_n b) reg1 reg2)).
    { destruct Ho as [Ho|(Ho & _ & Ht)]; [left; auto|]. rewrite Ho. right. split; [apply zlen_nonneg|apply tame_harmless, Ht]. }
    destruct (bk_func_ok m sched b reg1 reg2 f func io oo HB Hq Hm Hs Hf) as (b1 & E1 & HB1 & En1 & A1 & _).
    exists b1. split; auto.
    assert (HM : forall g v, in_range (bk_n b) g -> incl g indices ->
      marginal (bk_n b) g (amp_at 0 (bk_state b1)) v = marginal (bk_n b) g (amp_at 0 (bk_state b)) v).
    { intros g v Hr Hi. apply (fxor_marginal (bk_n b) reg1 reg2 f); auto. }
    split.
    { rewrite !probs_ok by (rewrite ?En1; auto). f_equal. f_equal. rewrite En1. apply map_ext. intros v. apply HM.
      - intros q Hx. apply in_rev in Hx. apply HI. auto.
      - intros q Hx. apply in_rev in Hx. auto. }
    pose proof (measure_same rsqrt u acc0 b b1 indices meas HB HB1 En1 HI) as HS.
    assert (HP : forall v, outcome b1 indices v = outcome b indices v).
    { intros v. unfold outcome. rewrite En1. apply HM; intros q Hx; apply mo_in in Hx; tauto. }
    specialize (HS HP). destruct (bk_measure rsqrt u acc0 b indices meas None 0 0) as [[[v p] b1']|e] eqn:Ebm; [|exact HS].
    destruct HS as (b2 & E2). exists b2.
    destruct (measure_inv _ _ _ _ _ _ _ _ _ HB HI Ebm) as (_ & _ & _ & _ & HB1' & En1' & Es1').
    assert (HI1 : qubits_ok (bk_n b1) indices) by (rewrite En1; auto).
    destruct (measure_inv _ _ _ _ _ _ _ _ _ HB1 HI1 E2) as (_ & _ & _ & _ & HB2 & En2 & Es2).
    assert (Hq1 : qubits_ok (bk_n b1') (reg1 ++ reg2)) by (rewrite En1'; auto).
    rewrite <- En1' in Hm'.
    destruct (bk_func_ok m' sched' b1' reg1 reg2 f func io' oo' HB1' Hq1 Hm' Hs' Hf) as (b2' & E2' & HB2' & En2' & A2' & _).
    exists b2'. split; auto. split; auto. rewrite En1' in *. rewrite En1 in *.
    apply (list_full _ _ (2 ^ bk_n b)).
    - destruct HB2' as (_ & X & _). rewrite En2' in X. auto.
    - destruct HB2 as (_ & X & _). rewrite En2 in X. auto.
    - intros x Hx. pose proof (fxor_range (bk_n b) reg1 reg2 f x Hn) as Hy. rewrite <- (fxor_invol (bk_n b) reg1 reg2 f x) by auto.
      set (y := fxor (bk_n b) reg1 reg2 f x) in *. rewrite A2' by auto. rewrite Es1', (amp_at_map (bk_n b) nil) by auto.
      rewrite Es2, (amp_at_map (bk_n b) nil) by (apply fxor_range; auto). unfold collapsed. rewrite A1 by auto.
      unfold fxor. rewrite reg_setreg_disj; [reflexivity|]. intros q Hx'. apply mo_in in Hx'. split; [tauto|]. apply Hd. tauto.
  Qed.

  (** a forced outcome of non-zero probability *)
  Lemma forced_ok rsqrt u acc0 (b : backend K) indices m : full_backend b -> qubits_ok (bk_n b) indices -> 0 <= m < 2 ^ zlen indices ->
    outcome b indices m <> 0%r -> exists b', bk_measure rsqrt u acc0 b indices (Some m) None 0 0 = Ok ((m, outcome b indices m), b').
  Proof.
    intros HB HI Hm Hp. pose proof (full_slice b HB) as HS. pose proof (full_slice_out b HB) as HA. destruct HB as (Hn & Hs & Ha).
    eexists. unfold bk_measure. rewrite (measure_ok (bk_n b) indices Hn HI rsqrt u acc0 0 0 _ (bk_arena b) (Some m) None m (outcome b indices m)); auto.
    - reflexivity.
    - cbn. destruct (Z.ltb_spec m 0), (Z.leb_spec (2 ^ zlen indices) m); cbn; auto; lia.
    - unfold choose. cbn. apply soft_forced; auto.
  Qed.
  Lemma both_sym (b : backend K) i1 m1 i2 m2 : both b i1 m1 i2 m2 = both b i2 m2 i1 m1.
  Proof. apply sum_ext. intros x _. rewrite andb_comm. reflexivity. Qed.
  Lemma second_prob (b b1 : backend K) i1 m1 i2 m2 s : bk_n b1 = bk_n b ->
    bk_state b1 = map (collapsed (bk_n b) i1 m1 s (amp_at 0 (bk_state b))) (zrange 0 (2 ^ bk_n b)) ->
    outcome b1 i2 m2 = (s * s * both b i1 m1 i2 m2)%r.
  Proof.
    intros En Es. unfold outcome. rewrite En.
    rewrite (L_Measure3.marginal_ext (bk_n b) _ _ (collapsed (bk_n b) i1 m1 s (amp_at 0 (bk_state b)))).
    2:{ intros x Hx. rewrite Es. apply (amp_at_map _ nil). auto. }
    unfold marginal, both. rewrite <- sum_mul_l. apply sum_ext. intros x _. unfold collapsed.
    destruct (reg (bk_n b) (measured_order (bk_n b) i2) x =? m2), (reg (bk_n b) (measured_order (bk_n b) i1) x =? m1); cbn [andb]; try ring.
    - apply cnorm2_scale.
    - rewrite cnorm2_0. ring.
  Qed.
  Lemma sum_mono {A} (f g : A -> K) l : (forall x, In x l -> rle (f x) (g x)) -> rle (sum l f) (sum l g).
  Proof. induction l as [|a l IH]; cbn; intros H; [apply rle_refl|]. apply rle_add; auto. Qed.
  Lemma both_le (b : backend K) i1 m1 i2 m2 : rle (both b i1 m1 i2 m2) (outcome b i2 m2).
  Proof.
    unfold both, outcome, marginal. apply sum_mono. intros x _.
    destruct (reg (bk_n b) (measured_order (bk_n b) i2) x =? m2); [|rewrite andb_false_r; apply rle_refl].
    rewrite andb_true_r. destruct (_ =? m1); [apply rle_refl|apply cnorm2_nonneg].
  Qed.
  Lemma both_nonneg (b : backend K) i1 m1 i2 m2 : rle 0%r (both b i1 m1 i2 m2).
  Proof. apply sum_nonneg. intros x _. destruct (_ && _); [apply cnorm2_nonneg|apply rle_refl]. Qed.
  Lemma scale2 (z : C) (a b c d : K) : (a * b = c * d)%r -> (z * creal a * creal b = z * creal c * creal d)%r.
  Proof.
    intros H. assert (G : forall x y : K, (z * creal x * creal y)%r = (z * creal (x * y)%r)%r).
    { intros x y. rewrite creal_mul. ring. }
    rewrite !G, H. reflexivity.
  Qed.
  Lemma zero_scale (a : K) : (0 * creal a = 0 :> C)%r.
  Proof. ring. Qed.
End Signal3.

Lemma measures_commute u1 a1 u2 a2 u1' a1' u2' a2' (b b1 b2 : backend R) i1 i2 m1 m2 p1 p2 :
  full_backend b -> qubits_ok (bk_n b) i1 -> qubits_ok (bk_n b) i2 ->
  bk_measure (fun p => Rinv (sqrt p)) u1 a1 b i1 (Some m1) None 0 0 = Ok ((m1, p1), b1) ->
  bk_measure (fun p => Rinv (sqrt p)) u2 a2 b1 i2 (Some m2) None 0 0 = Ok ((m2, p2), b2) ->
  exists q1 q2 b1' b2', bk_measure (fun p => Rinv (sqrt p)) u2' a2' b i2 (Some m2) None 0 0 = Ok ((m2, q2), b1') /\
    bk_measure (fun p => Rinv (sqrt p)) u1' a1' b1' i1 (Some m1) None 0 0 = Ok ((m1, q1), b2') /\
    (p1 * p2)%r = both b i1 m1 i2 m2 /\ (q2 * q1)%r = both b i1 m1 i2 m2 /\ bk_state b2' = bk_state b2.
Proof.
  intros HB H1 H2 E1 E2. set (rs := fun p => Rinv (sqrt p)) in *.
  destruct (measure_inv _ _ _ _ _ _ _ _ _ HB H1 E1) as (Hm1 & _ & Hp1 & Hp10 & HB1 & En1 & Es1).
  assert (H2' : qubits_ok (bk_n b1) i2) by (rewrite En1; auto).
  destruct (measure_inv _ _ _ _ _ _ _ _ _ HB1 H2' E2) as (Hm2 & _ & Hp2 & Hp20 & HB2 & En2 & Es2).
  pose proof (second_prob b b1 i1 m1 i2 m2 (rs p1) En1 Es1) as Ep2. rewrite <- Hp2 in Ep2.
  set (J := both b i1 m1 i2 m2) in *.
  assert (P1 : rlt 0%r p1). { apply rlt_le_neq. split; [rewrite Hp1; exact (marginal_nonneg (OK := ROrdRing) _ _ _ _)|intros X; apply Hp10; symmetry; exact X]. }
  pose proof (rsqrt_R p1 P1) as S1. fold (rs p1) in S1.
  assert (EJ : (p1 * p2)%r = J).
  { rewrite Ep2. transitivity ((rs p1 * rs p1 * p1) * J)%R; [cbv [rmul or_ring ROrdRing RCRing]; ring|].
    replace (rs p1 * rs p1 * p1)%R with 1%R by (symmetry; exact S1). ring. }
  assert (HJ : rlt 0%r J).
  { apply rlt_le_neq. split; [exact (both_nonneg (OK := ROrdRing) b i1 m1 i2 m2)|]. intros X. apply Hp20. rewrite Ep2, <- X. cbv [rmul rO or_ring ROrdRing RCRing]. ring. }
  assert (P2 : rlt 0%r (outcome b i2 m2)) by (eapply rlt_le_trans; [exact HJ|exact (both_le (OK := ROrdRing) b i1 m1 i2 m2)]).
  assert (N2 : outcome b i2 m2 <> 0%r). { intros X. rewrite X in P2. exact (rlt_irrefl _ P2). }
  destruct (forced_ok rs u2' a2' b i2 m2 HB H2 Hm2 N2) as (b1' & E1'). set (q2 := outcome b i2 m2) in *.
  destruct (measure_inv _ _ _ _ _ _ _ _ _ HB H2 E1') as (_ & _ & _ & _ & HB1' & En1' & Es1').
  pose proof (second_prob b b1' i2 m2 i1 m1 (rs q2) En1' Es1') as Eq1. rewrite both_sym in Eq1. fold J in Eq1.
  pose proof (rsqrt_R q2 P2) as S2. fold (rs q2) in S2.
  set (q1 := outcome b1' i1 m1) in *.
  assert (EJ' : (q2 * q1)%r = J).
  { rewrite Eq1. transitivity ((rs q2 * rs q2 * q2) * J)%R; [cbv [rmul or_ring ROrdRing RCRing]; ring|].
    replace (rs q2 * rs q2 * q2)%R with 1%R by (symmetry; exact S2). ring. }
  assert (N1 : q1 <> 0%r).
  { intros X. rewrite X in EJ'. rewrite <- EJ' in HJ. replace (q2 * 0)%r with (0%r : R) in HJ by (cbv [rmul rO or_ring ROrdRing RCRing]; ring).
    exact (rlt_irrefl _ HJ). }
  assert (H1' : qubits_ok (bk_n b1') i1) by (rewrite En1'; auto).
  destruct (forced_ok rs u1' a1' b1' i1 m1 HB1' H1' Hm1 N1) as (b2' & E2'). fold q1 in E2'.
  destruct (measure_inv _ _ _ _ _ _ _ _ _ HB1' H1' E2') as (_ & _ & _ & _ & HB2' & En2' & Es2').
  exists q1, q2, b1', b2'. repeat (split; [assumption|]).
  assert (SS : (rs p1 * rs p2 = rs q2 * rs q1)%R).
  { assert (G : forall p q : R, rlt 0%r p -> (rs p * rs q = / sqrt (p * q))%R).
    { intros p q Hp. unfold rs. rewrite sqrt_mult_alt.
      - rewrite Rinv_mult. reflexivity.
      - apply rlt_le in Hp. apply Rleb_le in Hp. exact Hp. }
    rewrite (G p1 p2 P1), (G q2 q1 P2). change (p1 * p2)%R with (p1 * p2)%r. change (q2 * q1)%R with (q2 * q1)%r. rewrite EJ, EJ'. reflexivity. }
  rewrite Es2', Es2, En1, En1'. apply map_ext_in. intros x Hx. apply in_zrange in Hx. unfold collapsed.
  rewrite Es1, Es1', !(amp_at_map (bk_n b) nil) by auto. unfold collapsed.
  destruct (_ =? m1), (_ =? m2); auto.
  - apply scale2. symmetry. exact SS.
  - apply zero_scale.
  - symmetry. apply zero_scale.
Qed.

Lemma measures_possible u1 a1 u2 a2 (b : backend R) i1 i2 m1 m2 :
  full_backend b -> qubits_ok (bk_n b) i1 -> qubits_ok (bk_n b) i2 -> 0 <= m1 < 2 ^ zlen i1 -> 0 <= m2 < 2 ^ zlen i2 ->
  both b i1 m1 i2 m2 <> 0%r ->
  exists p1 b1 p2 b2, bk_measure (fun p => Rinv (sqrt p)) u1 a1 b i1 (Some m1) None 0 0 = Ok ((m1, p1), b1) /\
    bk_measure (fun p => Rinv (sqrt p)) u2 a2 b1 i2 (Some m2) None 0 0 = Ok ((m2, p2), b2).
Proof.
  intros HB H1 H2 Hm1 Hm2 HJ. set (rs := fun p => Rinv (sqrt p)).
  assert (HJ' : rlt 0%r (both b i1 m1 i2 m2)).
  { apply rlt_le_neq. split; [exact (both_nonneg (OK := ROrdRing) b i1 m1 i2 m2)|]. intros X. apply HJ. symmetry. exact X. }
  assert (P1 : rlt 0%r (outcome b i1 m1)).
  { eapply rlt_le_trans; [exact HJ'|]. rewrite both_sym. exact (both_le (OK := ROrdRing) b i2 m2 i1 m1). }
  assert (N1 : outcome b i1 m1 <> 0%r). { intros X. rewrite X in P1. exact (rlt_irrefl _ P1). }
  destruct (forced_ok rs u1 a1 b i1 m1 HB H1 Hm1 N1) as (b1 & E1).
  destruct (measure_inv _ _ _ _ _ _ _ _ _ HB H1 E1) as (_ & _ & _ & _ & HB1 & En1 & Es1).
  set (p1 := outcome b i1 m1) in *. exists p1, b1. pose proof (second_prob b b1 i1 m1 i2 m2 (rs p1) En1 Es1) as Ep2.
  pose proof (rsqrt_R p1 P1) as S1. fold (rs p1) in S1.
  assert (N2 : outcome b1 i2 m2 <> 0%r).
  { intros X. rewrite Ep2 in X. apply HJ. set (J := both b i1 m1 i2 m2) in *.
    transitivity ((rs p1 * rs p1 * p1) * J)%R; [replace (rs p1 * rs p1 * p1)%R with 1%R by (symmetry; exact S1); ring|].
    transitivity (p1 * (rs p1 * rs p1 * J))%R; [ring|]. replace (rs p1 * rs p1 * J)%R with 0%R by (symmetry; exact X).
    cbv [rO or_ring ROrdRing RCRing]. ring. }
  assert (H2' : qubits_ok (bk_n b1) i2) by (rewrite En1; auto).
  destruct (forced_ok rs u2 a2 b1 i2 m2 HB1 H2' Hm2 N2) as (b2 & E2). eexists _, _. split; [exact E1|exact E2].
Qed.
