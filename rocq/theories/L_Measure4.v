(** Measurement on a full backend. *)
From Verif Require Import Base S_Bits M_Bits L_Bits M_Kron L_Kron L_Feed M_Feed M_Measure S_Measure L_Measure1 L_Measure2 L_Measure3.

Section Full.
  Context {K : Type} {OK : OrdRing K}.
  Notation C := (Cx K).
  Add Ring KRingM4 : (@rth K _).
  Add Ring CRingM4 : (@rth (Cx K) _).

  Lemma full_slice (b : backend K) : full_backend b -> slice_ok (bk_n b) 0 (bk_state b).
  Proof. intros (Hn & Hs & Ha). split; lia. Qed.
  Lemma full_slice_out (b : backend K) : full_backend b -> slice_ok (bk_n b) 0 (bk_arena b).
  Proof. intros (Hn & Hs & Ha). split; lia. Qed.

  Lemma draw_ok_intro (u t : K) : rle 0%r t -> rlt 0%r (u * t)%r -> rle u 1%r -> draw_ok u t.
  Proof.
    intros Ht Hu H1. split; auto. replace t with (t * 1)%r at 2 by ring. rewrite (Rmul_comm (@rth K _) u t).
    apply rle_mul_l; auto.
  Qed.

  (** choose never fails and returns a valid outcome with its probability *)
  Lemma choose_ok n indices off (vec : list C) u acc0 meas :
    0 <= n -> qubits_ok n indices -> slice_ok n off vec -> bad_measured indices meas = false ->
    exists m, 0 <= m < 2 ^ zlen indices /\ (forall m', meas = Some m' -> m = m') /\
      soft_measure u acc0 indices n vec meas off = Ok (m, marginal n (measured_order n indices) (amp_at off vec) m).
  Proof.
    intros Hn HI HS B. destruct meas as [m'|].
    - cbn [bad_measured] in B. exists m'. assert (0 <= m' < 2 ^ zlen indices) by lia. split; auto.
      split; [congruence|]. apply soft_forced; auto.
    - destruct (soft_free n indices off vec Hn HI HS u acc0) as (m & Hm & E & _). exists m. split; auto.
      split; [congruence|auto].
  Qed.

  Lemma measure_inv rsqrt u acc0 (b b' : backend K) indices meas m p :
    full_backend b -> qubits_ok (bk_n b) indices ->
    bk_measure rsqrt u acc0 b indices meas None 0 0 = Ok ((m, p), b') ->
    0 <= m < 2 ^ zlen indices /\ (forall m', meas = Some m' -> m = m') /\
    p = outcome b indices m /\ p <> 0%r /\ full_backend b' /\ bk_n b' = bk_n b /\
    bk_state b' = map (collapsed (bk_n b) indices m (rsqrt p) (amp_at 0 (bk_state b))) (zrange 0 (2 ^ bk_n b)).
  Proof.
    intros HB HI E. pose proof (full_slice b HB) as HS. pose proof (full_slice_out b HB) as HA.
    destruct HB as (Hn & Hs & Ha). unfold bk_measure in E.
    destruct (bad_measured indices meas) eqn:Bm.
    { unfold measure in E. rewrite Bm in E. discriminate. }
    destruct (choose_ok (bk_n b) indices 0 (bk_state b) u acc0 meas Hn HI HS Bm) as (m0 & Hm0 & Hf & Es).
    set (p0 := marginal _ _ _ m0) in Es.
    assert (Ec : choose u acc0 indices (bk_n b) (bk_state b) meas None 0 = Ok (m0, p0)).
    { unfold choose. destruct meas; auto. }
    destruct (reqb p0 0%r) eqn:Z0.
    - apply reqb_eq in Z0. rewrite Z0 in Ec.
      rewrite (proj1 (measure_zero (bk_n b) indices rsqrt u acc0 0 0 _ (bk_arena b) meas None m0 Bm eq_refl Ec)) in E.
      discriminate.
    - apply reqb_neq in Z0.
      rewrite (measure_ok (bk_n b) indices Hn HI rsqrt u acc0 0 0 _ (bk_arena b) meas None m0 p0) in E; auto.
      cbn [bind fst snd] in E.
      assert (X : m0 = m /\ p0 = p /\ mkBackend (bk_n b) (measure_out (bk_n b) indices 0 0 (bk_state b) (bk_arena b) m0 (rsqrt p0)) (bk_state b) = b')
        by (repeat split; congruence).
      destruct X as (<- & <- & <-). rewrite measure_out_full by auto.
      split; auto. split; auto. split; [reflexivity|]. split; auto. split; [|split; reflexivity].
      split; [auto|]. cbn [bk_n bk_state bk_arena]. rewrite zlen_map_range; auto. apply Z.pow_nonneg; lia.
  Qed.

  Lemma measure_normalised rsqrt u acc0 (b b' : backend K) indices meas m p :
    full_backend b -> qubits_ok (bk_n b) indices ->
    bk_measure rsqrt u acc0 b indices meas None 0 0 = Ok ((m, p), b') ->
    (rsqrt p * rsqrt p * p = 1)%r ->
    tprob (bk_state b') = 1%r /\
    (forall u', rlt 0%r u' -> rle u' 1%r -> bk_soft_measure u' 0%r b' indices None 0 = Ok (m, 1%r)).
  Proof.
    intros HB HI E HR. destruct (measure_inv _ _ _ _ _ _ _ _ _ HB HI E) as (Hm & _ & Hp & _ & HB' & En & Es).
    destruct HB as (Hn & Hs & Ha).
    assert (HP : forall v, marginal (bk_n b) (measured_order (bk_n b) indices) (amp_at 0 (bk_state b')) v
             = if v =? m then 1%r else 0%r).
    { intros v. rewrite Es.
      rewrite (marginal_ext (bk_n b) _ _ (collapsed (bk_n b) indices m (rsqrt p) (amp_at 0 (bk_state b)))).
      - rewrite collapsed_marginal. destruct (v =? m); auto. fold (outcome b indices m). rewrite <- Hp. exact HR.
      - intros x Hx. apply (amp_at_map _ nil). auto. }
    assert (HT : tprob (bk_state b') = 1%r).
    { rewrite <- (B_all (bk_n b') indices 0 (bk_state b')).
      - rewrite En. unfold below. rewrite (sum_single _ m).
        + rewrite HP, Z.eqb_refl. reflexivity.
        + apply zrange_nodup.
        + apply in_zrange. auto.
        + intros v _ Hv. rewrite HP. destruct (Z.eqb_spec v m); congruence.
      - rewrite En. auto.
      - rewrite En. auto.
      - apply full_slice. auto. }
    split; auto. intros u' Hu Hu'. unfold bk_soft_measure. rewrite En. apply born; auto.
    - rewrite <- En. apply full_slice. auto.
    - rewrite HT. replace (u' * 1)%r with u' by ring. auto.
    - rewrite HT. replace (u' * 1)%r with u' by ring. auto.
    - split; auto. split; [rewrite HP, Z.eqb_refl; reflexivity|].
      rewrite HT. replace (u' * 1)%r with u' by ring.
      assert (B0 : below (bk_n b) (measured_order (bk_n b) indices) (amp_at 0 (bk_state b')) m = 0%r).
      { unfold below. apply sum_zero. intros v Hv. apply in_zrange in Hv. rewrite HP.
        destruct (Z.eqb_spec v m); auto; lia. }
      rewrite below_succ by lia. rewrite B0, HP, Z.eqb_refl. split; auto.
      replace (0 + 1)%r with (1%r : K) by ring. auto.
  Qed.

  Lemma measure_total rsqrt u (b : backend K) indices :
    full_backend b -> qubits_ok (bk_n b) indices -> draw_ok u (tprob (bk_state b)) ->
    exists m p b', bk_soft_measure u 0%r b indices None 0 = Ok (m, p) /\
      bk_measure rsqrt u 0%r b indices None None 0 0 = Ok ((m, p), b') /\ rlt 0%r p.
  Proof.
    intros HB HI [D1 D2]. pose proof (full_slice b HB) as HS. pose proof (full_slice_out b HB) as HA.
    destruct HB as (Hn & Hs & Ha).
    destruct (born_exists (bk_n b) indices 0 (bk_state b) Hn HI HS u D1 D2) as (m & p & E & Hp).
    pose proof (proj1 (born _ _ _ _ Hn HI HS u D1 D2 m p) E) as (Hm & _).
    eexists m, p, _. split; [exact E|]. split; [|exact Hp]. unfold bk_measure.
    rewrite (measure_ok (bk_n b) indices Hn HI rsqrt u 0%r 0 0 _ (bk_arena b) None None m p); auto.
    - reflexivity.
    - intros ->. apply (rlt_irrefl _ Hp).
  Qed.

  (** ** draw 0 *)
  Lemma draw_zero (b : backend K) indices acc0 rsqrt :
    full_backend b -> qubits_ok (bk_n b) indices -> outcome b indices 0 = 0%r ->
    bk_soft_measure 0%r acc0 b indices None 0 = Ok (0, 0%r) /\
    bk_measure rsqrt 0%r acc0 b indices None None 0 0 = Raise ZeroDivisionError.
  Proof.
    intros HB HI H0. pose proof (full_slice b HB) as HS. destruct HB as (Hn & Hs & Ha).
    assert (E : bk_soft_measure 0%r acc0 b indices None 0 = Ok (0, 0%r)).
    { unfold bk_soft_measure.
      destruct (soft_free (bk_n b) indices 0 (bk_state b) Hn HI HS 0%r acc0) as (m & Hm & E & A & D).
      destruct (Z.eq_dec m 0) as [->|Hm0].
      - rewrite E. f_equal. f_equal. exact H0.
      - exfalso. assert (A0 := A 0 ltac:(lia)). replace (0 * (acc0 + tprob (bk_state b)))%r with (0%r : K) in A0 by ring.
        rewrite below_succ in A0 by lia. unfold below in A0. rewrite zrange_empty in A0 by lia. cbn [sum] in A0.
        unfold outcome in H0. rewrite H0 in A0. replace (0 + 0)%r with (0%r : K) in A0 by ring.
        exact (rlt_irrefl _ A0). }
    split; auto. unfold bk_measure.
    rewrite (proj1 (measure_zero (bk_n b) indices rsqrt 0%r acc0 0 0 (bk_state b) (bk_arena b) None None 0 eq_refl eq_refl E)).
    reflexivity.
  Qed.

  (** ** argument checks *)
  Lemma bad_spec indices meas (mprob : option K) :
    bad_measured indices meas = true \/ bad_prob mprob = true <-> bad_arguments indices meas mprob.
  Proof.
    assert (A : bad_measured indices meas = true <-> exists m, meas = Some m /\ ~ 0 <= m < 2 ^ zlen indices).
    { destruct meas as [m|]; cbn [bad_measured].
      - split; [intros H; exists m; split; auto; lia|]. intros (m' & E & H). inversion E; subst. lia.
      - split; [discriminate|intros (m' & E & H); discriminate]. }
    assert (B : bad_prob mprob = true <-> exists p, mprob = Some p /\ ~ (rlt 0%r p /\ rle p 1%r)).
    { destruct mprob as [p|]; cbn [bad_prob].
      - unfold rlt, rle. split.
        + intros H. exists p. split; auto. intros [H1 H2]. rewrite H1, H2 in H. discriminate H.
        + intros (m' & E & H). inversion E; subst. destruct (rleb m' 0%r), (rleb m' 1%r); cbn; auto; exfalso; auto.
      - split; [discriminate|intros (m' & E & H); discriminate]. }
    unfold bad_arguments. rewrite A, B. reflexivity.
  Qed.
  Lemma forced_checked rsqrt u acc0 (b : backend K) indices meas mprob :
    full_backend b -> qubits_ok (bk_n b) indices ->
    (bk_measure rsqrt u acc0 b indices meas mprob 0 0 = Raise ValueError <-> bad_arguments indices meas mprob) /\
    (bk_reduce_measure rsqrt u acc0 b indices meas mprob 0 0 = Raise ValueError <-> bad_arguments indices meas mprob).
  Proof.
    intros HB HI. pose proof (full_slice b HB) as HS. pose proof (full_slice_out b HB) as HA.
    destruct HB as (Hn & Hs & Ha). rewrite <- bad_spec. unfold bk_measure, bk_reduce_measure.
    destruct (bad_measured indices meas) eqn:Bm.
    { unfold measure, reduce_measure. rewrite Bm. cbn [bind]. tauto. }
    destruct (bad_prob mprob) eqn:Bp.
    { unfold measure, reduce_measure. rewrite Bm, Bp. cbn [bind]. tauto. }
    assert (G : exists m p, 0 <= m < 2 ^ zlen indices /\
       choose u acc0 indices (bk_n b) (bk_state b) meas mprob 0 = Ok (m, p)).
    { destruct (choose_ok (bk_n b) indices 0 (bk_state b) u acc0 meas Hn HI HS Bm) as (m0 & Hm0 & Hf & Es).
      unfold choose. destruct meas as [m|]; [|eauto]. destruct mprob as [p|]; [|eauto].
      exists m, p. split; auto. cbn [bad_measured] in Bm. lia. }
    destruct G as (m & p & Hm & Ec).
    destruct (make_row_mask_ok (bk_n b) indices Hn HI) as (mask & Em & HM).
    destruct (reqb p 0%r) eqn:Z0.
    - apply reqb_eq in Z0. subst p.
      destruct (measure_zero (bk_n b) indices rsqrt u acc0 0 0 _ (bk_arena b) meas mprob m Bm Bp Ec) as [E1 E2].
      rewrite E1, E2. cbn [bind]. split; split; try discriminate; intros [X|X]; discriminate.
    - apply reqb_neq in Z0.
      rewrite (measure_ok (bk_n b) indices Hn HI rsqrt u acc0 0 0 _ (bk_arena b) meas mprob m p) by auto.
      rewrite (reduce_ok (bk_n b) indices Hn HI rsqrt u acc0 0 _ (bk_arena b) meas mprob m p mask) by (auto; lia).
      cbn [bind]. split; split; try discriminate; intros [X|X]; discriminate.
  Qed.
  Lemma forced_used rsqrt u acc0 (b : backend K) indices m p :
    full_backend b -> qubits_ok (bk_n b) indices -> 0 <= m < 2 ^ zlen indices -> rlt 0%r p -> rle p 1%r ->
    bk_measure rsqrt u acc0 b indices (Some m) (Some p) 0 0
    = Ok ((m, p), mkBackend (bk_n b) (map (collapsed (bk_n b) indices m (rsqrt p) (amp_at 0 (bk_state b)))
                                         (zrange 0 (2 ^ bk_n b))) (bk_state b)).
  Proof.
    intros HB HI Hm H0 H1. pose proof (full_slice b HB) as HS. pose proof (full_slice_out b HB) as HA.
    destruct HB as (Hn & Hs & Ha). unfold bk_measure.
    assert (B1 : bad_measured indices (Some m) = false) by (cbn [bad_measured]; lia).
    assert (B2 : bad_prob (Some p) = false). { cbn [bad_prob]. unfold rlt, rle in *. rewrite H0, H1. reflexivity. }
    rewrite (measure_ok (bk_n b) indices Hn HI rsqrt u acc0 0 0 _ (bk_arena b) (Some m) (Some p) m p); auto.
    - cbn [bind fst snd]. rewrite measure_out_full; auto.
    - intros ->. apply (rlt_irrefl _ H0).
  Qed.

  (** ** reduce_measure *)
  Lemma reduce_entry n indices mask oo vec len m s i x :
    0 <= n -> qubits_ok n indices -> masked n indices mask -> 0 <= oo -> 0 <= i < len -> 0 <= x < 2 ^ n ->
    reg n (measured_order n indices) x = m ->
    reg n (unmeasured_order n indices) x = (i + oo) mod 2 ^ (n - zlen indices) ->
    znth 0%r (reduce_out (K:=K) n indices oo vec len mask m s) i = (znth 0%r vec x * creal s)%r.
  Proof.
    intros Hn HI HM Ho Hi Hx E1 E2. unfold reduce_out. rewrite znth_map_zrange by lia. rewrite Z.add_0_l.
    rewrite (ent_mod n indices mask Hn HI HM m (i + oo)) by lia. rewrite <- E1, <- E2.
    rewrite (ent_of n indices mask Hn HI HM x) by auto. reflexivity.
  Qed.
  Lemma reduce_slice rsqrt u acc0 n indices oo (vec out out' : list C) meas m p :
    0 <= n -> qubits_ok n indices -> zlen vec = 2 ^ n -> 0 <= oo ->
    reduce_measure rsqrt u acc0 indices n vec out 0 oo meas None = Ok ((m, p), out') ->
    p = marginal n (measured_order n indices) (amp_at 0 vec) m /\ zlen out' = zlen out /\
    forall x i, 0 <= x < 2 ^ n -> 0 <= i < zlen out ->
      reg n (measured_order n indices) x = m ->
      reg n (unmeasured_order n indices) x = (i + oo) mod 2 ^ (n - zlen indices) ->
      znth 0%r out' i = (znth 0%r vec x * creal (rsqrt p))%r.
  Proof.
    intros Hn HI HV Ho E. assert (HS : slice_ok n 0 vec) by (split; lia).
    destruct (bad_measured indices meas) eqn:Bm.
    { unfold reduce_measure in E. rewrite Bm in E. discriminate. }
    destruct (choose_ok n indices 0 vec u acc0 meas Hn HI HS Bm) as (m0 & Hm0 & Hf & Es).
    set (p0 := marginal _ _ _ m0) in Es.
    assert (Ec : choose u acc0 indices n vec meas None 0 = Ok (m0, p0)).
    { unfold choose. destruct meas; auto. }
    destruct (make_row_mask_ok n indices Hn HI) as (mask & Em & HM).
    destruct (reqb p0 0%r) eqn:Z0.
    - apply reqb_eq in Z0. rewrite Z0 in Ec.
      rewrite (proj2 (measure_zero n indices rsqrt u acc0 0 oo vec out meas None m0 Bm eq_refl Ec)) in E.
      discriminate.
    - apply reqb_neq in Z0.
      rewrite (reduce_ok n indices Hn HI rsqrt u acc0 oo vec out meas None m0 p0 mask) in E by auto.
      assert (X : m0 = m /\ p0 = p /\ reduce_out n indices oo vec (zlen out) mask m0 (rsqrt p0) = out')
        by (repeat split; congruence).
      destruct X as (<- & <- & <-). split; [reflexivity|]. split.
      + unfold reduce_out. rewrite zlen_map, zlen_zrange; pose proof (zlen_nonneg out); lia.
      + intros x i Hx Hi E1 E2. apply reduce_entry; auto.
  Qed.
  Lemma reduce_inv rsqrt u acc0 (b b' : backend K) indices meas m p :
    full_backend b -> qubits_ok (bk_n b) indices ->
    bk_reduce_measure rsqrt u acc0 b indices meas None 0 0 = Ok ((m, p), b') ->
    0 <= m < 2 ^ zlen indices /\ p = outcome b indices m /\ p <> 0%r /\ full_backend b' /\ bk_n b' = bk_n b /\
    forall x i, 0 <= x < 2 ^ bk_n b -> 0 <= i < 2 ^ bk_n b ->
      reg (bk_n b) (measured_order (bk_n b) indices) x = m ->
      reg (bk_n b) (unmeasured_order (bk_n b) indices) x = i mod 2 ^ (bk_n b - zlen indices) ->
      amp_at 0 (bk_state b') i = (amp_at 0 (bk_state b) x * creal (rsqrt p))%r.
  Proof.
    intros HB HI E. pose proof (full_slice b HB) as HS. pose proof (full_slice_out b HB) as HA.
    destruct HB as (Hn & Hs & Ha). unfold bk_reduce_measure in E.
    destruct (bad_measured indices meas) eqn:Bm.
    { unfold reduce_measure in E. rewrite Bm in E. discriminate. }
    destruct (choose_ok (bk_n b) indices 0 (bk_state b) u acc0 meas Hn HI HS Bm) as (m0 & Hm0 & Hf & Es).
    set (p0 := marginal _ _ _ m0) in Es.
    assert (Ec : choose u acc0 indices (bk_n b) (bk_state b) meas None 0 = Ok (m0, p0)).
    { unfold choose. destruct meas; auto. }
    destruct (make_row_mask_ok (bk_n b) indices Hn HI) as (mask & Em & HM).
    destruct (reqb p0 0%r) eqn:Z0.
    - apply reqb_eq in Z0. rewrite Z0 in Ec.
      rewrite (proj2 (measure_zero (bk_n b) indices rsqrt u acc0 0 0 _ (bk_arena b) meas None m0 Bm eq_refl Ec)) in E.
      discriminate.
    - apply reqb_neq in Z0.
      rewrite (reduce_ok (bk_n b) indices Hn HI rsqrt u acc0 0 _ (bk_arena b) meas None m0 p0 mask) in E by (auto; lia).
      cbn [bind fst snd] in E. rewrite Ha in E.
      assert (X : m0 = m /\ p0 = p /\ mkBackend (bk_n b) (reduce_out (bk_n b) indices 0 (bk_state b) (2 ^ bk_n b) mask m0 (rsqrt p0)) (bk_state b) = b')
        by (repeat split; congruence).
      destruct X as (<- & <- & <-). assert (0 <= 2 ^ bk_n b) by (apply Z.pow_nonneg; lia).
      split; auto. split; [reflexivity|]. split; auto. split; [|split; [reflexivity|]].
      + split; [auto|]. cbn [bk_n bk_state bk_arena]. unfold reduce_out. rewrite zlen_map_range by auto. auto.
      + intros x i Hx Hi E1 E2. cbn [bk_state]. unfold amp_at. rewrite !Z.sub_0_r.
        rewrite (reduce_entry (bk_n b) indices mask 0 (bk_state b) (2 ^ bk_n b) m0 (rsqrt p0) i x); auto; try lia.
        rewrite Z.add_0_r. auto.
  Qed.
  Lemma reduce_total rsqrt u (b : backend K) indices :
    full_backend b -> qubits_ok (bk_n b) indices -> draw_ok u (tprob (bk_state b)) ->
    exists m p b', bk_soft_measure u 0%r b indices None 0 = Ok (m, p) /\
      bk_reduce_measure rsqrt u 0%r b indices None None 0 0 = Ok ((m, p), b').
  Proof.
    intros HB HI [D1 D2]. pose proof (full_slice b HB) as HS. destruct HB as (Hn & Hs & Ha).
    destruct (born_exists (bk_n b) indices 0 (bk_state b) Hn HI HS u D1 D2) as (m & p & E & Hp).
    pose proof (proj1 (born _ _ _ _ Hn HI HS u D1 D2 m p) E) as (Hm & _).
    destruct (make_row_mask_ok (bk_n b) indices Hn HI) as (mask & Em & HM).
    eexists m, p, _. split; [exact E|]. unfold bk_reduce_measure.
    rewrite (reduce_ok (bk_n b) indices Hn HI rsqrt u 0%r 0 _ (bk_arena b) None None m p mask); auto; try lia.
    - reflexivity.
    - intros ->. apply (rlt_irrefl _ Hp).
  Qed.
  (** the result is repeated 2^k times *)
  Lemma reduce_norm rsqrt u acc0 (b b' : backend K) indices meas m p :
    full_backend b -> qubits_ok (bk_n b) indices ->
    bk_reduce_measure rsqrt u acc0 b indices meas None 0 0 = Ok ((m, p), b') ->
    (rsqrt p * rsqrt p * p = 1)%r ->
    tprob (bk_state b') = sum (zrange 0 (2 ^ zlen indices)) (fun _ => 1%r) /\
    sum (zrange 0 (2 ^ (bk_n b - zlen indices))) (fun i => cnorm2 (amp_at 0 (bk_state b') i)) = 1%r.
  Proof.
    intros HB HI E HR. destruct (reduce_inv _ _ _ _ _ _ _ _ _ HB HI E) as (Hm & Hp & _ & HB' & En & HX).
    destruct HB as (Hn & Hs & Ha).
    destruct (make_row_mask_ok (bk_n b) indices Hn HI) as (mask & Em & HM).
    pose proof (k_range (bk_n b) indices mask Hn HI HM) as Hk. set (k := zlen indices) in *.
    set (N := bk_n b) in *.
    assert (P1 : 0 < 2 ^ k) by (apply Z.pow_pos_nonneg; lia).
    assert (P2 : 0 < 2 ^ (N - k)) by (apply Z.pow_pos_nonneg; lia).
    assert (PE : 2 ^ N = 2 ^ k * 2 ^ (N - k)) by (rewrite <- Z.pow_add_r by lia; f_equal; lia).
    assert (S1 : forall v, 0 <= v < 2 ^ k ->
      sum (zrange 0 (2 ^ (N - k))) (fun w => cnorm2 (amp_at 0 (bk_state b') (v * 2 ^ (N - k) + w))) = 1%r).
    { intros v Hv.
      rewrite (sum_ext _ _ (fun w => rsqrt p * rsqrt p * cnorm2 (amp_at 0 (bk_state b) (entwine_bit k (N - k) m w mask)))%r).
      - rewrite sum_mul_l.
        rewrite (sum_ent N indices mask Hn HI HM m (fun x => cnorm2 (amp_at 0 (bk_state b) x))) by auto.
        change (sum _ _) with (outcome b indices m). rewrite <- Hp. exact HR.
      - intros w Hw. apply in_zrange in Hw.
        destruct (ent_reg N indices mask Hn HI HM m w Hm Hw) as [R1 R2]. fold k in R1, R2.
        rewrite (HX (entwine_bit k (N - k) m w mask)).
        + apply cnorm2_scale.
        + apply ent_range; auto.
        + rewrite PE. nia.
        + exact R1.
        + fold k. rewrite R2. rewrite Z.add_comm, Z.mod_add by lia. symmetry. apply Z.mod_small. auto. }
    split.
    - rewrite <- (tprob_slice (bk_n b') 0); [|rewrite En; auto|apply full_slice; auto].
      rewrite En, PE. rewrite sum_prod_range by lia. apply sum_ext. intros v Hv. apply in_zrange in Hv. auto.
    - rewrite <- (S1 0) by lia. apply sum_ext. intros w _. rewrite Z.mul_0_l, Z.add_0_l. reflexivity.
  Qed.
End Full.
