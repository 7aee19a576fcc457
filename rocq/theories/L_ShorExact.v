(** The values that the circuit of examples/shors.py finds when the order divides 2^m. *)
From Coq Require Import Reals Lra.
From Verif Require Import Base BaseR L_Feed M_Gates L_Gates L_QFFT6 S_Shor S_ShorR M_Shor L_Shor3 L_Shor4 L_ShorR L_ShorPeak.
Local Open Scope Z_scope.

Lemma telescoped th M : 0 <= M -> (sum (zrange 0 M) (fun b => cis (IZR b * th)%R) * (cis th - 1))%r = (cis (IZR M * th)%R - 1)%r.
Proof.
  revert M. apply natlike_ind.
  - change (zrange 0 0) with (@nil Z). cbn [sum]. rewrite Rmult_0_l, cis_0. destruct (cis th). cbv. f_equal; ring.
  - intros M HM IH. rewrite (zrange_snoc 0 (Z.succ M)) by lia. replace (Z.succ M - 1) with M by lia. rewrite sum_app. unfold Z.succ. rewrite plus_IZR.
    replace ((IZR M + 1) * th)%R with (IZR M * th + th)%R by ring. rewrite cis_add. cbn [sum]. revert IH. generalize (sum (zrange 0 M) (fun b => cis (IZR b * th)%R)), (cis th), (cis (IZR M * th)%R).
    intros [a1 a2] [b1 b2] [c1 c2]. cbv [radd rsub rmul rO rI CxRing cxadd cxsub cxmul cx0 cx1 or_ring ROrdRing RCRing]. cbn [fst snd]. intros E. injection E as E1 E2. f_equal; lra.
Qed.
Lemma sum_ones (l : list Z) : sum l (fun _ => (1, 0)%R : Cx R) = (IZR (zlen l), 0)%R.
Proof.
  induction l as [|b l IH]; [reflexivity|]. cbn [sum]. rewrite IH, zlen_cons, plus_IZR. cbv [radd CxRing cxadd or_ring ROrdRing RCRing]. cbn [fst snd]. f_equal; ring.
Qed.
Lemma cis_one t : cnorm2 (cis t - 1)%r = 0%R -> exists k, t = (2 * PI * IZR k)%R.
Proof.
  intros H. assert (E : cos t = 1%R).
  { revert H. unfold cis, cnorm2. cbv [rsub rI CxRing cxsub cx1 radd rmul or_ring ROrdRing RCRing]. cbn [fst snd]. intros H. pose proof (Rle_0_sqr (cos t - 1)) as A. pose proof (Rle_0_sqr (sin t - 0)) as B. unfold Rsqr in *.
    assert (Z0 : ((cos t - 1) * (cos t - 1) = 0)%R) by (cbv [rO RCRing] in H; lra). apply Rmult_integral in Z0. lra. }
  assert (S : sin (t / 2) = 0%R).
  { assert (E2 : cos t = (1 - 2 * sin (t / 2) * sin (t / 2))%R) by (rewrite <- cos_2a_sin; f_equal; field). assert (Z0 : (sin (t / 2) * sin (t / 2) = 0)%R) by lra. apply Rmult_integral in Z0. lra. }
  apply sin_eq_0_0 in S. destruct S as [k S]. exists k. lra.
Qed.
Lemma shor_exact m N a r c : 0 < m -> 1 < N -> order N a r -> (r | 2 ^ m) -> 0 <= c ->
  shor_prob m N a c = (if (c * r) mod 2 ^ m =? 0 then 1 / IZR r else 0)%R.
Proof.
  intros Hm HN Ho [M EM] Hc. set (q := 2 ^ m) in *. assert (Hr : 0 < r) by apply Ho. assert (Hq : 0 < q) by (unfold q; apply Z.pow_pos_nonneg; lia). assert (HM : 0 < M) by nia.
  assert (Rr : (0 < IZR r)%R) by (apply IZR_lt; lia). assert (Rq : (0 < IZR q)%R) by (apply IZR_lt; lia). assert (RM : (0 < IZR M)%R) by (apply IZR_lt; lia).
  assert (Eq : IZR q = (IZR M * IZR r)%R) by (rewrite EM, mult_IZR; auto).
  assert (B : forall i, 0 <= i < r -> cnorm2 (shor_amp m N a c ((a ^ i) mod N)) = (if (c * r) mod q =? 0 then 1 / (IZR r * IZR r) else 0)%R).
  { intros i Hi. unfold shor_amp. fold q. assert (Hiq : i < q) by nia. rewrite (order_sum N a r i q) by auto. cbv beta.
    assert (EMi : (q - 1 - i) / r + 1 = M). { rewrite EM. replace (M * r - 1 - i) with ((r - 1 - i) + (M - 1) * r) by ring. rewrite Z.div_add, Z.div_small by lia. lia. }
    rewrite EMi. set (th := (2 * PI * IZR (c * r) / IZR q)%R).
    assert (Es : sum (zrange 0 M) (fun b => let t := (2 * PI * IZR ((i + b * r) * c) / IZR q)%R in (cos t, sin t)) =
      (cis (2 * PI * IZR (i * c) / IZR q) * sum (zrange 0 M) (fun b => cis (IZR b * th)))%r).
    { rewrite <- sum_mul_l. apply sum_ext. intros b _. cbv zeta. rewrite <- cis_add. unfold cis.
      assert (E : (2 * PI * IZR ((i + b * r) * c) / IZR q = 2 * PI * IZR (i * c) / IZR q + IZR b * th)%R); [|rewrite E; auto].
      unfold th. rewrite !mult_IZR, plus_IZR, !mult_IZR. field. lra. }
    assert (Cq : cnorm2 (1 / IZR q, 0)%R = (1 / (IZR q * IZR q))%R). { unfold cnorm2. cbn [fst snd]. cbv [radd rmul or_ring ROrdRing RCRing]. field. lra. }
    transitivity (1 / (IZR q * IZR q) * (1 * cnorm2 (sum (zrange 0 M) (fun b => cis (IZR b * th)))))%R.
    { etransitivity; [apply cnorm2_mul|]. etransitivity; [apply (f_equal (fun y => (y * _)%R)); exact Cq|]. apply (f_equal (fun y => (_ * y)%R)).
      etransitivity; [apply (f_equal cnorm2); exact Es|]. etransitivity; [apply cnorm2_mul|]. apply (f_equal (fun y => (y * _)%R)). apply cis_unit. }
    destruct (Z.eqb_spec ((c * r) mod q) 0) as [E|E].
    - apply Z.mod_divide in E; [|lia]. destruct E as [k E].
      assert (S1 : sum (zrange 0 M) (fun b => cis (IZR b * th)) = (IZR M, 0)%R).
      { transitivity (sum (zrange 0 M) (fun b => (1, 0)%R : Cx R)).
        - apply sum_ext. intros b _. replace (IZR b * th)%R with (0 + 2 * PI * IZR (b * k))%R; [rewrite cis_turns, cis_0; reflexivity|]. unfold th. rewrite E, !mult_IZR. field. lra.
        - rewrite sum_ones, zlen_zrange, Z.sub_0_r by lia. auto. }
      rewrite S1. unfold cnorm2. cbn [fst snd]. cbv [radd rmul or_ring ROrdRing RCRing]. rewrite Eq. field. lra.
    - pose proof (telescoped th M ltac:(lia)) as T. assert (E1 : cis (IZR M * th)%R = 1%r).
      { replace (IZR M * th)%R with (0 + 2 * PI * IZR c)%R; [rewrite cis_turns; apply cis_0|]. unfold th. rewrite Eq, mult_IZR. field. lra. }
      assert (T0 : (cnorm2 (sum (zrange 0 M) (fun b => cis (IZR b * th))) * cnorm2 (cis th - 1)%r = 0)%R).
      { transitivity (cnorm2 (sum (zrange 0 M) (fun b => cis (IZR b * th)) * (cis th - 1))%r); [symmetry; etransitivity; [apply cnorm2_mul|reflexivity]|]. etransitivity; [apply (f_equal cnorm2); exact T|]. rewrite E1. unfold cnorm2. cbv [rsub rI CxRing cxsub cx1 radd rmul or_ring ROrdRing RCRing]. cbn [fst snd]. ring. }
      apply Rmult_integral in T0. destruct T0 as [T0|T0]; [rewrite T0; ring|]. exfalso. apply cis_one in T0. destruct T0 as [k Hk]. apply E. apply Z.mod_divide; [lia|]. exists k.
      apply eq_IZR. rewrite (mult_IZR k q). pose proof PI_RGT_0. unfold th in Hk. apply (Rmult_eq_reg_l (2 * PI / IZR q)); [|apply Rgt_not_eq; apply Rdiv_lt_0_compat; lra].
      replace (2 * PI / IZR q * IZR (c * r))%R with (2 * PI * IZR (c * r) / IZR q)%R by (field; lra). rewrite Hk. field. lra. }
  assert (B0 : forall z, ~ In z (map (fun i => (a ^ i) mod N) (zrange 0 r)) -> cnorm2 (shor_amp m N a c z) = 0%R).
  { intros z Hz. unfold shor_amp. assert (filter (fun j => (a ^ j) mod N =? z) (zrange 0 (2 ^ m)) = []) as ->.
    { destruct (filter _ _) as [|j l] eqn:E; auto. exfalso. assert (Hj : In j (j :: l)) by (left; auto). rewrite <- E in Hj. apply filter_In in Hj. destruct Hj as [Hj Ej]. apply Z.eqb_eq in Ej. apply in_zrange in Hj.
      apply Hz, in_map_iff. exists (j mod r). split; [rewrite <- Ej; symmetry; apply order_mod; auto; lia|]. apply in_zrange. apply Z.mod_pos_bound. lia. }
    cbn [sum]. unfold cnorm2. cbv [rmul rO CxRing cxmul cx0 or_ring ROrdRing RCRing radd rsub]. cbn [fst snd]. ring. }
  unfold shor_prob. set (p := fun z => existsb (Z.eqb z) (map (fun i => (a ^ i) mod N) (zrange 0 r))).
  assert (P : forall z, p z = true <-> In z (map (fun i => (a ^ i) mod N) (zrange 0 r))).
  { intros z. unfold p. rewrite existsb_exists. split; [intros (y & Hy & E); apply Z.eqb_eq in E; subst; auto|intros H; exists z; split; auto; apply Z.eqb_refl]. }
  etransitivity; [apply (sum_reindex_supp (zrange 0 N) p (zrange 0 r) (fun i => (a ^ i) mod N))|].
  - apply zrange_nodup. - apply zrange_nodup.
  - intros i Hi. split; [apply in_zrange, Z.mod_pos_bound; lia|]. apply P, in_map_iff. eauto.
  - intros i j Hi Hj E. apply in_zrange in Hi. apply in_zrange in Hj. eapply (order_inj N a r); eauto.
  - intros z _ Hz. apply P, in_map_iff in Hz. destruct Hz as (i & E & Hi). eauto.
  - intros z _ Hz. apply B0. intros H. apply P in H. congruence.
  - transitivity (sum (zrange 0 r) (fun _ => if (c * r) mod q =? 0 then 1 / (IZR r * IZR r) else 0)%R); [apply sum_ext; intros i Hi; apply in_zrange in Hi; apply B; auto|].
    rewrite sum_const_Z, zlen_zrange, Z.sub_0_r by lia. destruct (_ =? 0); [field; lra|ring].
Qed.

(** wrong results *)
Lemma shor_wrong :
  ((1 / 40 <= shor_prob 11 33 2 614)%R /\ quantum 1 33 (fun _ => 614) = Ok 1024 /\ ~ period 33 2 1024) /\
  (shor_prob 9 20 17 384 = (1 / 4)%R /\ classical 1 1 20 (fun _ => 17) (fun _ _ => 384) = Ok (10, 4)) /\
  ((1 / 48 <= shor_prob 14 105 2 12288)%R /\ classical 1 1 105 (fun _ => 2) (fun _ _ => 12288) = Ok (5, 3)).
Proof.
  destruct greater_33 as (O33 & _ & N33 & _ & Q33 & P33). destruct even_20 as (O20 & _ & C20 & _). destruct product_105 as (O105 & _ & _ & _ & C105).
  split; [split; auto|split; [split; auto|split; auto]].
  - replace (1 / 40)%R with (1 / (4 * IZR 10))%R by (field || lra). apply (shor_peak 11 33 2 10 614 3); auto; try lia; vm_compute; congruence.
  - rewrite (shor_exact 9 20 17 4 384); [|lia|lia|auto|exists 128; reflexivity|lia]. replace ((384 * 4) mod 2 ^ 9 =? 0) with true by reflexivity. auto.
  - replace (1 / 48)%R with (1 / (4 * IZR 12))%R by (field || lra). apply (shor_peak 14 105 2 12 12288 9); auto; try lia; vm_compute; congruence.
Qed.
