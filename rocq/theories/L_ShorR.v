(** What the circuit of examples/shors.py measures. *)
From Coq Require Import Reals Lra.
From Verif Require Import Base BaseR M_Bits S_Bits L_Bits M_Kron M_Ops S_Ops M_Feed S_Feed L_Feed M_Func S_Func L_Func L_Func2 M_Measure S_Measure L_Measure1 M_Gates L_Gates M_Graph S_Graph S_Born
  M_Context M_ContextR S_ContextR L_QFFT5 L_QFFT6 M_Examples M_ShorCircuit S_ShorR L_ShorCircuit.
Local Open Scope Z_scope.

Lemma cis_unit t : cnorm2 (cis t) = 1%R.
Proof. unfold cnorm2, cis. cbn [fst snd]. pose proof (sin2_cos2 t) as H. unfold Rsqr in H. cbv [radd rmul or_ring ROrdRing RCRing]. lra. Qed.
Lemma h_R_ok : op_scalars_ok (OH (c_h consts_R)).
Proof.
  cbn [op_scalars_ok consts_R c_h]. cbv [radd rmul or_ring ROrdRing RCRing rI]. pose proof (sqrt_sqrt 2 ltac:(lra)). assert (sqrt 2 <> 0)%R by (apply Rgt_not_eq, sqrt_lt_R0; lra).
  field_simplify_eq; auto. change (sqrt 2 ^ 2)%R with (sqrt 2 * (sqrt 2 * 1))%R. lra.
Qed.
Lemma sum_const_Z (l : list Z) (c : R) : sum l (fun _ => c) = (IZR (zlen l) * c)%R.
Proof.
  induction l as [|a l IH]; [cbn [sum]; change (zlen (@nil Z)) with 0; rewrite Rmult_0_l; reflexivity|].
  cbn [sum]. rewrite zlen_cons. etransitivity; [apply f_equal, IH|]. rewrite plus_IZR. cbv [radd RCRing]. ring.
Qed.

Section ShorR.
  Variables (m k x N : Z).
  Hypothesis Hm : 0 < m.
  Hypothesis Hk : 0 < k.
  Hypothesis HN : 0 < N <= 2 ^ k.
  Let n := m + k.
  Let Q := zrange 0 (0 + m).
  Let A := zrange (0 + m) (0 + m + k).
  Let u := (1 / sqrt (IZR (2 ^ m)))%R.
  Let f := fun i : Z => (x ^ i) mod N.
  Let dq : list (Cx R) := map (fun _ : Z => creal u) (zrange 0 (2 ^ m)).

  Lemma q_pos : (0 < IZR (2 ^ m))%R.
  Proof. apply IZR_lt. apply Z.pow_pos_nonneg; lia. Qed.
  Lemma u_sq : (u * u * IZR (2 ^ m) = 1)%R.
  Proof.
    pose proof q_pos as H. pose proof (sqrt_sqrt (IZR (2 ^ m)) ltac:(lra)) as S. assert (sqrt (IZR (2 ^ m)) <> 0)%R by (apply Rgt_not_eq, sqrt_lt_R0; auto).
    unfold u. rewrite <- S at 3. field. auto.
  Qed.
  Lemma dq_total : total dq = 1%R.
  Proof.
    unfold total, dq. rewrite sum_map. rewrite (sum_const_Z (zrange 0 (2 ^ m)) (cnorm2 (creal u))). pose proof (Z.pow_pos_nonneg 2 m ltac:(lia) ltac:(lia)).
    rewrite zlen_zrange by lia. rewrite Z.sub_0_r. unfold cnorm2, creal. cbn [fst snd]. cbv [radd rmul rO or_ring ROrdRing RCRing]. pose proof u_sq. lra.
  Qed.
  Lemma fed_shor s : fed_amp n [(Q, dq)] s = if (reg n A s =? 0) then creal u else 0%r.
  Proof.
    unfold fed_amp. cbn [map fst snd concat prod]. rewrite app_nil_r.
    assert (Eb : forallb (fun q => existsb (Z.eqb q) Q || negb (qbit n s q)) (zrange 0 n) = (reg n A s =? 0)).
    { apply eq_true_iff_eq. rewrite forallb_forall, Z.eqb_eq. rewrite (reg_zero n [] []). split.
      - intros H q Hq. assert (Hr : In q (zrange 0 n)) by (unfold A in Hq; apply in_zrange in Hq; apply in_zrange; unfold n; lia). specialize (H q Hr).
        apply orb_true_iff in H. destruct H as [H|H]; [|apply negb_true_iff in H; auto]. exfalso. apply existsb_exists in H. destruct H as (y & Hy & E). apply Z.eqb_eq in E. subst y.
        unfold A in Hq. unfold Q in Hy. apply in_zrange in Hq. apply in_zrange in Hy. lia.
      - intros H q Hq. apply in_zrange in Hq. destruct (Z_lt_dec q m) as [Hl|Hl].
        + apply orb_true_iff. left. apply existsb_exists. exists q. split; [unfold Q; apply in_zrange; lia|apply Z.eqb_refl].
        + assert (qbit n s q = false) as -> by (apply H; unfold A; apply in_zrange; unfold n in Hq; lia). apply orb_true_r. }
    rewrite Eb. destruct (reg n A s =? 0); auto. pose proof (reg_range n Q s) as Hr. assert (zlen Q = m) as El by (unfold Q; rewrite zlen_zrange; lia). rewrite El in Hr.
    unfold dq. rewrite znth_map_zrange by lia. destruct (creal u). cbv [rmul rI CxRing cxmul cx1 or_ring ROrdRing RCRing radd rsub rO]. cbn [fst snd]. f_equal; ring.
  Qed.
  Lemma shor_state_at y z : 0 <= y < 2 ^ m -> 0 <= z < 2 ^ k ->
    shor_state consts_R root_R m k x N u (y * 2 ^ k + z) = shor_amp m N x y z.
  Proof.
    intros Hy Hz. assert (Hn : 0 <= n) by (unfold n; lia).
    assert (Hr : 0 <= y * 2 ^ k + z < 2 ^ n) by (unfold n; rewrite Z.pow_add_r by lia; nia). set (r := y * 2 ^ k + z) in *.
    pose proof (sQA_ok m k Hm Hk) as OKQ. fold n Q A in OKQ. assert (LQ : zlen Q = m) by (unfold Q; rewrite zlen_zrange; lia). assert (LA : zlen A = k) by (unfold A; rewrite zlen_zrange; lia).
    assert (Er : reg n Q r * 2 ^ k + reg n A r = r). { rewrite <- LA, <- reg_app. unfold Q, A, n. rewrite (sQA m k Hm Hk). apply reg_full; auto. }
    pose proof (reg_range n Q r) as RQ. pose proof (reg_range n A r) as RA. rewrite LQ in RQ. rewrite LA in RA.
    assert (EQ : reg n Q r = y /\ reg n A r = z).
    { unfold r in Er at 3. assert (reg n Q r = y). { transitivity ((reg n Q r * 2 ^ k + reg n A r) / 2 ^ k); [rewrite Z.div_add_l, (Z.div_small (reg n A r)) by lia; lia|].
        rewrite Er, Z.div_add_l, (Z.div_small z) by lia. lia. } split; auto. rewrite H in Er. lia. }
    destruct EQ as [EQ EA]. unfold shor_state. rewrite dft_real. unfold dft_R. fold n Q A. cbv zeta. rewrite LQ, EQ. unfold shor_amp.
    assert (DJ : forall q, In q A -> ~ In q Q). { intros q H1 H2. unfold Q in H2. unfold A in H1. apply in_zrange in H2. apply in_zrange in H1. lia. }
    assert (QO : qubits_ok n Q) by apply (sQ_ok m k Hm Hk).
    assert (AO : qubits_ok n A). { destruct OKQ as [D R0]. split; [unfold A; apply zrange_nodup|]. intros q Hq. apply R0, in_app_iff. auto. }
    rewrite sum_filter.
    assert (Ej : forall j, In j (zrange 0 (2 ^ m)) ->
      (let t := (2 * PI * IZR (j * y) / IZR (2 ^ m))%R in (cos t, sin t) * fed_amp n [(Q, dq)] (fxor n Q A f (setreg n Q r j)))%r =
      ((if (x ^ j) mod N =? z then let t := (2 * PI * IZR (j * y) / IZR (2 ^ m))%R in (cos t, sin t) else 0%r) * creal u)%r).
    { intros j Hj. apply in_zrange in Hj. cbv zeta. rewrite fed_shor. unfold fxor.
      assert (Hf : 0 <= f j < 2 ^ k) by (pose proof (Z.mod_pos_bound (x ^ j) N); unfold f; lia).
      assert (E1 : reg n Q (setreg n Q r j) = j) by (apply reg_setreg; auto; rewrite LQ; lia). assert (E2 : reg n A (setreg n Q r j) = z) by (rewrite <- EA; apply reg_setreg_disj; intros q H1; split; [apply AO|apply DJ]; auto).
      rewrite reg_setreg by (auto; apply fxor_xor_range). rewrite E1, E2, LA, (Z.mod_small (f j)) by lia.
      change ((x ^ j) mod N) with (f j).
      destruct (Z.eqb_spec (Z.lxor z (f j)) 0) as [E|E]; destruct (Z.eqb_spec (f j) z) as [E'|E']; auto.
      - apply Z.lxor_eq in E. congruence.
      - exfalso. apply E. rewrite E'. apply Z.lxor_nilpotent.
      - set (c := (_, _)). destruct c. cbv [rmul rO CxRing cxmul cx0 creal or_ring ROrdRing RCRing radd rsub]. cbn [fst snd]. f_equal; ring. }
    cbv zeta in Ej. etransitivity; [apply f_equal, (sum_ext _ _ _ Ej)|]. rewrite sum_mul_r. set (S0 := sum _ _). fold u.
    pose proof u_sq as Hu. pose proof q_pos as Hq. assert (Eu : (1 / IZR (2 ^ m))%R = (u * u)%R).
    { apply (Rmult_eq_reg_r (IZR (2 ^ m))); [|lra]. replace (1 / IZR (2 ^ m) * IZR (2 ^ m))%R with 1%R by (field; lra). lra. }
    rewrite Eu. destruct S0 as [a b]. cbv [rmul CxRing cxmul creal or_ring ROrdRing RCRing radd rsub rO]. cbn [fst snd]. f_equal; ring.
  Qed.
  Lemma shor_zero y z : N <= z -> shor_amp m N x y z = 0%r.
  Proof.
    intros Hz. unfold shor_amp. assert (filter (fun j => (x ^ j) mod N =? z) (zrange 0 (2 ^ m)) = []) as ->.
    { destruct (filter _ _) as [|j l] eqn:E; auto. assert (Hj : In j (j :: l)) by (left; auto). rewrite <- E in Hj. apply filter_In in Hj. destruct Hj as [_ Hj].
      apply Z.eqb_eq in Hj. pose proof (Z.mod_pos_bound (x ^ j) N ltac:(lia)). lia. }
    cbn [sum]. cbv [rmul rO CxRing cxmul cx0 or_ring ROrdRing RCRing radd rsub]. cbn [fst snd]. f_equal; ring.
  Qed.
  Lemma shor_marginal y : 0 <= y < 2 ^ m -> marginal n Q (shor_state consts_R root_R m k x N u) y = shor_prob m N x y.
  Proof.
    intros Hy. unfold marginal, n. rewrite Z.pow_add_r by lia. pose proof (Z.pow_pos_nonneg 2 k ltac:(lia) ltac:(lia)). rewrite sum_prod_range by lia.
    assert (LA : zlen A = k) by (unfold A; rewrite zlen_zrange; lia).
    assert (ER : forall v w, 0 <= v < 2 ^ m -> 0 <= w < 2 ^ k -> reg (m + k) Q (v * 2 ^ k + w) = v).
    { intros v w Hv Hw. assert (Er : reg n Q (v * 2 ^ k + w) * 2 ^ k + reg n A (v * 2 ^ k + w) = v * 2 ^ k + w).
      { rewrite <- LA at 2. rewrite <- reg_app. unfold Q, A, n. rewrite (sQA m k Hm Hk). apply reg_full; [lia|]. rewrite Z.pow_add_r by lia. nia. }
      pose proof (reg_range n A (v * 2 ^ k + w)) as RA. rewrite LA in RA. fold n.
      transitivity ((reg n Q (v * 2 ^ k + w) * 2 ^ k + reg n A (v * 2 ^ k + w)) / 2 ^ k); [rewrite Z.div_add_l, (Z.div_small (reg n A _)) by lia; lia|].
      rewrite Er, Z.div_add_l, (Z.div_small w) by lia. lia. }
    etransitivity; [apply (sum_single _ y)|].
    - apply zrange_nodup. - apply in_zrange; auto.
    - intros v Hv Hne. apply in_zrange in Hv. apply sum_zero. intros w Hw. apply in_zrange in Hw. rewrite ER by auto. destruct (Z.eqb_spec v y); [congruence|auto].
    - cbv beta. unfold shor_prob. rewrite (zrange_app 0 N (2 ^ k)) by lia. rewrite sum_app.
      assert (E2 : sum (zrange N (2 ^ k)) (fun w => if reg (m + k) Q (y * 2 ^ k + w) =? y then cnorm2 (shor_state consts_R root_R m k x N u (y * 2 ^ k + w)) else 0%r) = (0%r : R)).
      { apply sum_zero. intros w Hw. apply in_zrange in Hw. rewrite ER, Z.eqb_refl, shor_state_at, shor_zero by lia. apply cnorm2_0. }
      etransitivity; [apply f_equal; exact E2|]. etransitivity; [apply Rplus_0_r|].
      apply sum_ext. intros w Hw. apply in_zrange in Hw. rewrite ER, Z.eqb_refl, shor_state_at by lia. auto.
  Qed.
  Lemma shor_below_eq y : 0 <= y <= 2 ^ m -> below n Q (shor_state consts_R root_R m k x N u) y = shor_below m N x y.
  Proof. intros Hy. unfold below, shor_below. apply sum_ext. intros v Hv. apply in_zrange in Hv. apply shor_marginal. lia. Qed.
  Lemma shor_prob_nonneg y : (0 <= shor_prob m N x y)%R.
  Proof.
    unfold shor_prob. induction (zrange 0 N) as [|z l IH]; cbn [sum]; [cbv [rO RCRing]; lra|]. set (s0 := sum l _) in *. unfold cnorm2. destruct (shor_amp m N x y z) as [a b]. cbn [fst snd].
    cbv [radd rmul or_ring ROrdRing RCRing]. pose proof (Rle_0_sqr a) as H1. pose proof (Rle_0_sqr b) as H2. unfold Rsqr in *. lra.
  Qed.
  Lemma shor_below_S y : 0 <= y -> shor_below m N x (y + 1) = (shor_below m N x y + shor_prob m N x y)%R.
  Proof.
    intros Hy. unfold shor_below. rewrite (zrange_snoc 0 (y + 1)) by lia. replace (y + 1 - 1) with y by lia. rewrite sum_app. cbn [sum]. cbv [radd rO RCRing]. ring.
  Qed.
  Lemma shor_below_mono y y' : 0 <= y <= y' -> (shor_below m N x y <= shor_below m N x y')%R.
  Proof.
    intros [Hy Hle]. replace y' with (y + (y' - y)) by lia. generalize (y' - y), (Zle_minus_le_0 _ _ Hle). apply natlike_ind; [rewrite Z.add_0_r; lra|].
    intros d Hd IH. replace (y + Z.succ d) with (y + d + 1) by lia. rewrite shor_below_S by lia. pose proof (shor_prob_nonneg (y + d)). lra.
  Qed.
  Lemma shor_sum : shor_below m N x (2 ^ m) = 1%R.
  Proof.
    assert (HN' : N <> 0) by lia. pose proof (Z.pow_pos_nonneg 2 m ltac:(lia) ltac:(lia)). pose proof (Z.pow_pos_nonneg 2 k ltac:(lia) ltac:(lia)).
    etransitivity; [|exact (shor_norm (OK := ROrdRing) consts_R root_R root_R1 root_R2 (fun m _ => cis_unit _) h_R_ok m k x N u Hm Hk dq_total)].
    unfold norm_of. rewrite Z.pow_add_r, (sum_prod_range (RA := RCRing)) by lia. unfold shor_below. apply sum_ext. intros y Hy. apply in_zrange in Hy.
    unfold shor_prob. rewrite (zrange_app 0 N (2 ^ k)) by lia. rewrite sum_app.
    assert (E2 : sum (zrange N (2 ^ k)) (fun w => cnorm2 (shor_state consts_R root_R m k x N u (y * 2 ^ k + w))) = (0%r : R)).
    { apply sum_zero. intros w Hw. apply in_zrange in Hw. rewrite shor_state_at, shor_zero by lia. apply cnorm2_0. }
    symmetry. etransitivity; [apply f_equal; exact E2|]. etransitivity; [apply Rplus_0_r|].
    apply sum_ext. intros w Hw. apply in_zrange in Hw. rewrite shor_state_at by lia. auto.
  Qed.
  Lemma shor_measures : exists w mqft mm, make_circuit consts_R m k x N (1 / sqrt (IZR (2 ^ m)))%R = (w, Ok (mqft, mm)) /\
    forall ev, enum_ok ev -> scheds_ok ev (w_heap w) (m + k) -> draws_ok ev ->
      exists y, measure_peak ev (w_heap w) mm = Ok y /\ 0 <= y < 2 ^ m /\
        forall y', 0 <= y' < 2 ^ m -> (shor_below m N x y' < e_rand ev mm <= shor_below m N x (y' + 1))%R <-> y' = y.
  Proof.
    assert (HN' : N <> 0) by lia.
    destruct (shor_built (OK := ROrdRing) consts_R root_R root_R1 root_R2 (fun m _ => cis_unit _) (fun m _ => eq_refl) h_R_ok m k x N u Hm Hk HN') as (w & mq & mm & E & H).
    exists w, mq, mm. split; [exact E|]. intros ev He Hs Hd. destruct (H ev He Hs Hd dq_total) as (y & P & Hy & H1 & H2). exists y. split; auto.
    rewrite (sQ_order m k Hm Hk) in H1, H2. fold n Q in H1, H2. assert (LQ : zlen (zrange 0 (0 + m)) = m) by (rewrite zlen_zrange; lia). rewrite LQ in Hy. split; auto.
    rewrite shor_below_eq in H1, H2 by lia. assert (H1' : (shor_below m N x y < e_rand ev mm)%R) by (apply Rnot_le_lt; intros Hc; apply Rleb_le in Hc; unfold rlt in H1; cbn [rleb ROrdRing] in H1; congruence).
    apply Rleb_le in H2. clear H1.
    intros y' Hy'. split; [|intros ->; auto]. intros [H3 H4]. destruct (Z.lt_trichotomy y' y) as [L|[L|L]]; auto; exfalso.
    - pose proof (shor_below_mono (y' + 1) y ltac:(lia)). lra.
    - pose proof (shor_below_mono (y + 1) y' ltac:(lia)). lra.
  Qed.
End ShorR.

Lemma shor_distribution m N x : 0 < m -> 0 < N -> (forall y, (0 <= shor_prob m N x y)%R) /\ shor_below m N x (2 ^ m) = 1%R.
Proof.
  intros Hm HN. split; [intros y; apply shor_prob_nonneg|]. apply (shor_sum m N x N Hm HN). split; auto. apply Z.lt_le_incl, Z.pow_gt_lin_r; lia.
Qed.
Lemma shor_env (w : world R) n t : (0 < t <= 1)%R ->
  exists ev : env R, enum_ok ev /\ scheds_ok ev (w_heap w) n /\ draws_ok ev /\ forall i, e_rand ev i = t.
Proof.
  intros [H0 H1].
  exists (mkEnv (fun i => i) (fun l => l) (fun i => match nd_kind (nd (w_heap w) i) with KF _ => zrange 0 (2 ^ width (w_heap w) (hd O (inputs_of (w_heap w) i))) | _ => zrange 0 (2 ^ n) end)
    (fun _ => t) (fun _ => 0%R) (fun p => / sqrt p)%R (fun _ => (0, 0)%R) calm).
  split; [intros l; apply Permutation_refl|]. split; [|split; [|auto]].
  - intros i. cbn [e_sched e_mach]. destruct (nd_kind (nd (w_heap w) i)); auto. split; [apply Permutation_refl|]. repeat split; intros; eexists; reflexivity.
  - split; [|split; [auto|]].
    + intros i. cbn [e_rand]. split; [apply Bool.not_true_is_false; intros H; apply Rleb_le in H; change (t <= 0)%R in H; lra|apply Rleb_le; auto].
    + intros p Hp _. cbn [e_rsqrt]. assert (Hp' : (0 < p)%R) by (apply Rnot_le_lt; intros H; apply Rleb_le in H; change (Rleb p 0 = false) in Hp; congruence).
      change (/ sqrt p * / sqrt p * p = 1)%R. pose proof (sqrt_sqrt p ltac:(lra)) as E. pose proof (sqrt_lt_R0 p Hp'). rewrite <- E at 3. field. lra.
Qed.
