(** Grover's search: the printed item. *)
From Coq Require Import Reals Lra.
From Verif Require Import Base BaseR S_Bits L_Bits M_Kron S_Kron M_Ops S_Ops M_Feed S_Feed L_Feed M_Func
  M_Measure S_Measure M_Graph S_Graph M_Context S_Context M_ContextR M_Examples S_Examples L_Grover1 L_Grover2 L_Grover3 L_Grover4.
Open Scope Z_scope.

Section Argmax.
  Context {K : Type} {OK : OrdRing K}.
  Lemma argmax_keep : forall (l : list K) i b, (forall y, In y l -> rleb (snd b) y = false) -> argmax_from i b l = fst b.
  Proof.
    induction l as [|y l IH]; intros i b H; [reflexivity|]. cbn [argmax_from].
    assert (E : rleb y (snd b) = true). { destruct (rleb_total y (snd b)) as [E|E]; auto. rewrite (H y) in E by (left; auto). discriminate. }
    rewrite E. apply IH. intros z Hz. apply H. right; auto.
  Qed.
  Lemma argmax_find : forall (l1 : list K) l2 i b y, rleb y (snd b) = false -> (forall z, In z (l1 ++ l2) -> rleb y z = false) ->
    argmax_from i b (l1 ++ y :: l2) = i + zlen l1.
  Proof.
    induction l1 as [|z l1 IH]; intros l2 i b y Hb Hl; cbn [app argmax_from].
    - rewrite Hb, argmax_keep; [change (zlen (@nil K)) with 0; cbn [fst]; lia|]. cbn [snd]. auto.
    - rewrite IH; [rewrite zlen_cons; lia| |intros t Ht; apply Hl; right; auto].
      destruct (rleb z (snd b)); auto. cbn [snd]. apply Hl. left; auto.
  Qed.
  Lemma argmax_peak (l : list K) i : 0 <= i < zlen l -> (forall j, 0 <= j < zlen l -> j <> i -> rleb (znth 0%r l i) (znth 0%r l j) = false) ->
    argmax l = Ok i.
  Proof.
    intros Hi H. assert (Hin : forall z, In z (firstn (Z.to_nat i) l ++ skipn (S (Z.to_nat i)) l) -> rleb (znth 0%r l i) z = false).
    { intros z Hz. rewrite in_app_iff in Hz. unfold zlen in *.
      assert (exists j, (j < length l)%nat /\ j <> Z.to_nat i /\ nth j l 0%r = z) as (j & J1 & J2 & <-).
      { destruct Hz as [Hz|Hz]; apply (In_nth _ _ 0%r) in Hz; destruct Hz as (j & Hj & E).
        - rewrite firstn_length in Hj. exists j. split; [lia|]. split; [lia|]. rewrite <- E. rewrite <- (firstn_skipn (Z.to_nat i) l) at 1. apply app_nth1. rewrite firstn_length. lia.
        - rewrite skipn_length in Hj. exists (S (Z.to_nat i) + j)%nat. split; [lia|]. split; [lia|]. rewrite <- E. rewrite <- (firstn_skipn (S (Z.to_nat i)) l) at 1.
          rewrite app_nth2; rewrite firstn_length; [|lia]. f_equal. lia. }
      specialize (H (Z.of_nat j) ltac:(lia) ltac:(lia)). rewrite (znth_nth _ l (Z.of_nat j)) in H by lia. rewrite Nat2Z.id in H. auto. }
    assert (El : l = firstn (Z.to_nat i) l ++ znth 0%r l i :: skipn (S (Z.to_nat i)) l).
    { rewrite znth_nth by lia. unfold zlen in Hi. clear - Hi. assert (Hl : (Z.to_nat i < length l)%nat) by lia. revert l Hl Hi. generalize (Z.to_nat i). intros m l Hl _.
      revert m Hl. induction l as [|y l IH]; intros [|m] Hl; cbn in *; try lia; auto. f_equal. apply IH. lia. }
    set (p := znth 0%r l i) in *. clearbody p. rewrite El. unfold argmax. destruct (firstn (Z.to_nat i) l) as [|y l1] eqn:Ef.
    - cbn [app] in *. assert (i = 0) as ->. { destruct l; [discriminate|]. destruct (Z.to_nat i) eqn:E; [lia|discriminate]. }
      rewrite argmax_keep; auto.
    - cbn [app]. rewrite argmax_find; [|apply Hin; left; auto|intros z Hz; apply Hin; right; auto].
      f_equal. assert (zlen (y :: l1) = i); [|rewrite zlen_cons in H0; lia]. rewrite <- Ef. unfold zlen in *. rewrite firstn_length. lia.
  Qed.
End Argmax.

(** the angle stays below pi *)
Lemma sin_lower t : (0 <= t <= PI)%R -> (t - t * t * t / 6 <= sin t)%R.
Proof.
  intros Ht. destruct (sin_bound t 0 ltac:(lra) ltac:(lra)) as [H _]. unfold sin_approx, sin_term in H. cbn in H. lra.
Qed.
Lemma angle_bound N m t : (8 <= N)%R -> (0 <= m)%R -> (m * m <= N)%R -> (0 < t < PI / 2)%R -> (sin t = 1 / sqrt N)%R -> ((2 * m + 2) * t < PI)%R.
Proof.
  intros HN Hm Hmm Ht Hs. pose proof PI2_3_2 as P1. pose proof PI_4 as P2.
  set (x := sqrt N) in *. assert (Hx2 : (x * x = N)%R) by (apply sqrt_sqrt; lra). assert (Hx0 : (0 <= x)%R) by apply sqrt_pos.
  assert (Hx : (2.8 <= x)%R) by nra. assert (Hmx : (m <= x)%R) by nra.
  destruct (Rlt_or_le ((2 * m + 2) * t) PI) as [|Hc]; auto. exfalso.
  set (t0 := (PI / (2 * (x + 1)))%R). assert (E0 : (t0 * (2 * (x + 1)) = PI)%R) by (unfold t0; field; lra).
  assert (T0 : (0 < t0)%R) by (unfold t0; apply Rdiv_lt_0_compat; lra).
  assert (T1 : (t0 <= t)%R) by nra. assert (T2 : (t0 <= 0.53)%R) by nra.
  assert (S1 : (sin t0 <= sin t)%R) by (apply sin_incr_1; lra).
  pose proof (sin_lower t0 ltac:(lra)) as S2.
  assert (T3 : (1.1 <= t0 * x)%R).
  { assert ((1.5 * x <= t0 * x * (x + 1))%R) by nra. assert ((2.8 / 3.8 * (x + 1) <= x)%R) by lra. nra. }
  assert (S3 : (sin t * x = 1)%R) by (rewrite Hs; field; lra).
  assert (T4 : (t0 * t0 <= 0.2809)%R) by nra.
  assert ((t0 * x * (1 - t0 * t0 / 6) <= 1)%R) by nra. nra.
Qed.

Lemma peak_R t m : (0 < t < PI / 2)%R -> (0 < m)%R -> ((2 * m + 2) * t < PI)%R ->
  let phi := ((2 * m + 1) * t)%R in (cos phi * tan t * (cos phi * tan t) < sin phi * sin phi)%R.
Proof.
  intros Ht Hm Hb phi. assert (Cp : (0 < cos t)%R) by (apply cos_gt_0; lra).
  assert (S1 : (0 < sin (phi - t))%R) by (apply sin_gt_0; unfold phi; nra).
  assert (S2 : (0 < sin (phi + t))%R) by (apply sin_gt_0; unfold phi; nra).
  rewrite sin_minus in S1. rewrite sin_plus in S2. unfold tan.
  assert (P : (0 < sin phi * cos t * (sin phi * cos t) - cos phi * sin t * (cos phi * sin t))%R) by nra.
  apply (Rmult_lt_reg_r (cos t * cos t)); [nra|].
  replace (cos phi * (sin t / cos t) * (cos phi * (sin t / cos t)) * (cos t * cos t))%R with (cos phi * sin t * (cos phi * sin t))%R by (field; lra). lra.
Qed.

Lemma grover_list k x t : 0 < k -> 0 <= x < 2 ^ k -> (0 < t < PI / 2)%R -> (sin t = 1 / sqrt (IZR (2 ^ k)))%R ->
  exists w sm_ds sm_da, grover consts_R k x (1 / sqrt (IZR (2 ^ k)))%R (1 / sqrt 2)%R = (w, Ok (sm_ds, sm_da)) /\
  forall evs, (forall i, enum_ok (evs i) /\ scheds_ok (evs i) (w_heap w) (k + 1)) -> forall j,
  exists c st_ cm ps, grover_runs SList evs (w_heap w) sm_ds sm_da j = (c, Ok (st_, cm)) /\ lookup sm_ds cm = Ok (CProbs (inl ps)) /\ zlen ps = 2 ^ k /\
    (let phi := ((2 * INR (S j) + 1) * t)%R in
     forall y, 0 <= y < 2 ^ k -> znth 0%R ps (reversed k y) = if (y =? x) then (sin phi * sin phi)%R else (cos phi * tan t * (cos phi * tan t))%R) /\
    (3 <= k -> Z.of_nat (S j) = Z.sqrt (2 ^ k) -> grover_print cm sm_ds = Ok (reversed k x)).
Proof.
  intros Hk Hx Ht Hs. set (N := IZR (2 ^ k)) in *.
  destruct (runs_list (OK := ROrdRing) consts_R k x (1 / sqrt N)%R (1 / sqrt 2)%R Hk s_half) as (w & sm & sa & E & Rn). exists w, sm, sa. split; auto.
  intros evs Hev j. destruct (Rn evs Hev j) as (c & st_ & cm & E1 & Z1 & _ & ps & L & Zp & P). exists c, st_, cm, ps. split; auto. split; auto. split; auto.
  assert (Q : forall y, 0 <= y < 2 ^ k -> znth 0%R ps (reversed k y) =
    if (y =? x) then (sin (angle t (S j)) * sin (angle t (S j)))%R else (cos (angle t (S j)) * tan t * (cos (angle t (S j)) * tan t))%R).
  { intros y Hy. etransitivity; [apply P; auto|]. rewrite (states_R k x Hk Hx t Ht Hs (S j)) by auto. rewrite cnorm2_creal.
    pose proof s_sq as S2. change (c_h consts_R) with (1 / sqrt 2)%R in S2.
    set (e := ((-1) ^ S j)%R). assert (He : (e * e = 1)%R).
    { unfold e. rewrite <- Rpow_mult_distr. replace (-1 * -1)%R with 1%R by ring. apply pow1. }
    set (z := if y =? x then _ else _) in |- *.
    change ((1 / sqrt 2 * (1 / sqrt 2) + 1 / sqrt 2 * (1 / sqrt 2)) * (e * z * (e * z)) = (if y =? x then sin (angle t (S j)) * sin (angle t (S j)) else cos (angle t (S j)) * tan t * (cos (angle t (S j)) * tan t)))%R.
    rewrite S2. replace ((/ 2 + / 2) * (e * z * (e * z)))%R with (e * e * (z * z))%R by field. rewrite He. unfold z. destruct (y =? x); ring. }
  split; [exact Q|]. intros Hk3 Hj. unfold grover_print. rewrite L. cbn [bind]. apply argmax_peak; [rewrite Zp; apply reversed_range; lia|].
  intros i Hi Hne. rewrite Zp in Hi. rewrite <- (reversed_reversed k i) by lia. pose proof (reversed_range k i ltac:(lia)) as Ri.
  assert (Hn2 : reversed k i <> x). { intros Heq. apply Hne. rewrite <- Heq. symmetry. apply reversed_reversed; lia. }
  change (@rO R _) with 0%R. rewrite !Q by auto. rewrite Z.eqb_refl. destruct (Z.eqb_spec (reversed k i) x); [congruence|].
  change (Rleb (sin (angle t (S j)) * sin (angle t (S j))) (cos (angle t (S j)) * tan t * (cos (angle t (S j)) * tan t)) = false).
  destruct (Rleb _ _) eqn:El; auto. exfalso. apply Rleb_le in El.
  assert (Hm : (0 < INR (S j))%R) by (rewrite S_INR; pose proof (pos_INR j); lra).
  assert (HN : (8 <= N)%R). { unfold N. apply IZR_le. change 8 with (2 ^ 3). apply Z.pow_le_mono_r; lia. }
  assert (Hmm : (INR (S j) * INR (S j) <= N)%R).
  { rewrite INR_IZR_INZ, Hj, <- mult_IZR. apply IZR_le. apply Z.sqrt_spec. apply Z.pow_nonneg. lia. }
  pose proof (angle_bound N (INR (S j)) t HN ltac:(lra) Hmm Ht Hs) as B.
  pose proof (peak_R t (INR (S j)) Ht Hm B) as Pk. cbv zeta in Pk. unfold angle in El. lra.
Qed.

Lemma grover_angle k : 0 < k -> exists t, (0 < t < PI / 2)%R /\ (sin t = 1 / sqrt (IZR (2 ^ k)))%R.
Proof.
  intros Hk. pose proof (N_pos k Hk) as HN. set (N := IZR (2 ^ k)) in *. pose proof PI2_3_2 as P1.
  assert (H1 : (1 < sqrt N)%R) by (rewrite <- sqrt_1; apply sqrt_lt_1; lra).
  assert (H2 : (0 < 1 / sqrt N < 1)%R).
  { split; [apply Rdiv_lt_0_compat; lra|]. apply (Rmult_lt_reg_r (sqrt N)); [lra|]. replace (1 / sqrt N * sqrt N)%R with 1%R by (field; lra). lra. }
  exists (asin (1 / sqrt N)). split; [|apply sin_asin; lra].
  pose proof (asin_bound_lt (1 / sqrt N) ltac:(lra)) as B. split; [|lra].
  destruct (Rlt_or_le 0 (asin (1 / sqrt N))) as [|Hc]; auto. exfalso.
  pose proof (sin_asin (1 / sqrt N) ltac:(lra)) as E.
  assert (sin (asin (1 / sqrt N)) <= sin 0)%R by (apply sin_incr_1; lra). rewrite sin_0 in *. lra.
Qed.
Lemma grover_file : exists w sm_ds sm_da, grover consts_R 10 42 (1 / sqrt (IZR (2 ^ 10)))%R (1 / sqrt 2)%R = (w, Ok (sm_ds, sm_da)) /\
  forall evs, (forall i, enum_ok (evs i) /\ scheds_ok (evs i) (w_heap w) 11) ->
  exists c st cm, grover_runs SList evs (w_heap w) sm_ds sm_da 31 = (c, Ok (st, cm)) /\ grover_print cm sm_ds = Ok 336.
Proof.
  destruct (grover_angle 10 ltac:(lia)) as (t & Ht & Hs). destruct (grover_list 10 42 t ltac:(lia) ltac:(lia) Ht Hs) as (w & sm & sa & E & G).
  exists w, sm, sa. split; [exact E|]. intros evs Hev. destruct (G evs Hev 31%nat) as (c & st & cm & ps & E1 & _ & _ & _ & Pr). exists c, st, cm. split; [exact E1|].
  etransitivity; [apply Pr; [lia|reflexivity]|]. reflexivity.
Qed.
