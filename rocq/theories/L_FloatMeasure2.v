(** Rounding errors of measurements: the collapsed state. *)
From Coq Require Import Reals Lra.
From Verif Require Import Base BaseR S_Bits M_Bits L_Bits M_Kron S_Kron L_Kron M_Ops S_Ops M_Feed M_Measure S_Measure L_Measure1 L_Measure2 L_Measure3 L_Measure5 M_Float S_Float L_Float1 L_Float2 L_Float3 L_Float4 L_Float5 L_Float7 M_FloatMeasure S_FloatMeasure L_FloatMeasure1.
Local Open Scope Z_scope.

(** ** the factor sqrt(1 / p) *)
Lemma sqrt_near x : (0 <= x -> Rabs (sqrt x - 1) <= Rabs (x - 1))%R.
Proof.
  intros H. pose proof (sqrt_pos x) as S. pose proof (sqrt_sqrt x H) as E. set (s := sqrt x) in *. rewrite <- E.
  replace (s * s - 1)%R with ((s - 1) * (s + 1))%R by ring. rewrite Rabs_mult, (Rabs_pos_eq (s + 1)) by lra.
  pose proof (Rabs_pos (s - 1)). nra.
Qed.

Section Factor.
  Variables u w : R.
  Hypothesis Hu : (0 <= u <= 1 / 4)%R.
  Hypothesis Hw : (0 <= w <= 1 / 2)%R.

  Lemma factor_err p0 p q mu eta : (0 < p0 <= 2)%R -> (0 <= eta <= 1 / 2)%R -> (Rabs (p - p0) <= eta * p0)%R ->
    rounds u w (1 / p) q -> rounds u w (sqrt q) mu -> (0 < p)%R /\ (Rabs (mu * sqrt p0 - 1) <= 2 * eta + 7 * u)%R.
  Proof.
    intros Hp0 He Hp Hq Hm. apply Rabs_le_inv in Hp. assert (Hpp : (1 / 2 * p0 <= p)%R) by nra. split; [lra|].
    unfold rounds in Hq, Hm.
    assert (Hip : (Rabs (p0 * (1 / p) - 1) <= 2 * eta)%R).
    { replace (p0 * (1 / p) - 1)%R with ((p0 - p) * (1 / p))%R by (field; lra).
      assert (0 < 1 / p)%R by (apply Rdiv_lt_0_compat; lra).
      assert (HX : (eta * p0 * (1 / p) <= 2 * eta)%R).
      { apply Rmult_le_reg_r with p; [lra|]. replace (eta * p0 * (1 / p) * p)%R with (eta * p0)%R by (field; lra). nra. }
      apply Rabs_le. split; nra. }
    assert (Hp1 : (0 < 1 / p)%R) by (apply Rdiv_lt_0_compat; lra). rewrite (Rabs_pos_eq (1 / p)) in Hq by lra.
    set (ip := (1 / p)%R) in *. apply Rabs_le_inv in Hip. apply Rabs_le_inv in Hq.
    (* eps = q * p0 - 1 *)
    assert (Heps : (Rabs (p0 * q - 1) <= 2 * eta + 3 * u)%R).
    { assert (Q : (Rabs (p0 * (q - ip)) <= p0 * (u * (ip + w)))%R).
      { rewrite Rabs_mult, (Rabs_pos_eq p0) by lra. apply Rmult_le_compat_l; [lra|]. apply Rabs_le. lra. }
      assert (Q2 : (p0 * (u * (ip + w)) <= 3 * u)%R).
      { replace (p0 * (u * (ip + w)))%R with (u * (p0 * ip + p0 * w))%R by ring.
        replace (3 * u)%R with (u * 3)%R by ring. apply Rmult_le_compat_l; nra. }
      replace (p0 * q - 1)%R with ((p0 * ip - 1) + p0 * (q - ip))%R by ring.
      eapply Rle_trans; [apply Rabs_triang|]. apply Rplus_le_compat; [apply Rabs_le; lra|lra]. }
    assert (Hq0 : (0 <= q)%R).
    { assert (0 <= p0 * q)%R.
      { assert (p0 * q - 1 >= p0 * ip - 1 - p0 * (u * (ip + w)))%R by nra.
        assert (p0 * ip >= 2 / 3)%R.
        { apply Rle_ge. apply Rmult_le_reg_r with p; [lra|]. unfold ip. replace (p0 * (1 / p) * p)%R with p0 by (field; lra). nra. }
        assert (p0 * (u * (ip + w)) <= 1 / 4 * (p0 * ip + 1))%R.
        { replace (p0 * (u * (ip + w)))%R with (u * (p0 * ip + p0 * w))%R by ring. apply Rmult_le_compat; nra. }
        lra. }
      nra. }
    set (s0 := sqrt p0) in *. assert (Hs0 : (0 <= s0 <= 2)%R).
    { split; [apply sqrt_pos|]. apply sq_le; [lra|]. unfold s0. rewrite sqrt_sqrt; lra. }
    assert (Es : (s0 * sqrt q = sqrt (p0 * q))%R) by (unfold s0; symmetry; apply sqrt_mult; lra).
    assert (Hs : (Rabs (s0 * sqrt q - 1) <= 2 * eta + 3 * u)%R).
    { rewrite Es. eapply Rle_trans; [apply sqrt_near|exact Heps]. apply Rmult_le_pos; lra. }
    pose proof (sqrt_pos q) as Sq. rewrite (Rabs_pos_eq (sqrt q)) in Hm by auto.
    assert (M2 : (Rabs (s0 * (mu - sqrt q)) <= 4 * u)%R).
    { rewrite Rabs_mult, (Rabs_pos_eq s0) by lra.
      apply Rle_trans with (s0 * (u * (sqrt q + w)))%R; [apply Rmult_le_compat_l; lra|].
      replace (s0 * (u * (sqrt q + w)))%R with (u * (s0 * sqrt q + s0 * w))%R by ring. replace (4 * u)%R with (u * 4)%R by ring.
      apply Rmult_le_compat_l; [lra|]. apply Rabs_le_inv in Hs. nra. }
    replace (mu * s0 - 1)%R with ((s0 * sqrt q - 1) + s0 * (mu - sqrt q))%R by ring.
    eapply Rle_trans; [apply Rabs_triang|]. lra.
  Qed.
End Factor.

(** ** projections *)
Definition proj (n : Z) (g : list Z) (m : Z) (f : Z -> CR) (x : Z) : CR := if reg n g x =? m then f x else 0%r.
Lemma proj_norm n g m f : (vnorm n (proj n g m f) * vnorm n (proj n g m f) = marginal n g f m)%R.
Proof.
  rewrite vnorm_sq, marginal_R. apply sum_ext. intros x _. unfold proj. destruct (_ =? m); [reflexivity|]. rewrite cnorm2_R. change (0 * 0 + 0 * 0 = 0)%R. ring.
Qed.
Lemma proj_vnorm n g m f : vnorm n (proj n g m f) = sqrt (marginal n g f m).
Proof. rewrite <- proj_norm. symmetry. apply sqrt_square. apply vnorm_pos. Qed.
Lemma proj_le n g m f h : (vnorm n (fun x => proj n g m f x - proj n g m h x)%r <= vnorm n (fun x => f x - h x)%r)%R.
Proof.
  apply l2_mono. intros x _. split; [apply cnorm_pos|]. unfold proj. destruct (_ =? m); [lra|].
  replace (0 - 0 : CR)%r with (0%r : CR) by (change ((0%R, 0%R) = (0 - 0, 0 - 0)%R); f_equal; ring).
  apply Rle_trans with 0%R; [|apply cnorm_pos]. unfold cnorm. rewrite cnorm2_R. change (sqrt (0 * 0 + 0 * 0) <= 0)%R. replace (0 * 0 + 0 * 0)%R with 0%R by ring. rewrite sqrt_0. lra.
Qed.
Lemma cnorm_scale (z : CR) k : cnorm (z * creal k)%r = (Rabs k * cnorm z)%R.
Proof.
  unfold cnorm. rewrite !cnorm2_R. destruct z as [a b].
  change (sqrt ((a * k - b * 0) * (a * k - b * 0) + (a * 0 + b * k) * (a * 0 + b * k)) = Rabs k * sqrt (a * a + b * b))%R.
  replace ((a * k - b * 0) * (a * k - b * 0) + (a * 0 + b * k) * (a * 0 + b * k))%R with ((k * k) * (a * a + b * b))%R by ring.
  rewrite sqrt_mult by nra. f_equal. change (k * k)%R with (Rsqr k). apply sqrt_Rsqr_abs.
Qed.
Lemma vnorm_scale n f k : vnorm n (fun x => f x * creal k)%r = (Rabs k * vnorm n f)%R.
Proof.
  unfold vnorm. rewrite <- l2_scale by apply Rabs_pos. apply l2_ext. intros x _. rewrite cnorm_scale. reflexivity.
Qed.
Lemma vnorm_tri n f g : (vnorm n f <= vnorm n (fun x => f x - g x)%r + vnorm n g)%R.
Proof.
  eapply Rle_trans; [|apply vnorm_add]. apply Req_le. apply vnorm_ext. intros r _.
  destruct (f r) as [a a'], (g r) as [b b']. change ((a, a') = (a - b + b, a' - b' + b')%R). f_equal; ring.
Qed.
Lemma vnorm_sub_sym n f g : vnorm n (fun x => f x - g x)%r = vnorm n (fun x => g x - f x)%r.
Proof. apply l2_ext. intros x _. rewrite cnorm_sub_sym. reflexivity. Qed.

(** normalising two vectors at most doubles their relative distance *)
Lemma normalised_dist n f g : (0 < vnorm n f)%R -> (0 < vnorm n g)%R ->
  (vnorm n (fun x => f x * creal (/ vnorm n f) - g x * creal (/ vnorm n g))%r <= 2 * vnorm n (fun x => f x - g x)%r / vnorm n g)%R.
Proof.
  intros Hf Hg. set (a := vnorm n f) in *. set (b := vnorm n g) in *. set (d := vnorm n (fun x => f x - g x)%r).
  apply Rle_trans with (vnorm n (fun x => f x * creal (/ a - / b)%R)%r + vnorm n (fun x => (f x - g x) * creal (/ b))%r)%R.
  - eapply Rle_trans; [|apply vnorm_add]. apply Req_le. apply vnorm_ext. intros r _.
    destruct (f r) as [x x'], (g r) as [y y'].
    change ((x * / a - x' * 0 - (y * / b - y' * 0), x * 0 + x' * / a - (y * 0 + y' * / b))%R
      = (x * (/ a - / b) - x' * 0 + ((x - y) * / b - (x' - y') * 0), x * 0 + x' * (/ a - / b) + ((x - y) * 0 + (x' - y') * / b))%R).
    f_equal; ring.
  - rewrite !vnorm_scale. fold a d. rewrite (Rabs_pos_eq (/ b)) by (left; apply Rinv_0_lt_compat; lra).
    assert (T1 : (a <= d + b)%R) by apply vnorm_tri.
    assert (T2 : (b <= d + a)%R) by (unfold d; rewrite vnorm_sub_sym; apply vnorm_tri).
    replace (Rabs (/ a - / b) * a)%R with (Rabs (b - a) * / b)%R.
    + assert (Rabs (b - a) <= d)%R by (apply Rabs_le; lra). assert (0 < / b)%R by (apply Rinv_0_lt_compat; lra).
      assert (Rabs (b - a) * / b <= d * / b)%R by (apply Rmult_le_compat_r; lra). unfold Rdiv. lra.
    + replace (/ a - / b)%R with ((b - a) * / a * / b)%R by (field; lra). rewrite !Rabs_mult.
      rewrite (Rabs_pos_eq (/ a)), (Rabs_pos_eq (/ b)) by (left; apply Rinv_0_lt_compat; lra). field. lra.
Qed.

Section Collapse.
  Variables u w : R.
  Hypothesis Hu : (0 <= u <= 1 / 4)%R.
  Hypothesis Hw : (0 <= w <= 1 / 2)%R.
  Variables (n : Z) (indices : list Z).
  Hypotheses (Hn : 0 <= n) (HI : qubits_ok n indices).
  Notation P v := (marginal n (measured_order n indices) (amp_at 0 v)).
  Let k := zlen indices.

  Lemma prob_rel p p' : (0 < p -> p <= p' -> prob_error u w n p' <= prob_error u w n p / p * p')%R.
  Proof.
    intros H0 H. unfold prob_error. set (g := ((1 + u) ^ (5 + 2 ^ Z.to_nat n) - 1)%R). set (c := (2 * w * IZR (2 ^ n))%R).
    assert (Hg : (0 <= g)%R) by (unfold g; pose proof (pow1_ge u (5 + 2 ^ Z.to_nat n) ltac:(lra)); lra).
    assert (Hc : (0 <= c)%R) by (unfold c; apply Rmult_le_pos; [lra|apply IZR_le, Z.pow_nonneg; lia]).
    replace (g * (p + c) / p * p')%R with (g * (p' + c * (p' / p)))%R by (field; lra). apply Rmult_le_compat_l; auto.
    apply Rplus_le_compat_l. rewrite <- (Rmult_1_r c) at 1. apply Rmult_le_compat_l; auto.
    apply Rmult_le_reg_r with p; auto. replace (p' / p * p)%R with p' by (field; lra). lra.
  Qed.

  (** the written state against the exact collapse of the same input *)
  Lemma collapse_err rand (v : list CR) mp out eta : (0 <= rand <= 1)%R -> zlen v = 2 ^ n -> fmeasure u w rand indices n v mp out ->
    (0 < P v (fst mp) <= 2)%R -> (0 <= eta <= 1 / 2)%R -> (prob_error u w n (P v (fst mp)) <= eta * P v (fst mp))%R ->
    let e := (2 * eta + 7 * u)%R in
    zlen out = 2 ^ n /\
    (vnorm n (fun x => amp out x - proj n (measured_order n indices) (fst mp) (amp_at 0 v) x * creal (/ sqrt (P v (fst mp))))%r
      <= e + ((1 + u) ^ 2 - 1) * (3 / 2 * (1 + e) + 4 * w * IZR (2 ^ n)))%R.
  Proof.
    intros Hr HV (HS & Hp & q & mu & mask & Hq & Hm & Em & HL & HO) HP He HE e. split; [lia|].
    assert (SL : slice_ok n 0 v) by (split; lia).
    destruct (soft_err u w ltac:(lra) ltac:(lra) n indices 0 v Hn HI SL rand mp Hr HS) as (Hmr & Hpe & _).
    destruct (factor_err u w Hu Hw (P v (fst mp)) (snd mp) q mu eta HP He ltac:(lra) Hq Hm) as [_ HF]. fold e in HF.
    destruct (make_row_mask_ok n indices Hn HI) as (mask' & Em' & HM). rewrite Em in Em'. injection Em' as <-.
    set (m := fst mp) in *. set (s := sqrt (P v m)) in *. set (mo := measured_order n indices) in *.
    assert (Hs : (0 < s)%R) by (apply sqrt_lt_R0; lra).
    set (pv := proj n mo m (amp_at 0 v)). assert (Epv : vnorm n pv = s) by apply proj_vnorm.
    set (u2 := ((1 + u) ^ 2 - 1)%R). assert (Hu2 : (0 <= u2)%R) by (unfold u2; pose proof (pow1_ge u 2 ltac:(lra)); lra).
    apply Rle_trans with (vnorm n (fun x => amp out x - pv x * creal mu)%r + vnorm n (fun x => pv x * creal (mu - / s)%R)%r)%R.
    { eapply Rle_trans; [|apply vnorm_add]. apply Req_le. apply vnorm_ext. intros r _.
      destruct (amp out r) as [a a'], (pv r) as [b b'].
      change ((a - (b * / s - b' * 0), a' - (b * 0 + b' * / s))%R
        = (a - (b * mu - b' * 0) + (b * (mu - / s) - b' * 0), a' - (b * 0 + b' * mu) + (b * 0 + b' * (mu - / s)))%R). f_equal; ring. }
    rewrite vnorm_scale, Epv.
    assert (E2 : (Rabs (mu - / s) * s <= e)%R).
    { replace (Rabs (mu - / s) * s)%R with (Rabs (mu * s - 1))%R; [exact HF|].
      replace (mu * s - 1)%R with ((mu - / s) * s)%R by (field; lra). rewrite Rabs_mult, (Rabs_pos_eq s); lra. }
    rewrite Rplus_comm. apply Rplus_le_compat; [exact E2|].
    (* the products *)
    assert (HN : (1 <= IZR (2 ^ n))%R) by (apply IZR_le; pose proof (Z.pow_pos_nonneg 2 n); lia).
    apply Rle_trans with (l2 (zrange 0 (2 ^ n)) (fun x => (u2 * (3 / 2 * Rabs mu * cnorm (pv x) + 4 * w))%R)).
    { apply l2_mono. intros x Hx. apply in_zrange in Hx. split; [apply cnorm_pos|].
      specialize (HO x ltac:(lia)). cbv zeta in HO. fold k in HO. unfold k in HO. rewrite mask_test in HO by (auto; lia).
      unfold pv, proj. fold mo in HO. assert (Ea : amp out x = znth 0%r out x) by reflexivity.
      destruct (reg n mo x =? m); cbn [negb] in HO.
      - destruct HO as (y & Ey & HF2). rewrite (cget_ok 0%r) in Ey by lia. injection Ey as <-. rewrite Ea.
        assert (Eamp : amp_at 0 v x = znth 0%r v x) by (unfold amp_at; rewrite Z.sub_0_r; reflexivity). rewrite Eamp.
        pose proof (fmul_err u w ltac:(lra) ltac:(lra) _ _ _ HF2) as E3. eapply Rle_trans; [apply cnorm_cabs1|].
        eapply Rle_trans; [exact E3|]. apply Rmult_le_compat_l; auto. apply Rplus_le_compat_r.
        assert (Ec : cabs1 (mu, 0%R) = Rabs mu) by (unfold cabs1; cbn [fst snd]; rewrite Rabs_R0; ring). rewrite Ec.
        pose proof (cabs1_cnorm (znth 0%r v x)). pose proof (Rabs_pos mu). nra.
      - rewrite Ea, HO.
        replace (0 - 0 * creal mu : CR)%r with (0%r : CR) by (change ((0%R, 0%R) = (0 - (0 * mu - 0 * 0), 0 - (0 * 0 + 0 * mu))%R); f_equal; ring).
        assert (E0 : cnorm 0%r = 0%R).
        { unfold cnorm. rewrite cnorm2_R. change (sqrt (0 * 0 + 0 * 0) = 0)%R. replace (0 * 0 + 0 * 0)%R with 0%R by ring. apply sqrt_0. }
        rewrite !E0. apply Rmult_le_pos; lra. }
    rewrite l2_scale by auto. apply Rmult_le_compat_l; auto. eapply Rle_trans; [apply l2_add|]. apply Rplus_le_compat.
    - rewrite l2_scale by (pose proof (Rabs_pos mu); lra). change (l2 (zrange 0 (2 ^ n)) (fun r => cnorm (pv r))) with (vnorm n pv). rewrite Epv.
      apply Rabs_le_inv in HF. rewrite Rmult_assoc. apply Rmult_le_compat_l; [lra|].
      rewrite <- (Rabs_pos_eq s) by lra. rewrite <- Rabs_mult. apply Rabs_le. lra.
    - apply sq_le; [apply Rmult_le_pos; lra|]. rewrite l2_sq, sumR_const, length_zrange, Z.sub_0_r, INR_IZR_INZ, Z2Nat.id by (apply Z.pow_nonneg; lia).
      assert (0 <= w * w)%R by nra. nra.
  Qed.

  Lemma collapse_near rand (v v' : list CR) mp out : (0 <= rand <= 1)%R -> zlen v' = 2 ^ n -> norm2 n v = 1%R ->
    fmeasure u w rand indices n v' mp out -> (0 < P v (fst mp))%R -> (8 * dist n v' v <= P v (fst mp))%R ->
    (4 * prob_error u w n (P v (fst mp) / 2) <= P v (fst mp))%R ->
    zlen out = 2 ^ n /\
    (dist n out (collapsed_state n indices (fst mp) v) <= 2 * dist n v' v / sqrt (P v (fst mp)) + collapse_error u w n (P v (fst mp)))%R.
  Proof.
    intros Hr HV H1 HF HP Hd HE. set (m := fst mp) in *.
    assert (EA : forall x r, amp_at 0 x r = amp (K := R) x r) by (intros; unfold amp_at, amp; rewrite Z.sub_0_r; reflexivity).
    set (d := dist n v' v) in *. set (p := P v m) in *. set (p' := P v' m). set (mo := measured_order n indices) in *.
    assert (Hd0 : (0 <= d)%R) by (unfold d; rewrite dist_vnorm; apply vnorm_pos).
    assert (Ev : vnorm n (amp v) = 1%R).
    { pose proof (norm2_vnorm n v) as E. rewrite H1 in E. pose proof (vnorm_pos n (amp v)). nra. }
    assert (Ed : vnorm n (fun r => (amp_at 0 v' r - amp_at 0 v r)%r) = d).
    { unfold d. rewrite dist_vnorm. apply vnorm_ext. intros; rewrite !EA; reflexivity. }
    assert (Ev' : vnorm n (amp_at 0 v) = 1%R) by (rewrite <- Ev; apply vnorm_ext; intros; apply EA).
    assert (Hp1 : (p <= 1)%R) by (rewrite <- (Rmult_1_r 1), <- Ev'; exact (marginal_le n mo (amp_at 0 v) m)).
    assert (T3 : (vnorm n (amp_at 0 v') <= d + 1)%R) by (rewrite <- Ed, <- Ev'; apply vnorm_tri).
    pose proof (marginal_dist n mo (amp_at 0 v') (amp_at 0 v) m) as D. rewrite Ed, Ev' in D. fold p p' in D.
    assert (D' : (Rabs (p' - p) <= 1 / 2 * p)%R).
    { apply Rle_trans with (d * (vnorm n (amp_at 0 v') + 1))%R; [exact D|]. apply Rle_trans with (d * 4)%R; [|lra].
      apply Rmult_le_compat_l; lra. }
    apply Rabs_le_inv in D'. set (eta := (prob_error u w n (p / 2) / (p / 2))%R).
    assert (Hpe0 : (0 <= prob_error u w n (p / 2))%R).
    { unfold prob_error. apply Rmult_le_pos; [pose proof (pow1_ge u (5 + 2 ^ Z.to_nat n) ltac:(lra)); lra|].
      assert (0 <= 2 * w * IZR (2 ^ n))%R by (apply Rmult_le_pos; [lra|apply IZR_le, Z.pow_nonneg; lia]). lra. }
    assert (Heta : (0 <= eta <= 1 / 2)%R).
    { unfold eta. split; [apply Rmult_le_pos; [auto|left; apply Rinv_0_lt_compat; lra]|].
      apply Rmult_le_reg_r with (p / 2)%R; [lra|]. replace (prob_error u w n (p / 2) / (p / 2) * (p / 2))%R with (prob_error u w n (p / 2)) by (field; lra). lra. }
    destruct (collapse_err rand v' mp out eta Hr HV HF) as [HL HC]; fold m mo p'; [lra|exact Heta|apply prob_rel; lra|].
    split; [exact HL|]. fold m mo p' in HC.
    assert (Ea : sqrt p' = vnorm n (proj n mo m (amp_at 0 v'))) by (symmetry; apply proj_vnorm).
    assert (Eb : sqrt p = vnorm n (proj n mo m (amp_at 0 v))) by (symmetry; apply proj_vnorm).
    assert (Pa : (0 < sqrt p')%R) by (apply sqrt_lt_R0; lra). assert (Pb : (0 < sqrt p)%R) by (apply sqrt_lt_R0; lra).
    pose proof (normalised_dist n (proj n mo m (amp_at 0 v')) (proj n mo m (amp_at 0 v))) as ND. rewrite <- Ea, <- Eb in ND. specialize (ND Pa Pb).
    pose proof (proj_le n mo m (amp_at 0 v') (amp_at 0 v)) as PL. rewrite Ed in PL.
    rewrite dist_vnorm.
    apply Rle_trans with (vnorm n (fun x => amp out x - proj n mo m (amp_at 0 v') x * creal (/ sqrt p')%R)%r
      + vnorm n (fun x => proj n mo m (amp_at 0 v') x * creal (/ sqrt p')%R - proj n mo m (amp_at 0 v) x * creal (/ sqrt p)%R)%r)%R.
    { eapply Rle_trans; [|apply vnorm_add]. apply Req_le. apply vnorm_ext. intros r Hr'.
      assert (Ec : amp (collapsed_state n indices m v) r = (proj n mo m (amp_at 0 v) r * creal (/ sqrt p)%R)%r).
      { unfold amp, collapsed_state. rewrite znth_map_zrange by lia. rewrite Z.add_0_l. unfold collapsed, proj. fold mo p.
        destruct (_ =? m); [reflexivity|]. change ((0%R, 0%R) = (0 * / sqrt p - 0 * 0, 0 * 0 + 0 * / sqrt p)%R). f_equal; ring. }
      rewrite Ec. generalize (amp out r) (proj n mo m (amp_at 0 v') r * creal (/ sqrt p')%R)%r (proj n mo m (amp_at 0 v) r * creal (/ sqrt p)%R)%r.
      intros [a a'] [b b'] [c c']. change ((a - c, a' - c')%R = (a - b + (b - c), a' - b' + (b' - c'))%R). f_equal; ring. }
    assert (Q : (2 * vnorm n (fun x => proj n mo m (amp_at 0 v') x - proj n mo m (amp_at 0 v) x)%r / sqrt p <= 2 * d / sqrt p)%R).
    { unfold Rdiv. apply Rmult_le_compat_r; [left; apply Rinv_0_lt_compat; auto|lra]. }
    unfold collapse_error. cbv zeta. fold eta.
    pose proof (Rle_trans _ _ _ ND Q) as NQ. rewrite (Rplus_comm (2 * d / sqrt p)). apply Rplus_le_compat; [exact HC|exact NQ].
  Qed.
End Collapse.
