(** Whole runs with rounding: initial state and run together; exact runs are possible. *)
From Coq Require Import Reals Lra.
From Verif Require Import Base BaseR S_Bits M_Bits L_Bits M_Kron S_Kron L_Kron L_Kron3 M_Ops M_Gates S_Ops M_Feed S_Feed L_Feed M_Measure S_Measure L_Measure1 L_Measure2 L_Measure3 L_Measure5 M_Float S_Float L_Gates L_Float1 L_Float2 L_Float3 L_Float4 L_Float7 L_Float8 M_FloatMeasure S_FloatMeasure L_FloatMeasure1 L_FloatMeasure2 L_FloatMeasure3 M_FloatRun S_FloatRun L_FloatRun1 L_FloatRun2.
Local Open Scope Z_scope.

Lemma start_norm n (fs : list fed) : 0 <= n -> feeds_ok n fs -> (forall g a, In (g, a) fs -> total a = 1%R) -> norm2 n (meant n fs) = 1%R.
Proof.
  intros Hn HF H1. apply norm_vnorm. transitivity (vnorm n (fed_amp n fs)).
  - apply vnorm_ext. intros r Hr. unfold amp, meant. rewrite znth_map_zrange by lia. rewrite Z.add_0_l. reflexivity.
  - rewrite fed_vnorm by auto. clear HF. induction fs as [|[g a] fs IH]; [reflexivity|]. cbn [rprod snd].
    rewrite IH by (intros; eapply H1; right; eauto). unfold rnorm. rewrite (H1 g a (or_introl eq_refl)), sqrt_1. ring.
Qed.

Lemma start_near u w n fs' fs st : (0 <= u)%R -> (0 <= w)%R -> 0 <= n -> same_registers fs' fs -> feeds_ok n fs ->
  (forall g a, In (g, a) fs -> total a = 1%R) -> fmake_state u w n (fed_groups fs') (fed_list fs') st ->
  zlen st = 2 ^ n /\ (dist n st (meant n fs) <= start_error u w n fs' fs)%R.
Proof.
  intros Hu Hw Hn HS HF H1 HM. destruct (feed_state_near u w Hu Hw n fs' fs st Hn HS HF H1 HM) as [L D]. split; [exact L|].
  unfold start_error. rewrite prod_rprod. fold (dists fs' fs). unfold meant. lra.
Qed.

Lemma whole_run u w delta gate meas (fine : R -> Prop) n fs' fs is ops rs st V' d V : (0 <= u <= 1 / 4)%R -> (0 <= w <= 1 / 2)%R -> (0 <= delta)%R -> 0 <= n ->
  (forall P, (0 < P <= 1)%R -> fine P -> (4 * prob_error u w n (P / 2) <= P)%R /\ (collapse_error u w n P <= meas P)%R) ->
  (forall mats, In (IGate mats) is -> (step_error u w delta n mats <= gate mats)%R) ->
  same_registers fs' fs -> feeds_ok n fs -> (forall g a, In (g, a) fs -> total a = 1%R) -> Forall2 (stands_for delta n) is ops ->
  fmake_state u w n (fed_groups fs') (fed_list fs') st -> frun u w n ops st rs V' ->
  ideal gate meas fine n is rs (start_error u w n fs' fs) (meant n fs) d V ->
  (dist n V' V <= d)%R /\ norm2 n V = 1%R /\ zlen V' = 2 ^ n.
Proof.
  intros Hu Hw Hd Hn Hmeas Hg HS HF H1 HO HM HR HI.
  destruct (start_near u w n fs' fs st ltac:(lra) ltac:(lra) Hn HS HF H1 HM) as [L D].
  exact (run_near u w delta Hu Hw Hd gate meas fine n Hn Hmeas is rs _ _ d V HI ops st V' HO Hg HR L (start_norm n fs Hn HF H1) D).
Qed.

(** the reported probability of an outcome *)
Lemma prob_near u w n indices rand (v v' : list CR) m p d : (0 <= u)%R -> (0 <= w)%R -> 0 <= n -> qubits_ok n indices ->
  (0 <= rand <= 1)%R -> zlen v' = 2 ^ n -> norm2 n v = 1%R -> (dist n v' v <= d)%R -> fsoft_measure u w rand indices n v' 0 (m, p) ->
  let P := marginal n (measured_order n indices) (amp_at 0 v) m in
  (Rabs (p - P) <= (2 + d) * d + prob_error u w n (P + (2 + d) * d))%R.
Proof.
  intros Hu Hw Hn HI Hr Hv H1 HD HF P. assert (SL : slice_ok n 0 v') by (split; lia).
  destruct (soft_err u w Hu Hw n indices 0 v' Hn HI SL rand (m, p) Hr HF) as (Hm & HB & _). cbn [fst snd] in *.
  assert (D0 : (0 <= dist n v' v)%R) by (rewrite dist_vnorm; apply vnorm_pos).
  assert (E1 : vnorm n (amp_at 0 v) = 1%R) by (transitivity (vnorm n (amp v)); [apply vnorm_ext; intros; apply amp_at_0|apply norm_vnorm, H1]).
  assert (ED : vnorm n (fun r => amp_at 0 v' r - amp_at 0 v r)%r = dist n v' v) by (rewrite dist_vnorm; apply vnorm_ext; intros; rewrite !amp_at_0; reflexivity).
  assert (T3 : (vnorm n (amp_at 0 v') <= dist n v' v + 1)%R) by (rewrite <- ED, <- E1; apply vnorm_tri).
  pose proof (vnorm_pos n (amp_at 0 v')) as T0.
  assert (Q : (vnorm n (fun r => amp_at 0 v' r - amp_at 0 v r)%r * (vnorm n (amp_at 0 v') + vnorm n (amp_at 0 v)) <= (2 + d) * d)%R).
  { rewrite ED, E1, (Rmult_comm (2 + d)). apply Rmult_le_compat; lra. }
  set (P' := marginal n (measured_order n indices) (amp_at 0 v') m) in *.
  assert (B : (Rabs (P' - P) <= (2 + d) * d)%R).
  { eapply Rle_trans; [exact (weights_dist n (fun x => reg n (measured_order n indices) x =? m) (amp_at 0 v') (amp_at 0 v))|exact Q]. }
  assert (PE : (prob_error u w n P' <= prob_error u w n (P + (2 + d) * d))%R).
  { unfold prob_error. apply Rabs_le_inv in B. apply Rmult_le_compat_l; [|lra]. pose proof (pow1_ge u (5 + 2 ^ Z.to_nat n) Hu). lra. }
  replace (p - P)%R with ((p - P') + (P' - P))%R by ring. eapply Rle_trans; [apply Rabs_triang|]. lra.
Qed.

(** ** exact arithmetic is one way of rounding *)
Section Possible.
  Variables u w : R.
  Hypotheses (Hu : (0 <= u)%R) (Hw : (0 <= w)%R).

  Lemma upd_upd {A} (l : list A) k x y : upd (upd l k x) k y = upd l k y.
  Proof. revert k. induction l as [|a l IH]; intros [|k]; cbn; auto. rewrite IH. reflexivity. Qed.

  Lemma factors_possible feeds p : forall l (st out : list CR) y, 0 <= p < zlen st ->
    mfold (fun state '(qindex, flip) => do s <- pyget state p; do f <- pyget feeds qindex; do a <- feed_get f flip; pyset state p (s * a)%r) l (upd st (Z.to_nat p) y) = Ok out ->
    exists x, ffactors u w feeds l y x /\ out = upd st (Z.to_nat p) x.
  Proof.
    induction l as [|[q f] l IH]; intros st out y Hp E.
    - cbn in E. injection E as <-. exists y. split; [constructor|reflexivity].
    - cbn [mfold] in E. rewrite (pyget_ok (0%r : CR)) in E by (rewrite zlen_upd; auto). cbn [bind] in E. rewrite znth_upd in E by auto.
      rewrite Z.eqb_refl in E. destruct (pyget feeds q) as [fd|] eqn:Eq; [|discriminate]. cbn [bind] in E.
      destruct (feed_get fd f) as [a|] eqn:Ea; [|discriminate]. cbn [bind] in E. rewrite pyset_ok in E by (rewrite zlen_upd; auto). cbn [bind] in E.
      rewrite upd_upd in E. destruct (IH st out (y * a)%r Hp E) as (x & HF & ->). exists x. split; [|reflexivity].
      econstructor; eauto. apply fmul_refl; auto.
  Qed.
  Lemma edits_possible feeds N : forall l (st out : list CR), zlen st = N -> (forall i fl, In (i, fl) l -> 0 <= i < N) ->
    mfold (fun state '(index, flips) =>
        if (index <? 0) || (N <=? index) then Ok state else
        do state <- pyset state (index - 0) 1%r;
        mfold (fun state '(qindex, flip) =>
            do s <- pyget state (index - 0); do f <- pyget feeds qindex; do a <- feed_get f flip; pyset state (index - 0) (s * a)%r) (enumerate flips) state) l st = Ok out ->
    fedits u w feeds l st out.
  Proof.
    induction l as [|[i fl] l IH]; intros st out L HI E.
    - cbn in E. injection E as <-. constructor.
    - pose proof (HI i fl (or_introl eq_refl)) as Hi. cbn [mfold] in E.
      destruct (Z.ltb_spec i 0); [lia|]. destruct (Z.leb_spec N i); [lia|]. cbn [orb] in E. rewrite Z.sub_0_r in E.
      rewrite pyset_ok in E by lia. cbn [bind] in E.
      match type of E with (bind ?m _) = _ => destruct m as [s1|] eqn:E1; [|discriminate] end. cbn [bind] in E.
      destruct (factors_possible feeds i (enumerate fl) st s1 1%r ltac:(lia) E1) as (x & HF & ->).
      econstructor; [exact HF|apply pyset_ok; lia|]. apply IH; auto; [rewrite zlen_upd; exact L|]. intros j fl' Hj. apply (HI j fl'). right. exact Hj.
  Qed.
  Lemma start_possible junk n groups feeds b : 0 <= n -> qubits_ok n (concat groups) ->
    make_state junk n groups feeds None None None None = Ok b -> fmake_state u w n groups feeds (bk_state b).
  Proof.
    intros Hn HQ E. unfold make_state in E. cbn [default] in E. rewrite !Z.sub_0_r in E.
    assert (P : 0 <= 2 ^ n) by (apply Z.pow_nonneg; lia).
    destruct (Z.ltb_spec (2 ^ n) 0); [lia|].
    match type of E with (bind ?m _) = _ => destruct m as [s0|] eqn:E0; [|discriminate] end. cbn [bind] in E.
    destruct (gen_edit_indices groups (n - 1)) as [edits|] eqn:Ee; [|discriminate]. cbn [bind] in E.
    match type of E with (bind ?m _) = _ => destruct m as [s1|] eqn:E1; [|discriminate] end. cbn [bind] in E. injection E as <-. cbn [bk_state].
    exists s0, edits. split; [exact E0|]. split; [exact Ee|].
    apply (edits_possible feeds (2 ^ n)); [| |exact E1].
    - destruct (zlen feeds =? 0) in E0; [|injection E0 as <-; rewrite zlen_map, zlen_zrange; lia].
      rewrite pyset_ok in E0 by (rewrite zlen_map, zlen_zrange; try lia; pose proof (Z.pow_pos_nonneg 2 n); lia). injection E0 as <-.
      rewrite zlen_upd, zlen_map, zlen_zrange; lia.
    - intros i fl Hin. destruct groups as [|g groups]; [cbn in Ee; injection Ee as <-; destruct Hin|].
      rewrite gen_edit_ok in Ee by (auto; discriminate). injection Ee as <-. apply in_map_iff in Hin as (k & Ek & _). injection Ek as <- _.
      apply setreg_range; auto.
  Qed.
End Possible.

Lemma double_run n fs' fs is ops rs st V' d V : 0 <= n <= 40 ->
  (forall mats, In (IGate mats) is -> length mats = 1%nat /\ (width mats <= 2)%nat) ->
  same_registers fs' fs -> feeds_ok n fs -> (forall g a, In (g, a) fs -> total a = 1%R) -> Forall2 (stands_for (/ 2 ^ 49) n) is ops ->
  fmake_state (/ 2 ^ 53) (/ 2 ^ 969) n (fed_groups fs') (fed_list fs') st -> frun (/ 2 ^ 53) (/ 2 ^ 969) n ops st rs V' ->
  ideal (fun _ => (/ 2 ^ 45)%R) (fun _ => (IZR (2 ^ n) / 2 ^ 47)%R) (fun P => (/ 2 ^ 800 <= P)%R) n is rs
    (start_error (/ 2 ^ 53) (/ 2 ^ 969) n fs' fs) (meant n fs) d V ->
  (dist n V' V <= d)%R /\ norm2 n V = 1%R /\ zlen V' = 2 ^ n.
Proof.
  intros Hn HG HS HF H1 HO HM HR HI.
  assert (P : forall k, (0 < / 2 ^ k)%R) by (intros; apply Rinv_0_lt_compat, pow_lt; lra).
  refine (whole_run (/ 2 ^ 53) (/ 2 ^ 969) (/ 2 ^ 49) _ _ _ n fs' fs is ops rs st V' d V _ _ _ _ _ _ HS HF H1 HO HM HR HI).
  - split; [apply Rlt_le, P|]. replace (1 / 4)%R with (/ 2 ^ 2)%R by lra. apply Rinv_le_contravar; [apply pow_lt; lra|apply Rle_pow; [lra|lia]].
  - split; [apply Rlt_le, P|]. replace (1 / 2)%R with (/ 2 ^ 1)%R by lra. apply Rinv_le_contravar; [apply pow_lt; lra|apply Rle_pow; [lra|lia]].
  - apply Rlt_le, P.
  - lia.
  - intros p Hp H8. apply (collapse_double n Hn p). lra.
  - intros mats Hm. destruct (HG mats Hm) as [L W]. apply step_error_double; auto. lia.
Qed.

Lemma next_measured u w n indices rand (v v' : list CR) m p d : (0 <= u)%R -> (0 <= w)%R -> 0 <= n -> qubits_ok n indices ->
  (0 <= rand <= 1)%R -> zlen v' = 2 ^ n -> norm2 n v = 1%R -> (dist n v' v <= d)%R -> fsoft_measure u w rand indices n v' 0 (m, p) ->
  let P := marginal n (measured_order n indices) (amp_at 0 v) m in
  drawn n indices v rand m p (2 * (2 + d) * d + draw_error u w n (zlen indices) ((1 + d) * (1 + d)))%R
    ((2 + d) * d + prob_error u w n (P + (2 + d) * d))%R.
Proof.
  intros Hu Hw Hn HI Hr Hv H1 HD HF P.
  destruct (draw_near u w Hu Hw n indices Hn HI rand v v' m p d Hr Hv H1 HD HF) as [A B].
  split; [exact A|]. split; [exact B|]. exact (prob_near u w n indices rand v v' m p d Hu Hw Hn HI Hr Hv H1 HD HF).
Qed.

(** ** what the operations of a run report *)
Lemma frun_app u w n ops1 : forall ops2 rs1 rs2 v V, length ops1 = length rs1 -> frun u w n (ops1 ++ ops2) v (rs1 ++ rs2) V ->
  exists W, frun u w n ops1 v rs1 W /\ frun u w n ops2 W rs2 V.
Proof.
  induction ops1 as [|o ops1 IH]; intros ops2 [|r rs1] rs2 v V HL H; try discriminate.
  - exists v. split; [constructor|exact H].
  - inversion H as [|o' ops' v0 r' W rs' V0 Hst HR]; subst. destruct (IH ops2 rs1 rs2 W V ltac:(cbn in HL; lia) HR) as (X & H1 & H2).
    exists X. split; [econstructor; eassumption|exact H2].
Qed.
Lemma run_reports u w delta n fs' fs is1 i is2 ops1 o ops2 rs1 r rs2 st V' d V : (0 <= u <= 1 / 4)%R -> (0 <= w <= 1 / 2)%R -> (0 <= delta)%R -> 0 <= n ->
  same_registers fs' fs -> feeds_ok n fs -> (forall g a, In (g, a) fs -> total a = 1%R) ->
  Forall2 (stands_for delta n) is1 ops1 -> Forall2 (stands_for delta n) (i :: is2) (o :: ops2) -> length ops1 = length rs1 ->
  fmake_state u w n (fed_groups fs') (fed_list fs') st -> frun u w n (ops1 ++ o :: ops2) st (rs1 ++ r :: rs2) V' ->
  ideal (step_error u w delta n) (collapse_error u w n) (fun P => (4 * prob_error u w n (P / 2) <= P)%R) n is1 rs1
    (start_error u w n fs' fs) (meant n fs) d V ->
  reported u w n V d o r.
Proof.
  intros Hu Hw Hd Hn HS HF H1 HO1 HO2 HL HM HR HI. destruct (frun_app u w n ops1 (o :: ops2) rs1 (r :: rs2) st V' HL HR) as (W & R1 & R2).
  destruct (whole_run u w delta _ _ _ n fs' fs is1 ops1 rs1 st W d V Hu Hw Hd Hn (fun _ _ H => conj H (Rle_refl _)) (fun _ _ => Rle_refl _)
    HS HF H1 HO1 HM R1 HI) as (HD & HV & LW).
  inversion HO2 as [|i' o' is' ops' Hio _]; subst. inversion R2 as [|o' ops' v0 r' W' rs' V0 Hst _]; subst.
  destruct Hst as [mats v X HK|m sched reg1 reg2 func v arena b Ha Hb|rand indices v m p X HMe|indices v ps HP]; cbn [reported]; auto.
  - destruct i; cbn [stands_for] in Hio; try contradiction. destruct Hio as (-> & HQ & Hr).
    destruct HMe as [HSo _]. exact (next_measured u w n indices0 rand V v m p d ltac:(lra) ltac:(lra) Hn HQ Hr LW HV HD HSo).
  - destruct i; cbn [stands_for] in Hio; try contradiction. destruct Hio as (-> & HQ). split; [apply HP|]. intros m Hm.
    refine (Rle_trans _ _ _ (probabilities_close u w ltac:(lra) ltac:(lra) n indices0 V v ps m Hn HQ LW HV HP Hm) _).
    assert (0 <= dist n v V)%R by (rewrite dist_vnorm; apply vnorm_pos).
    apply Rplus_le_compat; [apply Rmult_le_compat; lra|]. apply Rmult_le_compat_l.
    + assert (1 <= (1 + u) ^ (5 + 2 ^ Z.to_nat n))%R by (apply pow_R1_Rle; lra). lra.
    + apply Rplus_le_compat_r. apply pow_incr. lra.
Qed.

(** ** an example: one of two qubits is fed (h, h), a controlled not, and the other qubit is measured *)
Definition exr_feed (h : R) : list fed := [([0], [(h, 0); (h, 0)]%R)].
Definition exr_cn : mats_arg R := [(KTuple [0; 1], MC not_mat)].
Definition exr_h : R := (6369051672525773 / 9007199254740992)%R.
Lemma exr_start h : meant 2 (exr_feed h) = [(h, 0); (0, 0); (h, 0); (0, 0)]%R.
Proof. cbv -[Rplus Rmult Ropp Rminus IZR R]. repeat match goal with |- _ :: _ = _ => f_equal | |- (_, _) = _ => f_equal end; ring. Qed.
Lemma exr_gate h : kron_result 2 exr_cn [(h, 0); (0, 0); (h, 0); (0, 0)]%R 0 0 4 = [(h, 0); (0, 0); (0, 0); (h, 0)]%R.
Proof. cbv -[Rplus Rmult Ropp Rminus IZR R]. repeat match goal with |- _ :: _ = _ => f_equal | |- (_, _) = _ => f_equal end; ring. Qed.
Lemma exr_marg h m : 0 <= m < 2 -> marginal 2 (measured_order 2 [1]) (amp_at 0 [(h, 0); (0, 0); (0, 0); (h, 0)]%R) m = (h * h)%R.
Proof. intros H. assert (m = 0 \/ m = 1) as [-> | ->] by lia; cbv -[Rplus Rmult Ropp Rminus IZR R]; ring. Qed.
Lemma exr_ok h : feeds_ok 2 (exr_feed h).
Proof. split; [split; [repeat constructor; cbn; tauto|cbn; intros; lia]|]. intros g a [E|[]]. injection E as <- <-. reflexivity. Qed.
Lemma exr_accepts : accepts 2 exr_cn.
Proof.
  apply (op_accepts 2 (OC ONot) [[0]; [1]]);
    [lia|exists 0, [[1]]; split; [reflexivity|discriminate]|split; [repeat constructor; cbn; lia|cbn; intros; lia]|reflexivity].
Qed.
Lemma exr_close : (Rabs (exr_h - 1 / sqrt 2) <= / 2 ^ 49)%R.
Proof.
  assert (H2 : (0 < sqrt 2)%R) by (apply sqrt_lt_R0; lra). pose proof (sqrt_sqrt 2 ltac:(lra)) as E2.
  assert (E : (1 / sqrt 2 = sqrt 2 / 2)%R) by (apply Rmult_eq_reg_r with (sqrt 2); [field_simplify; lra|lra]).
  rewrite E. unfold exr_h. assert (L1 : (sqrt 2 <= 2 * (6369051672525773 / 9007199254740992) + / 2 ^ 49)%R) by (apply sq_le; lra).
  assert (L2 : (2 * (6369051672525773 / 9007199254740992) - / 2 ^ 49 <= sqrt 2)%R) by (apply sq_le; lra).
  apply Rabs_le. lra.
Qed.
Lemma exr_half : (1 / sqrt 2 * (1 / sqrt 2) = 1 / 2)%R.
Proof.
  assert (H2 : (0 < sqrt 2)%R) by (apply sqrt_lt_R0; lra). pose proof (sqrt_sqrt 2 ltac:(lra)) as E2.
  replace (1 / sqrt 2 * (1 / sqrt 2))%R with (1 / (sqrt 2 * sqrt 2))%R by (field; lra). rewrite E2. reflexivity.
Qed.
Lemma exr_error : (start_error (/ 2 ^ 53) (/ 2 ^ 969) 2 (exr_feed exr_h) (exr_feed (1 / sqrt 2)) <= / 2 ^ 47)%R.
Proof.
  unfold start_error, exr_feed, feed_error. cbn [combine prod fst snd length]. set (h := (1 / sqrt 2)%R).
  pose proof exr_close as HC. fold h in HC. set (e := Rabs (exr_h - h)) in *.
  assert (ED : reg_dist [(exr_h, 0); (exr_h, 0)]%R [(h, 0); (h, 0)]%R = sqrt (2 * (e * e))).
  { unfold reg_dist. f_equal. transitivity (2 * ((exr_h - h) * (exr_h - h)))%R; [cbv -[Rplus Rmult Ropp Rminus IZR R exr_h h]; ring|].
    unfold e. rewrite <- Rabs_mult, Rabs_pos_eq by apply Rle_0_sqr. reflexivity. }
  assert (He : (0 <= e)%R) by apply Rabs_pos.
  assert (SD : (0 <= sqrt (2 * (e * e)) <= 2 * e)%R).
  { split; [apply sqrt_pos|]. apply sq_le; [lra|]. rewrite sqrt_sqrt by nra. nra. }
  match goal with |- (?x * _ - 1 <= _)%R => replace x with (1 + sqrt (2 * (e * e)))%R by (rewrite <- ED; cbv -[Rplus Rmult Ropp Rminus IZR R reg_dist exr_h h]; ring) end.
  set (s := sqrt (2 * (e * e))) in *. clear ED.
  assert (HS : (0 <= s <= 2 * / 2 ^ 49)%R) by lra. clearbody s. clear - HS.
  change (2 * 1)%nat with 2%nat. cbn [INR]. change (IZR (2 ^ 2)) with 4%R.
  assert (Hw : (0 <= / 2 ^ 969 <= / 2 ^ 10)%R).
  { split; [apply Rlt_le, Rinv_0_lt_compat, pow_lt; lra|]. apply Rinv_le_contravar; [apply pow_lt; lra|apply Rle_pow; [lra|lia]]. }
  set (w := (/ 2 ^ 969)%R) in *. clearbody w. rewrite pow_1.
  assert (HF : (0 <= ((1 + / 2 ^ 53) ^ 2 - 1) * (3 / 2) * (1 + 4 * w * 1 * 4) <= / 2 ^ 50)%R).
  { assert (A : (0 <= (1 + / 2 ^ 53) ^ 2 - 1 <= 3 * / 2 ^ 53)%R) by (cbn; lra). set (q := ((1 + / 2 ^ 53) ^ 2 - 1)%R) in *. clearbody q.
    assert (B : (1 <= 1 + 4 * w * 1 * 4 <= 1 + / 64)%R) by lra. set (r := (1 + 4 * w * 1 * 4)%R) in *. clearbody r.
    split; [apply Rmult_le_pos; lra|]. apply Rle_trans with (3 * / 2 ^ 53 * (3 / 2) * (1 + / 64))%R; [apply Rmult_le_compat; lra|lra]. }
  set (f := (((1 + / 2 ^ 53) ^ 2 - 1) * (3 / 2) * (1 + 4 * w * 1 * 4))%R) in *. clearbody f. nra.
Qed.

Lemma exr_run : exists m p st V' d V,
  fmake_state (/ 2 ^ 53) (/ 2 ^ 969) 2 (fed_groups (exr_feed exr_h)) (fed_list (exr_feed exr_h)) st /\
  frun (/ 2 ^ 53) (/ 2 ^ 969) 2 [FGate exr_cn; FMeasure (1 / 2) [1]] st [RNone; RMeasured m p] V' /\
  ideal (fun _ => (/ 2 ^ 45)%R) (fun _ => (IZR (2 ^ 2) / 2 ^ 47)%R) (fun P => (/ 2 ^ 800 <= P)%R) 2 [IGate exr_cn; IMeasure [1]] [RNone; RMeasured m p]
    (start_error (/ 2 ^ 53) (/ 2 ^ 969) 2 (exr_feed exr_h) (exr_feed (1 / sqrt 2))) (meant 2 (exr_feed (1 / sqrt 2))) d V /\ (d <= / 2 ^ 40)%R.
Proof.
  set (h := (1 / sqrt 2)%R). pose proof exr_close as HC. fold h in HC. pose proof exr_half as Hh. fold h in Hh.
  set (st := [(exr_h, 0); (0, 0); (exr_h, 0); (0, 0)]%R : list CR). set (W' := [(exr_h, 0); (0, 0); (0, 0); (exr_h, 0)]%R : list CR).
  set (W := [(h, 0); (0, 0); (0, 0); (h, 0)]%R : list CR).
  assert (HQ : qubits_ok 2 [1]) by (split; [repeat constructor; cbn; tauto|cbn; intros; lia]).
  assert (SW : slice_ok 2 0 W') by (split; [lia|vm_compute; discriminate]).
  destruct (soft_free (K := R) 2 [1] 0 W' ltac:(lia) HQ SW (1 / 2)%R 0%R) as (m & Hm & E & _ & _).
  change (2 ^ zlen [1]) with 2 in Hm. set (P := marginal 2 (measured_order 2 [1]) (amp_at 0 W') m) in *.
  assert (HP : P = (exr_h * exr_h)%R) by exact (exr_marg exr_h m Hm).
  assert (EM : measure (fun p => sqrt (1 / p)) (1 / 2)%R 0%R [1] 2 W' W' 0 0 None None
    = Ok ((m, P), measure_out (K := R) 2 [1] 0 0 W' W' m (sqrt (1 / P)))).
  { apply (measure_ok (K := R) 2 [1] ltac:(lia) HQ (fun p => sqrt (1 / p)) (1 / 2)%R 0%R 0 0 W' W' None None m P SW SW eq_refl eq_refl E Hm).
    intros Z0. change (P = 0%R) in Z0. rewrite HP in Z0. unfold exr_h in Z0. lra. }
  destruct exr_accepts as (A1 & A2 & A3).
  exists m, P, st, (measure_out (K := R) 2 [1] 0 0 W' W' m (sqrt (1 / P))). do 2 eexists. split; [|split; [|split]].
  - assert (EB : exists b, make_state (fun _ => 0%r) 2 (fed_groups (exr_feed exr_h)) (fed_list (exr_feed exr_h)) None None None None = Ok b /\ bk_state b = meant 2 (exr_feed exr_h)).
    { rewrite (make_state_fed_full (fun _ => 0%r) 2 (exr_feed exr_h) ltac:(lia) ltac:(discriminate) (exr_ok _)). eexists. split; reflexivity. }
    destruct EB as (b & EB & Es). unfold st. rewrite <- exr_start, <- Es. apply (start_possible _ _ ex_u ex_w (fun _ => 0%r) 2 _ _ b); auto; [lia|apply (exr_ok exr_h)].
  - apply fr_next with (W := W'); [|apply fr_next with (W := measure_out (K := R) 2 [1] 0 0 W' W' m (sqrt (1 / P))); [|constructor]].
    + apply fst_gate. unfold W'. rewrite <- exr_gate. change (2 ^ 2) with 4. apply fkron_exact; auto using ex_u, ex_w; try lia; vm_compute; discriminate.
    + apply fst_measure. exact (measure_possible _ _ _ 2 [1] W' W' _ _ ex_u ex_w ltac:(lia) HQ eq_refl eq_refl EM).
  - rewrite exr_start. fold h.
    apply id_gate with (W := W).
    + split; [reflexivity|]. destruct (proj2 (kron_accept_py exr_cn [(h, 0); (0, 0); (h, 0); (0, 0)]%R 2 W 0 0 ltac:(lia) ltac:(lia) ltac:(lia) A1)) as (X & EX);
        [repeat split; auto; vm_compute; discriminate|].
      exists W, Python. split; [reflexivity|]. split; [exact I|]. rewrite EX. f_equal.
      rewrite (kron_partial_correct exr_cn _ 2 W 0 0 Python X ltac:(lia) ltac:(lia) ltac:(lia) A1 I EX). apply exr_gate.
    + pose proof exr_error as EE. fold h in EE.
      assert (PM : marginal 2 (measured_order 2 [1]) (amp_at 0 W) m = (1 / 2)%R) by (rewrite <- Hh; exact (exr_marg h m Hm)).
      apply id_measure; [| | |apply id_nil]; rewrite PM; [lra|nra|].
      apply Rle_trans with (/ 2 ^ 1)%R; [apply Rinv_le_contravar; [apply pow_lt; lra|apply Rle_pow; [lra|lia]]|lra].
  - pose proof exr_error as EE. fold h in EE.
    assert (PM : marginal 2 (measured_order 2 [1]) (amp_at 0 W) m = (1 / 2)%R) by (rewrite <- Hh; exact (exr_marg h m Hm)).
    rewrite PM. set (s := start_error _ _ _ _ _) in *. clearbody s.
    assert (SQ : (1 / 2 <= sqrt (1 / 2))%R) by (apply sq_le; [apply sqrt_pos|rewrite sqrt_sqrt; lra]).
    change (IZR (2 ^ 2)) with 4%R.
    assert (HD : ((s + 1) * (1 + / 2 ^ 45) - 1 <= 2 * / 2 ^ 45)%R) by nra. set (t := ((s + 1) * (1 + / 2 ^ 45) - 1)%R) in *. clearbody t.
    apply Rle_trans with (2 * (2 * / 2 ^ 45) / (1 / 2) + 4 / 2 ^ 47)%R; [|lra]. apply Rplus_le_compat_r. unfold Rdiv.
    apply Rle_trans with (2 * (2 * / 2 ^ 45) * / sqrt (1 * / 2))%R.
    + apply Rmult_le_compat_r; [|lra]. apply Rlt_le, Rinv_0_lt_compat. unfold Rdiv in SQ. lra.
    + apply Rmult_le_compat_l; [lra|]. apply Rinv_le_contravar; unfold Rdiv in *; lra.
Qed.
