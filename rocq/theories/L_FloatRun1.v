(** Whole runs with rounding: the distance of the state. *)
From Coq Require Import Reals Lra.
From Verif Require Import Base BaseR S_Bits M_Bits L_Bits M_Kron S_Kron L_Kron L_Kron2 L_Kron3 L_Alg M_Ops S_Ops L_Ops1 L_Ops2 L_Ops3 L_Ops4 M_Feed M_Func S_Func L_Func2 L_Born M_Measure S_Measure L_Measure1 L_Measure2 M_Float S_Float L_Float1 L_Float2 L_Float3 L_Float4 L_Float5 L_Float6 L_Float7 L_Float8 M_FloatMeasure S_FloatMeasure L_FloatMeasure1 L_FloatMeasure2 L_FloatMeasure3 M_FloatRun S_FloatRun.
Local Open Scope Z_scope.

Lemma amp_at_0 (v : list CR) r : amp_at 0 v r = amp v r.
Proof. unfold amp_at, amp. rewrite Z.sub_0_r. reflexivity. Qed.

Lemma norm_vnorm n (v : list CR) : norm2 n v = 1%R <-> vnorm n (amp v) = 1%R.
Proof.
  rewrite norm2_vnorm. pose proof (vnorm_pos n (amp v)). split; intros E; [nra|rewrite E; ring].
Qed.

Lemma vnorm_reindex n reg1 reg2 f (v v' : Z -> CR) : 0 <= n -> qubits_ok n (reg1 ++ reg2) ->
  (forall x, 0 <= x < 2 ^ n -> v' (fxor n reg1 reg2 f x) = v x) -> vnorm n v' = vnorm n v.
Proof.
  intros Hn HQ H. apply Rsqr_inj; try apply vnorm_pos. unfold Rsqr. rewrite !vnorm_sq.
  exact (fxor_norm (K := R) n reg1 reg2 f v v' Hn HQ H).
Qed.

(** the state after a measurement has norm 1 *)
Lemma collapsed_norm n indices m v : 0 <= n ->
  (0 < marginal n (measured_order n indices) (amp_at 0 v) m)%R -> norm2 n (collapsed_state n indices m v) = 1%R.
Proof.
  intros Hn HP. apply norm_vnorm. set (mo := measured_order n indices) in *. set (P := marginal n mo (amp_at 0 v) m) in *.
  assert (Ps : (0 < sqrt P)%R) by (apply sqrt_lt_R0; auto).
  transitivity (vnorm n (fun r => proj n mo m (amp_at 0 v) r * creal (/ sqrt P)%R)%r).
  - apply vnorm_ext. intros r Hr. unfold amp, collapsed_state. rewrite znth_map_zrange by lia. rewrite Z.add_0_l. unfold collapsed, proj. fold mo P.
    destruct (_ =? m); [reflexivity|]. change ((0%R, 0%R) = (0 * / sqrt P - 0 * 0, 0 * 0 + 0 * / sqrt P)%R). f_equal; ring.
  - rewrite vnorm_scale, proj_vnorm. fold P. rewrite Rabs_pos_eq by (left; apply Rinv_0_lt_compat; auto). field. lra.
Qed.

Section Run.
  Notation F n mats := (fentry n (map ef (mats_groups mats))).
  Variables u w delta : R.
  Hypothesis Hu : (0 <= u <= 1 / 4)%R.
  Hypothesis Hw : (0 <= w <= 1 / 2)%R.
  Hypothesis Hd : (0 <= delta)%R.
  Variables (gate : mats_arg R -> R) (meas : R -> R) (fine : R -> Prop) (n : Z).
  Hypothesis Hn : 0 <= n.
  Hypothesis Hmeas : forall P, (0 < P <= 1)%R -> fine P -> (4 * prob_error u w n (P / 2) <= P)%R /\ (collapse_error u w n P <= meas P)%R.

  Lemma func_state m sched reg1 reg2 f func (v : list CR) arena b : qubits_ok n (reg1 ++ reg2) -> Permutation sched (zrange 0 (2 ^ zlen reg1)) ->
    (forall x, 0 <= x < 2 ^ zlen reg1 -> func x = Ok (f x)) -> zlen (others n reg1 reg2) = zlen reg2 \/ others n reg1 reg2 = [] /\ tame m ->
    zlen v = 2 ^ n -> zlen arena = 2 ^ n -> bk_func_apply m sched (mkBackend n v arena) reg1 reg2 func n 0 = Ok b ->
    zlen (bk_state b) = 2 ^ n /\ forall x, 0 <= x < 2 ^ n -> amp (bk_state b) (fxor n reg1 reg2 f x) = amp v x.
  Proof.
    intros HQ HP HF HO Hv Ha E. assert (FB : full_backend (mkBackend n v arena)) by (repeat split; auto).
    assert (HX : exists b', bk_func_apply m sched (mkBackend n v arena) reg1 reg2 func n 0 = Ok b' /\ full_backend b' /\ bk_n b' = n /\
      (forall x, 0 <= x < 2 ^ n -> amp_at 0 (bk_state b') (fxor n reg1 reg2 f x) = amp_at 0 v x) /\ tprob (bk_state b') = tprob v).
    { destruct HO as [HO|[HO HT]].
      - exact (bk_func_ok m sched (mkBackend n v arena) reg1 reg2 f func n 0 FB HQ (or_introl HO) HP HF).
      - exact (bk_func_all m sched (mkBackend n v arena) reg1 reg2 f func n 0 FB HQ HO HT HP HF). }
    destruct HX as (b' & E' & (_ & L & _) & En & HA & _). rewrite E in E'. injection E' as <-. rewrite En in L. split; [exact L|].
    intros x Hx. rewrite <- !amp_at_0. auto.
  Qed.

  Lemma run_near : forall is rs d v d' V, ideal gate meas fine n is rs d v d' V -> forall ops v' V',
    Forall2 (stands_for delta n) is ops -> (forall mats, In (IGate mats) is -> (step_error u w delta n mats <= gate mats)%R) ->
    frun u w n ops v' rs V' -> zlen v' = 2 ^ n -> norm2 n v = 1%R -> (dist n v' v <= d)%R ->
    (dist n V' V <= d')%R /\ norm2 n V = 1%R /\ zlen V' = 2 ^ n.
  Proof.
    induction 1 as [d v|mats l rs d v W d' V HA HI IH|reg1 reg2 f l rs d v W d' V LW HW HI IH|indices m p l rs d v d' V P HP H8 HF HI IH|indices ps l rs d v d' V HI IH];
      intros ops v' V' HS HG HR Hv H1 HD; inversion HS as [|i o is' ops' Hio HS']; subst; inversion HR as [|o' ops'' v0 r W' rs' V0 Hst HR']; subst.
    - auto.
    - inversion Hst; subst; cbn [stands_for] in Hio; try contradiction. destruct Hio as (HU & HW' & HN).
      pose proof (step_distance u w delta ltac:(lra) ltac:(lra) Hd n mats mats0 v v' W W' Hn HU HW' HN Hv H1 HA H) as D.
      destruct (step_facts n mats Hn HU) as (HWm & _ & HIs).
      assert (N1 : norm2 n W = 1%R).
      { destruct (applied_spec n mats v W Hn HWm HA) as (_ & _ & EV). rewrite norm2_vnorm.
        rewrite (vnorm_ext n (amp W) (mapply n (F n mats) (amp v))) by exact EV.
        rewrite (isometry_vnorm n (F n mats)) by exact HIs. rewrite <- norm2_vnorm. exact H1. }
      assert (LW : zlen W' = 2 ^ n) by (apply (fkron_inv u w n mats0 v' (2 ^ n) 0 0 W' Hn HW' H)).
      apply (IH ops' W' V'); auto; [intros; apply HG; right; auto|].
      pose proof (HG mats (or_introl eq_refl)) as G. pose proof (step_error_pos u w delta ltac:(lra) ltac:(lra) Hd n mats Hn) as SP.
      assert (0 <= dist n v' v)%R by (rewrite dist_vnorm; apply vnorm_pos).
      assert ((dist n v' v + 1) * (1 + step_error u w delta n mats) <= (d + 1) * (1 + gate mats))%R by (apply Rmult_le_compat; lra).
      lra.
    - inversion Hst; subst; cbn [stands_for] in Hio; try contradiction. destruct Hio as (-> & -> & HQ & HPm & HFn & HO).
      destruct (func_state m sched reg1 reg2 f func v' arena b HQ HPm HFn HO Hv H H0) as [LW' HW'].
      apply (IH ops' (bk_state b) V'); auto; [intros; apply HG; right; auto| |].
      + apply norm_vnorm. apply norm_vnorm in H1. rewrite <- H1. apply (vnorm_reindex n reg1 reg2 f); auto.
      + rewrite dist_vnorm in *. rewrite (vnorm_reindex n reg1 reg2 f (fun r => amp v' r - amp v r)%r); auto.
        intros x Hx. rewrite HW', HW by auto. reflexivity.
    - inversion Hst; subst; cbn [stands_for] in Hio; try contradiction. destruct Hio as (-> & HQ & Hr).
      assert (E1 : vnorm n (amp_at 0 v) = 1%R) by (transitivity (vnorm n (amp v)); [apply vnorm_ext; intros; apply amp_at_0|apply norm_vnorm, H1]).
      assert (HP1 : (P <= 1)%R).
      { pose proof (marginal_le n (measured_order n indices) (amp_at 0 v) m) as M. rewrite E1, Rmult_1_r in M. exact M. }
      destruct (Hmeas P (conj HP HP1) HF) as [M1 M2].
      assert (D0 : (0 <= dist n v' v)%R) by (rewrite dist_vnorm; apply vnorm_pos).
      destruct (collapse_near u w Hu Hw n indices Hn HQ rand v v' (m, p) W' Hr Hv H1 ltac:(match goal with X : fmeasure _ _ _ _ _ _ _ _ |- _ => exact X end) HP ltac:(cbn [fst]; fold P; lra) M1) as [LW D].
      cbn [fst] in D. fold P in D.
      apply (IH ops' W' V'); auto; [intros; apply HG; right; auto|apply collapsed_norm; auto|].
      eapply Rle_trans; [exact D|]. apply Rplus_le_compat; [|exact M2].
      unfold Rdiv. apply Rmult_le_compat_r; [left; apply Rinv_0_lt_compat, sqrt_lt_R0; auto|lra].
    - inversion Hst; subst; cbn [stands_for] in Hio; try contradiction. apply (IH ops' W' V'); auto. intros; apply HG; right; auto.
  Qed.
End Run.

(** ** draws *)
Lemma below_sum {K} {OK : OrdRing K} n g (f : Z -> Cx K) m : 0 <= m ->
  below n g f m = sum (zrange 0 (2 ^ n)) (fun x => if reg n g x <? m then cnorm2 (f x) else 0%r).
Proof.
  intros Hm. unfold below, marginal. rewrite sum_swap. apply sum_ext. intros x _. pose proof (reg_range n g x).
  destruct (Z.ltb_spec (reg n g x) m).
  - rewrite (sum_single _ (reg n g x)).
    + rewrite Z.eqb_refl. reflexivity.
    + apply zrange_nodup.
    + apply in_zrange. lia.
    + intros v _ Hv. destruct (Z.eqb_spec (reg n g x) v); congruence.
  - apply sum_zero. intros v Hv. apply in_zrange in Hv. destruct (Z.eqb_spec (reg n g x) v); [lia|reflexivity].
Qed.
Lemma sumR_sub {I} (l : list I) (f g : I -> R) : (sum l f - sum l g)%R = sum l (fun i => (f i - g i)%R).
Proof. induction l as [|i l IH]; [rewrite !sumR_nil; ring|]. rewrite !sumR_cons, <- IH. ring. Qed.
Lemma weights_dist n (c : Z -> bool) (f h : Z -> CR) :
  (Rabs (sum (zrange 0 (2 ^ n)) (fun x => if c x then cnorm2 (f x) else 0%R) - sum (zrange 0 (2 ^ n)) (fun x => if c x then cnorm2 (h x) else 0%R))
   <= vnorm n (fun r => (f r - h r)%r) * (vnorm n f + vnorm n h))%R.
Proof.
  rewrite sumR_sub. eapply Rle_trans; [apply sum_Rabs|].
  apply Rle_trans with (sum (zrange 0 (2 ^ n)) (fun x => (cnorm (f x - h x)%r * (cnorm (f x) + cnorm (h x)))%R)).
  { apply sumR_le. intros x _. destruct (c x); [apply cnorm2_diff|]. rewrite Rminus_0_r, Rabs_R0.
    pose proof (cnorm_pos (f x - h x)%r). pose proof (cnorm_pos (f x)). pose proof (cnorm_pos (h x)). nra. }
  eapply Rle_trans; [apply cauchy|]. apply Rmult_le_compat_l; [apply vnorm_pos|]. apply l2_add.
Qed.

Section Draw.
  Variables u w : R.
  Hypotheses (Hu : (0 <= u)%R) (Hw : (0 <= w)%R).
  Variables (n : Z) (indices : list Z).
  Hypotheses (Hn : 0 <= n) (HI : qubits_ok n indices).
  Let g := measured_order n indices.

  (** measuring a state at a distance of the exact one *)
  Lemma draw_near rand (v v' : list CR) m p d : (0 <= rand <= 1)%R -> zlen v' = 2 ^ n -> norm2 n v = 1%R -> (dist n v' v <= d)%R ->
    fsoft_measure u w rand indices n v' 0 (m, p) ->
    let E := (2 * (2 + d) * d + draw_error u w n (zlen indices) ((1 + d) * (1 + d)))%R in
    0 <= m < 2 ^ zlen indices /\ (below n g (amp_at 0 v) m - E <= rand <= below n g (amp_at 0 v) (m + 1) + E)%R.
  Proof.
    intros Hr Hv H1 HD HF E. assert (SL : slice_ok n 0 v') by (split; lia).
    destruct (soft_err u w Hu Hw n indices 0 v' Hn HI SL rand (m, p) Hr HF) as (Hm & _ & HB & _). cbn [fst] in *. split; [exact Hm|].
    assert (D0 : (0 <= dist n v' v)%R) by (rewrite dist_vnorm; apply vnorm_pos).
    assert (E1 : vnorm n (amp_at 0 v) = 1%R) by (transitivity (vnorm n (amp v)); [apply vnorm_ext; intros; apply amp_at_0|apply norm_vnorm, H1]).
    assert (ED : vnorm n (fun r => amp_at 0 v' r - amp_at 0 v r)%r = dist n v' v) by (rewrite dist_vnorm; apply vnorm_ext; intros; rewrite !amp_at_0; reflexivity).
    assert (T3 : (vnorm n (amp_at 0 v') <= dist n v' v + 1)%R) by (rewrite <- ED, <- E1; apply vnorm_tri).
    pose proof (vnorm_pos n (amp_at 0 v')) as T0.
    assert (Q : (vnorm n (fun r => amp_at 0 v' r - amp_at 0 v r)%r * (vnorm n (amp_at 0 v') + vnorm n (amp_at 0 v)) <= (2 + d) * d)%R).
    { rewrite ED, E1, (Rmult_comm (2 + d)). apply Rmult_le_compat; lra. }
    assert (B : forall k, 0 <= k -> (Rabs (below n g (amp_at 0 v') k - below n g (amp_at 0 v) k) <= (2 + d) * d)%R).
    { intros k Hk. rewrite (below_sum (K := R) n g (amp_at 0 v') k Hk), (below_sum (K := R) n g (amp_at 0 v) k Hk).
      eapply Rle_trans; [exact (weights_dist n (fun x => reg n g x <? k) (amp_at 0 v') (amp_at 0 v))|exact Q]. }
    assert (T : (Rabs (tprob v' - 1) <= (2 + d) * d)%R).
    { eapply Rle_trans; [|exact Q]. pose proof (weights_dist n (fun _ => true) (amp_at 0 v') (amp_at 0 v)) as W. cbv beta iota in W.
      rewrite <- !vnorm_sq, E1 in W. rewrite <- (tprob_slice (K := R) n 0 v' Hn SL).
      assert (EV : (vnorm n (amp_at 0 v') * vnorm n (amp_at 0 v') = sum (zrange 0 (2 ^ n)) (fun x => cnorm2 (amp_at 0 v' x)))%R) by apply vnorm_sq.
      rewrite EV in W. rewrite Rmult_1_r in W. rewrite E1. exact W. }
    apply Rabs_le_inv in T.
    assert (TT : (0 <= tprob v' <= (1 + d) * (1 + d))%R).
    { split; [unfold tprob; apply sumR_pos; intros; apply cnorm2_pos|lra]. }
    assert (DE : (draw_error u w n (zlen indices) (tprob v') <= draw_error u w n (zlen indices) ((1 + d) * (1 + d)))%R).
    { unfold draw_error. cbv zeta. apply Rmult_le_compat_l; [|lra].
      pose proof (pow1_ge u (2 * 2 ^ Z.to_nat n + 2 ^ Z.to_nat (zlen indices) + 11) Hu). lra. }
    pose proof (B m ltac:(lia)) as B1. pose proof (B (m + 1) ltac:(lia)) as B2. apply Rabs_le_inv in B1, B2.
    assert (RT : (rand - (2 + d) * d <= rand * tprob v' <= rand + (2 + d) * d)%R).
    { assert (X : (0 <= (2 + d) * d)%R) by (apply Rmult_le_pos; lra). split; nra. }
    fold g in HB. unfold E. destruct HB as [HB1 HB2]. split; lra.
  Qed.
End Draw.
