(** Rounding errors: probabilities; arithmetic on doubles. *)
From Coq Require Import Reals Lra.
From Verif Require Import Base BaseR S_Bits M_Bits L_Bits M_Kron S_Kron L_Kron M_Ops S_Ops M_Feed M_Measure S_Measure L_Measure5 M_Float S_Float L_Float1 L_Float2 L_Float3 L_Float4 L_Float5.
Local Open Scope Z_scope.

Section Probabilities.
  Variables u w : R.
  Hypothesis Hu : (0 <= u)%R.
  Hypothesis Hw : (0 <= w)%R.

  Lemma fprobs_close n indices vec ps m :
    0 <= n -> qubits_ok n indices -> zlen vec = 2 ^ n -> fprobs u w indices n vec ps -> 0 <= m < 2 ^ zlen indices ->
    (Rabs (znth 0 ps m - marginal n (rev indices) (amp_at 0 vec) m)
     <= ((1 + u) ^ (5 + 2 ^ Z.to_nat n) - 1) * (marginal n (rev indices) (amp_at 0 vec) m + 2 * w * IZR (2 ^ n)))%R.
  Proof.
    intros Hn HQ HV (HL & p & t & Ht & Hs) Hm. specialize (Hs m Hm).
    set (used := filter (fun i => (p i =? m) && negb (cx_is0 (znth 0%r vec i))) (zrange 0 (2 ^ n))) in *.
    assert (HA : forall i, In i used -> approx (A := R) Rabs ((1 + u) ^ 5) (cnorm2 (amp_at 0 vec i) + w) (t i) (cnorm2 (amp_at 0 vec i))).
    { intros i Hi. apply filter_In in Hi as [Hi Hp]. apply in_zrange in Hi. apply andb_true_iff in Hp as [_ Hz].
      destruct (Ht i Hi) as (_ & x & Ex & Hx). rewrite (cget_ok 0%r) in Ex by lia. injection Ex as <-.
      assert (EA : amp_at 0 vec i = znth 0%r vec i) by (unfold amp_at; rewrite Z.sub_0_r; reflexivity). rewrite EA.
      specialize (Hx (proj1 (negb_true_iff _) Hz)). pose proof (cnorm2_pos (znth 0%r vec i)).
      split; [rewrite Rabs_pos_eq; lra|exact Hx]. }
    assert (H5 : (1 <= (1 + u) ^ 5)%R) by (apply pow1_ge; auto).
    pose proof (fsum_approx (A := R) Rabs Rabs_R0 Rabs_pos Rabs_triang u w Hu Hw (fun a b v => rounds u w (a + b) v) 1 ltac:(lra)
      ltac:(intros a b v Hv; rewrite Rmult_1_l; exact Hv) _ _ t _ used _ H5 HA Hs) as HF.
    assert (EM : sum used (fun i => cnorm2 (amp_at 0 vec i)) = marginal n (rev indices) (amp_at 0 vec) m).
    { unfold marginal, used. rewrite sum_filter. apply sum_ext. intros i Hi. apply in_zrange in Hi.
      destruct (Ht i Hi) as (Ep & _). rewrite p_index_ok in Ep by auto. injection Ep as <-.
      destruct (reg n (rev indices) i =? m); [|reflexivity]. cbn [andb].
      destruct (cx_is0 (znth 0%r vec i)) eqn:Z0; [|reflexivity]. cbn [negb].
      assert (Z1 : amp_at 0 vec i = (0, 0)%R).
      { unfold amp_at. rewrite Z.sub_0_r. exact (proj1 (cx_is0_spec _) Z0). }
      rewrite Z1, cnorm2_R. cbn [fst snd]. change (@rO R (@or_ring R ROrdRing)) with 0%R. change (@rO R RCRing) with 0%R. lra. }
    rewrite EM in HF.
    assert (E2n : INR (length (zrange 0 (2 ^ n))) = IZR (2 ^ n)).
    { rewrite length_zrange, Z.sub_0_r, INR_IZR_INZ, Z2Nat.id; auto. apply Z.pow_nonneg; lia. }
    assert (Lu : (length used <= length (zrange 0 (2 ^ n)))%nat).
    { unfold used. clear. induction (zrange 0 (2 ^ n)) as [|i l IH]; cbn; [lia|]. destruct (_ && _); cbn; lia. }
    assert (El : length (zrange 0 (2 ^ n)) = (2 ^ Z.to_nat n)%nat).
    { rewrite length_zrange, Z.sub_0_r. rewrite <- (Z2Nat.id n) at 1 by auto. apply pow2_nat. }
    eapply approx_mono in HF as [_ HF]; [exact HF|exact Rabs_pos| | | ].
    - pose proof (pow1_ge u (length used) Hu). nra.
    - rewrite pow_add. apply Rmult_le_compat_l; [lra|]. apply pow1_mono; auto. lia.
    - rewrite sumR_add, EM, sumR_const, <- E2n. apply le_INR in Lu. nra.
  Qed.

  (** probabilities of two states *)
  Lemma marginal_R n g (f : Z -> CR) m :
    marginal n g f m = sum (zrange 0 (2 ^ n)) (fun x => if reg n g x =? m then cnorm2 (f x) else 0%R).
  Proof. reflexivity. Qed.
  Lemma marginal_pos n g f m : (0 <= marginal n g f m)%R.
  Proof. unfold marginal. apply sumR_pos. intros x _. destruct (_ =? m); [apply cnorm2_pos|apply Rle_refl]. Qed.
  Lemma marginal_le n g f m : (marginal n g f m <= vnorm n f * vnorm n f)%R.
  Proof. rewrite vnorm_sq. unfold marginal. apply sumR_le. intros x _. destruct (_ =? m); [apply Rle_refl|apply cnorm2_pos]. Qed.
  Lemma cnorm_sub_sym a b : cnorm (a - b)%r = cnorm (b - a)%r.
  Proof.
    unfold cnorm. f_equal. rewrite !cnorm2_R. destruct a as [a a'], b as [b b'].
    change ((a - b) * (a - b) + (a' - b') * (a' - b') = (b - a) * (b - a) + (b' - a') * (b' - a'))%R. ring.
  Qed.
  Lemma cnorm_tri a b : (cnorm a <= cnorm (a - b)%r + cnorm b)%R.
  Proof.
    eapply Rle_trans; [|apply cnorm_add]. apply Req_le. f_equal. destruct a as [a a'], b as [b b'].
    change ((a, a') = (a - b + b, a' - b' + b')%R). f_equal; ring.
  Qed.
  Lemma cnorm2_diff a b : (Rabs (cnorm2 a - cnorm2 b) <= cnorm (a - b)%r * (cnorm a + cnorm b))%R.
  Proof.
    rewrite <- !cnorm_sq. pose proof (cnorm_tri a b) as T1. pose proof (cnorm_tri b a) as T2. rewrite (cnorm_sub_sym b a) in T2.
    pose proof (cnorm_pos a). pose proof (cnorm_pos b).
    replace (cnorm a * cnorm a - cnorm b * cnorm b)%R with ((cnorm a - cnorm b) * (cnorm a + cnorm b))%R by ring.
    rewrite Rabs_mult, (Rabs_pos_eq (cnorm a + cnorm b)) by lra. apply Rmult_le_compat_r; [lra|].
    apply Rabs_le. lra.
  Qed.
  Lemma sum_Rabs {I} (l : list I) (f : I -> R) : (Rabs (sum l f) <= sum l (fun i => Rabs (f i)))%R.
  Proof.
    induction l as [|i l IH]; [rewrite !sumR_nil, Rabs_R0; lra|]. rewrite !sumR_cons.
    eapply Rle_trans; [apply Rabs_triang|]. lra.
  Qed.
  Lemma marginal_dist n g f h m :
    (Rabs (marginal n g f m - marginal n g h m) <= vnorm n (fun r => (f r - h r)%r) * (vnorm n f + vnorm n h))%R.
  Proof.
    assert (E : (marginal n g f m - marginal n g h m)%R
      = sum (zrange 0 (2 ^ n)) (fun x => if reg n g x =? m then (cnorm2 (f x) - cnorm2 (h x))%R else 0%R)).
    { rewrite !marginal_R. set (l := zrange 0 (2 ^ n)). clearbody l. induction l as [|x l IH]; [rewrite !sumR_nil; ring|].
      rewrite !sumR_cons, <- IH. destruct (_ =? m); ring. }
    rewrite E. eapply Rle_trans; [apply sum_Rabs|].
    apply Rle_trans with (sum (zrange 0 (2 ^ n)) (fun x => (cnorm (f x - h x)%r * (cnorm (f x) + cnorm (h x)))%R)).
    { apply sumR_le. intros x _. destruct (_ =? m); [apply cnorm2_diff|]. rewrite Rabs_R0.
      pose proof (cnorm_pos (f x - h x)%r). pose proof (cnorm_pos (f x)). pose proof (cnorm_pos (h x)). nra. }
    eapply Rle_trans; [apply cauchy|]. apply Rmult_le_compat_l; [apply vnorm_pos|]. apply l2_add.
  Qed.

  Lemma probabilities_close n indices (v v' : list CR) ps m :
    0 <= n -> qubits_ok n indices -> zlen v' = 2 ^ n -> norm2 n v = 1%R -> fprobs u w indices n v' ps -> 0 <= m < 2 ^ zlen indices ->
    (Rabs (znth 0 ps m - marginal n (rev indices) (amp_at 0 v) m)
     <= (2 + dist n v' v) * dist n v' v
        + ((1 + u) ^ (5 + 2 ^ Z.to_nat n) - 1) * ((1 + dist n v' v) ^ 2 + 2 * w * IZR (2 ^ n)))%R.
  Proof.
    intros Hn HQ HV H1 HP Hm. pose proof (fprobs_close n indices v' ps m Hn HQ HV HP Hm) as D1.
    pose proof (marginal_dist n (rev indices) (amp_at 0 v') (amp_at 0 v) m) as D2.
    pose proof (marginal_le n (rev indices) (amp_at 0 v') m) as D3.
    assert (EA : forall x r, amp_at 0 x r = amp (K := R) x r) by (intros; unfold amp_at, amp; rewrite Z.sub_0_r; reflexivity).
    rewrite (vnorm_ext n (fun r => (amp_at 0 v' r - amp_at 0 v r)%r) (fun r => (amp v' r - amp v r)%r)) in D2 by (intros; rewrite !EA; reflexivity).
    rewrite <- dist_vnorm in D2.
    rewrite (vnorm_ext n (amp_at 0 v') (amp v')) in D2, D3 by (intros; apply EA).
    rewrite (vnorm_ext n (amp_at 0 v) (amp v)) in D2 by (intros; apply EA).
    assert (Ev : vnorm n (amp v) = 1%R).
    { pose proof (norm2_vnorm n v) as E. rewrite H1 in E. pose proof (vnorm_pos n (amp v)). nra. }
    rewrite Ev in D2. set (e := dist n v' v) in *. assert (He : (0 <= e)%R) by (unfold e; rewrite dist_vnorm; apply vnorm_pos).
    assert (T3 : (vnorm n (amp v') <= e + 1)%R).
    { rewrite <- Ev. unfold e. rewrite dist_vnorm. eapply Rle_trans; [|apply vnorm_add]. apply Req_le. apply vnorm_ext. intros r _.
      destruct (amp v' r) as [a a'], (amp v r) as [b b']. change ((a, a') = (a - b + b, a' - b' + b')%R). f_equal; ring. }
    pose proof (vnorm_pos n (amp v')) as Px. set (x := vnorm n (amp v')) in *.
    set (p' := marginal n (rev indices) (amp_at 0 v') m) in *. set (p0 := marginal n (rev indices) (amp_at 0 v) m) in *.
    assert (Hk : (1 <= (1 + u) ^ (5 + 2 ^ Z.to_nat n))%R) by (apply pow1_ge; auto).
    set (k := ((1 + u) ^ (5 + 2 ^ Z.to_nat n))%R) in *. set (c := (2 * w * IZR (2 ^ n))%R) in *.
    assert (L1 : ((k - 1) * (p' + c) <= (k - 1) * ((1 + e) ^ 2 + c))%R).
    { apply Rmult_le_compat_l; [lra|]. nra. }
    assert (L2 : (e * (x + 1) <= (2 + e) * e)%R) by nra.
    replace (znth 0 ps m - p0)%R with ((znth 0 ps m - p') + (p' - p0))%R by ring.
    eapply Rle_trans; [apply Rabs_triang|]. lra.
  Qed.
End Probabilities.

(** ** doubles, with Flocq *)
From Flocq Require Import Core Relative.
Lemma double_rounds rnd (x : R) :
  rounds (bpow radix2 (-53)) (bpow radix2 (-1022)) x (round radix2 (FLT_exp (-1074) 53) (Znearest rnd) x).
Proof.
  destruct (error_N_FLT radix2 (-1074) 53 ltac:(lia) rnd x) as (eps & eta & H1 & H2 & _ & E). unfold rounds. rewrite E.
  replace (x * (1 + eps) + eta - x)%R with (x * eps + eta)%R by ring.
  eapply Rle_trans; [apply Rabs_triang|]. rewrite Rabs_mult.
  assert (H1' : (Rabs eps <= bpow radix2 (-53))%R).
  { eapply Rle_trans; [exact H1|]. apply Req_le. change (/ 2)%R with (bpow radix2 (-1)). rewrite <- bpow_plus. reflexivity. }
  assert (H2' : (Rabs eta <= bpow radix2 (-53) * bpow radix2 (-1022))%R).
  { eapply Rle_trans; [exact H2|]. apply Req_le. change (/ 2)%R with (bpow radix2 (-1)). rewrite <- !bpow_plus. reflexivity. }
  pose proof (Rabs_pos x). pose proof (Rmult_le_compat_l _ _ _ H H1'). lra.
Qed.
(** ... and with results below 2^-1022 replaced by 0 *)
Lemma double_flush rnd (x v : R) :
  let r := round radix2 (FLT_exp (-1074) 53) (Znearest rnd) x in
  v = r \/ (Rabs r < bpow radix2 (-1022))%R /\ v = 0%R -> rounds (bpow radix2 (-53)) (bpow radix2 (-969)) x v.
Proof.
  intros r [-> | [Hr ->]].
  - pose proof (double_rounds rnd x) as H. unfold rounds in *. eapply Rle_trans; [exact H|].
    apply Rmult_le_compat_l; [apply bpow_ge_0|]. apply Rplus_le_compat_l. apply bpow_le. lia.
  - unfold rounds. replace (0 - x)%R with (- x)%R by ring. rewrite Rabs_Ropp.
    assert (Hx : (Rabs x <= bpow radix2 (-1022))%R).
    { destruct (Rle_dec (Rabs x) (bpow radix2 (-1022))) as [|Hn]; auto. exfalso. apply Rnot_le_lt in Hn.
      apply (Rlt_irrefl (bpow radix2 (-1022))). eapply Rle_lt_trans; [|exact Hr]. unfold r.
      apply abs_round_ge_generic; [apply FLT_exp_valid; unfold Prec_gt_0; lia|apply valid_rnd_N| |lra].
      apply generic_format_bpow. unfold FLT_exp. cbn. lia. }
    eapply Rle_trans; [exact Hx|]. replace (-1022)%Z with (-53 + -969)%Z by lia. rewrite bpow_plus.
    apply Rmult_le_compat_l; [apply bpow_ge_0|]. pose proof (Rabs_pos x). lra.
Qed.
