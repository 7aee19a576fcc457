(** Rounding errors: one operation, and a sequence of operations. *)
From Coq Require Import Reals Lra.
From Verif Require Import Base BaseR S_Bits M_Bits L_Bits M_Kron S_Kron L_Kron L_Kron2 L_Kron3 L_Alg M_Ops S_Ops L_Ops1 L_Ops2 L_Ops3 L_Ops4 M_Float S_Float L_Float1 L_Float2 L_Float3 L_Float4.
Local Open Scope Z_scope.

Section Norms.
  Add Ring CRing5 : (@rth CR _).
  Notation cols n mats r := (filter (agree_off n (touched mats) r) (zrange 0 (2 ^ n))).

  Lemma agree_sym n g r c : agree_off n g r c = agree_off n g c r.
  Proof. apply eq_true_iff_eq. rewrite !agree_off_spec. split; intros H q Hq Hg; symmetry; auto. Qed.
  Lemma sum_filter_const (p : Z -> bool) l (k : R) : sum l (fun r => if p r then k else 0%R) = (INR (length (filter p l)) * k)%R.
  Proof. rewrite <- sumR_const, (sum_filter p l (fun _ => k)). reflexivity. Qed.
  Lemma rows_total n mats (f : Z -> R) : 0 <= n -> groups_ok n (mats_groups mats) ->
    sum (zrange 0 (2 ^ n)) (fun r => sum (cols n mats r) f) = (INR (2 ^ width mats) * sum (zrange 0 (2 ^ n)) f)%R.
  Proof.
    intros Hn Hg.
    transitivity (sum (zrange 0 (2 ^ n)) (fun r => sum (zrange 0 (2 ^ n)) (fun c => if agree_off n (touched mats) c r then f c else 0%R))).
    { apply sum_ext. intros r _. rewrite sum_filter. apply sum_ext. intros c _. rewrite agree_sym. reflexivity. }
    rewrite sum_swap, <- sumR_scale. apply sum_ext. intros c _. rewrite sum_filter_const.
    rewrite columns_count by auto. reflexivity.
  Qed.
  Lemma rows_spread n mats (f : Z -> R) : 0 <= n -> groups_ok n (mats_groups mats) ->
    (l2 (zrange 0 (2 ^ n)) (fun r => sum (cols n mats r) f) <= INR (2 ^ width mats) * l2 (zrange 0 (2 ^ n)) f)%R.
  Proof.
    intros Hn Hg. pose proof (l2_pos (zrange 0 (2 ^ n)) f). pose proof (pos_INR (2 ^ width mats)).
    apply sq_le; [apply Rmult_le_pos; auto|]. rewrite l2_sq.
    replace (INR (2 ^ width mats) * l2 (zrange 0 (2 ^ n)) f * (INR (2 ^ width mats) * l2 (zrange 0 (2 ^ n)) f))%R
      with (INR (2 ^ width mats) * (INR (2 ^ width mats) * (l2 (zrange 0 (2 ^ n)) f * l2 (zrange 0 (2 ^ n)) f)))%R by ring.
    rewrite l2_sq, <- rows_total, <- sumR_scale by auto. apply sumR_le. intros r _.
    eapply Rle_trans; [apply sum_sq|]. rewrite columns_count by auto. apply Rle_refl.
  Qed.
  Lemma l2_const l k : (0 <= k)%R -> (l2 l (fun _ => k) <= k * INR (length l))%R.
  Proof.
    intros Hk. pose proof (pos_INR (length l)). apply sq_le; [apply Rmult_le_pos; auto|]. rewrite l2_sq, sumR_const.
    pose proof (sq_pos k). destruct l as [|i l]; [cbn; lra|].
    assert (1 <= INR (length (i :: l)))%R by (apply (le_INR 1); cbn [length]; lia). nra.
  Qed.

  (** ** the entries of unitary matrices and of the library gates *)
  Definition small (mats : mats_arg R) : Prop :=
    forall k m, In (k, m) mats -> forall a b, let l := zlen (key_group k) in
      0 <= a < 2 ^ l -> 0 <= b < 2 ^ l -> (cabs1 (mentry l m a b) <= 3 / 2)%R.
  Lemma norm1_small z : (cnorm2 z <= 1)%R -> (cabs1 z <= 3 / 2)%R.
  Proof.
    intros H. eapply Rle_trans; [apply cabs1_cnorm|].
    assert (cnorm z <= 1)%R by (apply sq_le; [lra|rewrite cnorm_sq; lra]). lra.
  Qed.
  Lemma sumR_term {I} (l : list I) (f : I -> R) i : (forall j, In j l -> (0 <= f j)%R) -> In i l -> (f i <= sum l f)%R.
  Proof.
    induction l as [|j l IH]; intros H Hi; [destruct Hi|]. rewrite sumR_cons. pose proof (H j (or_introl eq_refl)).
    assert (0 <= sum l f)%R by (apply sumR_pos; intros; apply H; right; auto).
    destruct Hi as [<-|Hi]; [lra|]. pose proof (IH (fun j Hj => H j (or_intror Hj)) Hi). lra.
  Qed.
  Lemma unitary_small mats : all_unitary mats -> small mats.
  Proof.
    intros HU k m Hin a b l Ha Hb. apply norm1_small. specialize (HU k m Hin b b Hb Hb). fold l in HU.
    rewrite Z.eqb_refl in HU. rewrite (sum_ext _ _ (fun x => creal (cnorm2 (mentry l m x b)))) in HU by (intros; apply cconj_norm).
    rewrite sum_creal in HU. change (1%r : CR) with (creal (1%R : R)) in HU. apply creal_inj in HU. rewrite <- HU.
    apply (sumR_term (zrange 0 (2 ^ l)) (fun x => cnorm2 (mentry l m x b))); [intros; apply cnorm2_pos|apply in_zrange; auto].
  Qed.
  Definition small_mat (m : mat R) : Prop := forall k i j, (cabs1 (mentry k m i j) <= 3 / 2)%R.
  Lemma small0 : (cabs1 0%r <= 3 / 2)%R.
  Proof. rewrite cabs1_0. lra. Qed.
  Lemma small1 : (cabs1 1%r <= 3 / 2)%R.
  Proof. rewrite cabs1_1. lra. Qed.
  Lemma small_C m : small_mat m -> small_mat (MC m).
  Proof.
    intros H k i j. cbn [mentry]. cbv zeta. destruct (_ && _); [destruct (i =? j); [apply small1|apply small0]|].
    destruct (_ && _); [apply H|apply small0].
  Qed.
  Lemma small_num r c d : (forall z, In z d -> (cnorm2 z <= 1)%R) -> small_mat (MNum r c d).
  Proof.
    intros H k i j. cbn [mentry]. destruct (Z_lt_ge_dec (i * 2 ^ k + j) 0) as [|Hl]; [rewrite znth_out by lia; apply small0|].
    destruct (Z_lt_ge_dec (i * 2 ^ k + j) (zlen d)); [|rewrite znth_out by lia; apply small0].
    apply norm1_small, H, znth_in. lia.
  Qed.
  Lemma small_gate g : unitary2 g -> small_mat (mat2 g).
  Proof.
    destruct g as [[[a b] c] d]. intros HU. pose proof (unitary2_ok _ HU) as H. apply small_num. intros z Hz.
    assert (G : forall i, 0 <= i < 2 -> (cnorm2 (mentry 1 (mat2 (a, b, c, d)) 0 i) + cnorm2 (mentry 1 (mat2 (a, b, c, d)) 1 i) = 1)%R).
    { intros i Hi. specialize (H i i Hi Hi). rewrite Z.eqb_refl in H.
      rewrite (sum_ext _ _ (fun x => creal (cnorm2 (mentry 1 (mat2 (a, b, c, d)) x i)))) in H by (intros; apply cconj_norm).
      rewrite sum_creal in H. change (1%r : CR) with (creal (1%R : R)) in H. apply creal_inj in H.
      change (zrange 0 (2 ^ 1)) with [0; 1] in H. rewrite !sumR_cons, sumR_nil in H. lra. }
    pose proof (G 0 ltac:(lia)) as G0. pose proof (G 1 ltac:(lia)) as G1.
    change (cnorm2 a + cnorm2 c = 1)%R in G0. change (cnorm2 b + cnorm2 d = 1)%R in G1.
    pose proof (cnorm2_pos a). pose proof (cnorm2_pos b). pose proof (cnorm2_pos c). pose proof (cnorm2_pos d).
    destruct Hz as [<-|[<-|[<-|[<-|[]]]]]; lra.
  Qed.
  Lemma kset_in (d : mats_arg R) k v km : In km (kdict_set d k v) -> In km d \/ snd km = v.
  Proof.
    induction d as [|[k' v'] d IH]; cbn; intros H.
    - destruct H as [<-|[]]. auto.
    - destruct (key_eqb k' k); cbn in H; destruct H as [<-|H]; auto. destruct (IH H); auto.
  Qed.
  Lemma op_small (o : op R) : forall groups mats, op_scalars_ok o -> makemats o groups = Ok mats ->
    forall k m, In (k, m) mats -> small_mat m.
  Proof.
    assert (PI : forall (m0 : mat R) groups k m, In (k, m) (per_index m0 groups) -> m = m0).
    { intros m0 groups k m. unfold per_index.
      assert (G : forall l d, (forall k m, In (k, m) d -> m = m0) -> In (k, m) (fold_left (fun d i => kdict_set d (KInt i) m0) l d) -> m = m0).
      { induction l as [|i l IH]; cbn [fold_left]; intros d Hd Hin; [eapply Hd; eauto|]. apply (IH (kdict_set d (KInt i) m0)); auto.
        intros k' m' H. apply kset_in in H as [H|H]; [eapply Hd; eauto|exact H]. }
      apply G. intros ? ? []. }
    assert (GA : forall (o : op R) g groups mats, gate_of o = Some g -> op_scalars_ok o -> makemats o groups = Ok mats ->
      forall k m, In (k, m) mats -> small_mat m).
    { intros o0 g groups mats Hg HS E k m Hin. rewrite (gate_mats _ _ _ Hg) in E. injection E as <-.
      rewrite (PI _ _ _ _ Hin). apply small_gate. eapply gates_unitary2; eauto. }
    induction o as [| | |h|e|sn|o IH]; intros groups mats HS E.
    1: exact (GA ONot _ groups mats eq_refl HS E).
    1: exact (GA OY _ groups mats eq_refl HS E).
    1: exact (GA OZ _ groups mats eq_refl HS E).
    1: exact (GA (OH h) _ groups mats eq_refl HS E).
    1: exact (GA (OR e) _ groups mats eq_refl HS E).
    - cbn [makemats] in E. destruct (pyget groups 0) as [a|]; [|discriminate E]. destruct (pyget groups 1) as [b|]; [|discriminate E].
      cbn [bind kdict_set] in E. injection E as <-. intros k m [H|[]]. injection H as <- <-.
      intros k i j. cbn [mentry]. destruct (_ =? _); [apply small1|apply small0].
    - cbn [makemats] in E. destruct (makemats o (tl groups)) as [opm|] eqn:Eo; [|discriminate E]. cbn [bind] in E.
      specialize (IH _ _ HS Eo).
      assert (G : forall l d, (forall k m, In (k, m) l -> small_mat m) -> (forall k m, In (k, m) d -> small_mat m) ->
        forall R, mfold (fun newdict '(indices, m) =>
          do c <- pyget groups 0; do idx <- key_flat indices; Ok (kdict_set newdict (KTuple (c ++ idx)) (MC m))) l d = Ok R ->
        forall k m, In (k, m) R -> small_mat m).
      { induction l as [|[k0 m0] l IHl]; intros d Hl Hd R0 HR; [cbn in HR; injection HR as <-; exact Hd|].
        cbn [mfold] in HR. destruct (pyget groups 0) as [c|]; [|discriminate HR]. cbn [bind] in HR.
        destruct (key_flat k0) as [idx|]; [|discriminate HR]. cbn [bind] in HR. eapply IHl; [| |exact HR].
        - intros k m Hin. apply (Hl k m). right; auto.
        - intros k m Hin. apply kset_in in Hin as [Hin|Hin]; [eapply Hd; eauto|]. cbn [snd] in Hin. subst m.
          apply small_C. apply (Hl k0 m0). left; auto. }
      intros k m Hin. eapply (G opm []); eauto. intros ? ? [].
  Qed.
  Lemma step_facts n mats : 0 <= n -> unitary_step n mats ->
    mats_wf n mats /\ small mats /\ isometry n (fentry n (map ef (mats_groups mats))).
  Proof.
    intros Hn [(HW & HD & HU)|(o & groups & HF & HQ & HS & HM)].
    - split; auto. split; [apply unitary_small; auto|]. apply iso_disjoint; auto.
      intros g m Hin. unfold mats_groups in Hin. apply in_map_iff in Hin as ([k m'] & E & Hin). injection E as <- <-. eapply HU; eauto.
    - apply op_ms_plain in HM. destruct (op_mats_ok n o groups Hn HF HQ) as (mats' & E & Hwf & _ & _ & _ & _ & Hiso).
      rewrite HM in E. injection E as <-. split; auto. split; auto.
      intros k m Hin a b l _ _. eapply op_small; eauto.
  Qed.
End Norms.
