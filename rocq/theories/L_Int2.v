(** The 32-bit kernels agree with the unbounded ones up to 30 qubits: measurement. *)
From Coq Require Import ZifyBool.
From Verif Require Import Base S_Bits M_Bits L_Bits M_Kron S_Kron L_Kron L_Kron2 M_Measure S_Measure L_Measure1 M_Int L_Int1.

Section LI2.
  Context {K : Type} {OK : OrdRing K}.
  Notation C := (Cx K).

  Lemma row_mask32_ok n indices : 0 <= n <= 31 -> qubits_ok n indices ->
    make_row_mask32 indices n = make_row_mask indices n.
  Proof.
    intros Hn [_ Hq]. unfold make_row_mask32, make_row_mask. apply mfold_ext.
    intros m q Hin. apply Hq in Hin. apply set_bit32_ok. lia.
  Qed.
  Lemma mask_rank n indices mask : 0 <= n -> qubits_ok n indices -> make_row_mask indices n = Ok mask ->
    rank (Z.testbit mask) n = zlen indices.
  Proof.
    intros Hn HI E. destruct (make_row_mask_ok n indices Hn HI) as (mask' & E' & HM).
    rewrite E in E'. injection E' as <-. eapply rank_mask; eauto.
  Qed.
  Lemma ent32 n indices mask vi vn : 1 <= n <= 31 -> qubits_ok n indices -> make_row_mask indices n = Ok mask ->
    entwine_bit32 (zlen indices) (n - zlen indices) vi vn mask = Ok (entwine_bit (zlen indices) (n - zlen indices) vi vn mask) /\
    0 <= entwine_bit (zlen indices) (n - zlen indices) vi vn mask < 2 ^ n.
  Proof.
    intros Hn HI E. pose proof (qubits_len n indices ltac:(lia) HI). pose proof (zlen_nonneg indices).
    pose proof (mask_rank n indices mask ltac:(lia) HI E). split.
    - apply entwine32_ok; auto; lia.
    - apply entwine_range; auto; lia.
  Qed.

  Lemma probabilities32_ok indices n (vec : list C) : 0 <= n <= 31 -> qubits_ok n indices ->
    measure_probabilities32 indices n vec = measure_probabilities indices n vec.
  Proof.
    intros Hn HI. unfold measure_probabilities32, measure_probabilities.
    rewrite int_arg_ok by lia. cbn [bind].
    pose proof (qubits_len n indices ltac:(lia) HI). pose proof (Z.pow_le_mono_r 2 n 31 ltac:(lia) ltac:(lia)).
    apply mfold_ext. intros p i Hi. apply in_zrange in Hi. apply bind_ext. intros v _.
    destruct (cx_is0 v); auto.
    rewrite (w32_ok i) by lia.
    match goal with |- bind ?x _ = bind ?y _ => replace x with y; [reflexivity|] end.
    symmetry. apply mfold_ext. intros pi j Hj. apply in_zrange in Hj. rewrite (cget_ok 0) by lia. cbn [bind].
    assert (0 <= znth 0 indices j < n) by (apply HI, znth_in; lia).
    rewrite get_bit32_ok by lia. apply bind_ext. intros b _. rewrite (w32_ok j) by lia. apply set_bit32_ok. lia.
  Qed.

  Lemma magnitude32_ok acc0 (vec : list C) : zlen vec <= 2 ^ 31 -> prob_magnitude32 acc0 vec = Ok (prob_magnitude acc0 vec).
  Proof.
    intros HL. unfold prob_magnitude32, prob_magnitude.
    assert (G : forall (l pre : list C) acc, pre ++ l = vec ->
      mfold (fun acc i => do x <- cget vec (w32 i); Ok (acc + cnorm2 x)%r) (zrange (zlen pre) (zlen vec)) acc
      = Ok (fold_left (fun acc x => acc + cnorm2 x)%r l acc)).
    { induction l as [|x l IH]; intros pre acc E.
      - rewrite app_nil_r in E. subst. rewrite zrange_empty by lia. reflexivity.
      - assert (Hlen : zlen vec = zlen pre + 1 + zlen l).
        { rewrite <- E, zlen_app. unfold zlen. cbn [length]. lia. }
        pose proof (zlen_nonneg l). pose proof (zlen_nonneg pre).
        rewrite zrange_cons by lia. cbn [mfold fold_left].
        rewrite w32_ok by lia. rewrite (cget_ok x) by lia.
        replace (znth x vec (zlen pre)) with x. 2:{ rewrite <- E. unfold znth, zlen. rewrite Nat2Z.id.
          destruct (Z.ltb_spec (Z.of_nat (length pre)) 0); [lia|]. rewrite app_nth2, Nat.sub_diag by lia. reflexivity. }
        cbn [bind]. specialize (IH (pre ++ [x]) (acc + cnorm2 x)%r).
        rewrite zlen_app in IH. change (zlen [x]) with 1 in IH. apply IH. rewrite <- app_assoc. exact E. }
    apply (G vec []). reflexivity.
  Qed.

  Lemma outcome32_ok n indices mask (vec : list C) io p_index : 1 <= n <= 30 -> qubits_ok n indices ->
    make_row_mask indices n = Ok mask -> 0 <= io <= 2 ^ n ->
    outcome_prob32 (zlen indices) (n - zlen indices) mask vec io p_index =
    outcome_prob (zlen indices) (n - zlen indices) mask vec io p_index.
  Proof.
    intros Hn HI EM Hio. unfold outcome_prob32, outcome_prob.
    pose proof (qubits_len n indices ltac:(lia) HI). pose proof (zlen_nonneg indices).
    pose proof (pow2_30 (n - zlen indices) ltac:(lia)). pose proof (Z.pow_pos_nonneg 2 (n - zlen indices) ltac:(lia) ltac:(lia)).
    pose proof (pow2_30 n ltac:(lia)).
    rewrite w32_ok by lia. apply mfold_ext. intros acc i Hi.
    destruct (ent32 n indices mask p_index i ltac:(lia) HI EM) as [-> HR]. cbn [bind].
    destruct (_ && _); auto. rewrite ck_ok by lia. reflexivity.
  Qed.
  Lemma soft_loop_ext (f g : Z -> res K) l r last : (forall i, f i = g i) -> soft_loop f l r last = soft_loop g l r last.
  Proof.
    intros H. revert r last. induction l as [|i l IH]; intros r last; cbn [soft_loop]; auto.
    rewrite H. apply bind_ext. intros acc _. destruct (rleb _ _); auto.
  Qed.

  Definition int_outcome (measured : option Z) : Prop :=
    match measured with Some m => - 2 ^ 31 <= m < 2 ^ 31 - 1 | None => True end.
  Lemma soft32_ok rand acc0 indices n (vec : list C) measured io :
    1 <= n <= 30 -> qubits_ok n indices -> 0 <= io -> zlen vec + io <= 2 ^ n -> int_outcome measured ->
    soft_measure32 rand acc0 indices n vec measured io = soft_measure rand acc0 indices n vec measured io.
  Proof.
    intros Hn HI Hio Hv Hm. unfold soft_measure32, soft_measure.
    pose proof (qubits_len n indices ltac:(lia) HI). pose proof (zlen_nonneg indices). pose proof (zlen_nonneg vec).
    pose proof (pow2_30 n ltac:(lia)). pose proof (pow2_30 (zlen indices) ltac:(lia)).
    pose proof (Z.pow_pos_nonneg 2 (zlen indices) ltac:(lia) ltac:(lia)).
    rewrite !int_arg_ok by lia. cbn [bind].
    match goal with |- bind ?x _ = _ => replace x with (Ok (A := Z * Z) match measured with
                        | None => (0, 2 ^ zlen indices)
                        | Some m => (m, m + 1) end) end.
    2:{ destruct measured as [m|]; cbn [int_outcome] in Hm; [rewrite !int_arg_ok by lia|rewrite w32_ok by lia]; reflexivity. }
    cbn [bind]. rewrite magnitude32_ok by lia. cbn [bind].
    match goal with |- bind ?x _ = _ => replace x with
      (Ok (if zlen indices <? 2 ^ n then (rand * prob_magnitude acc0 vec)%r else rand)) by (destruct (zlen indices <? 2 ^ n); reflexivity) end.
    cbn [bind]. rewrite row_mask32_ok by (auto; lia).
    destruct (match measured with Some m => (m, m + 1) | None => (0, 2 ^ zlen indices) end) as [low high] eqn:ER. cbn [fst snd].
    apply bind_ext. intros mask EM. apply soft_loop_ext. intros i. apply outcome32_ok; auto. lia.
  Qed.
  Lemma choose32_ok rand acc0 indices n (vec : list C) measured mp io :
    1 <= n <= 30 -> qubits_ok n indices -> 0 <= io -> zlen vec + io <= 2 ^ n -> bad_measured indices measured = false ->
    choose32 rand acc0 indices n vec measured mp io = choose rand acc0 indices n vec measured mp io.
  Proof.
    intros Hn HI Hio Hv Hm. unfold choose32, choose.
    assert (Hi : int_outcome measured).
    { destruct measured as [m|]; cbn [int_outcome]; auto. unfold bad_measured in Hm.
      pose proof (qubits_len n indices ltac:(lia) HI). pose proof (pow2_30 (zlen indices) ltac:(lia)). lia. }
    destruct measured as [m|]; [destruct mp as [p|]|]; try (apply soft32_ok; auto).
    cbn [int_outcome] in Hi. rewrite int_arg_ok by lia. reflexivity.
  Qed.

  Lemma measure32_ok rsqrt rand acc0 indices n (vec out : list C) io oo measured mp :
    1 <= n <= 30 -> qubits_ok n indices -> 0 <= io -> 0 <= oo -> zlen vec + io <= 2 ^ n -> zlen out + oo <= 2 ^ n ->
    measure32 rsqrt rand acc0 indices n vec out io oo measured mp = measure rsqrt rand acc0 indices n vec out io oo measured mp.
  Proof.
    intros Hn HI Hio Hoo Hv Ho. unfold measure32, measure.
    pose proof (zlen_nonneg vec). pose proof (zlen_nonneg out). pose proof (pow2_30 n ltac:(lia)).
    rewrite !int_arg_ok by lia. cbn [bind].
    destruct (bad_measured indices measured) eqn:EB; auto. destruct (bad_prob mp); auto.
    rewrite choose32_ok by auto. apply bind_ext. intros [m p] _. apply bind_ext. intros mu _.
    rewrite row_mask32_ok by (auto; lia). apply bind_ext. intros mask EM. cbn [fst].
    destruct (ent32 n indices mask m 0 ltac:(lia) HI EM) as [-> _]. cbn [bind].
    rewrite !w32_ok by lia.
    match goal with |- bind ?x _ = bind ?y _ => replace x with y; [reflexivity|] end.
    symmetry. apply mfold_ext. intros o i Hi. apply in_zrange in Hi.
    rewrite !ck_ok by lia. cbn [bind]. reflexivity.
  Qed.

  Lemma reduce32_ok rsqrt rand acc0 indices n (vec out : list C) io oo measured mp :
    1 <= n <= 30 -> qubits_ok n indices -> 0 <= io -> 0 <= oo -> zlen vec + io <= 2 ^ n -> zlen out + oo <= 2 ^ n ->
    reduce_measure32 rsqrt rand acc0 indices n vec out io oo measured mp = reduce_measure rsqrt rand acc0 indices n vec out io oo measured mp.
  Proof.
    intros Hn HI Hio Hoo Hv Ho. unfold reduce_measure32, reduce_measure.
    pose proof (zlen_nonneg vec). pose proof (zlen_nonneg out). pose proof (pow2_30 n ltac:(lia)).
    pose proof (qubits_len n indices ltac:(lia) HI). pose proof (zlen_nonneg indices).
    rewrite !int_arg_ok by lia. cbn [bind].
    destruct (bad_measured indices measured) eqn:EB; auto. destruct (bad_prob mp); auto.
    rewrite choose32_ok by auto. apply bind_ext. intros [m p] _. apply bind_ext. intros mu _.
    rewrite row_mask32_ok by (auto; lia). apply bind_ext. intros mask EM. cbn [fst].
    rewrite w32_ok by lia. rewrite ck_ok by lia. cbn [bind].
    match goal with |- bind ?x _ = bind ?y _ => replace x with y; [reflexivity|] end.
    symmetry. apply mfold_ext. intros o i Hi. apply in_zrange in Hi.
    destruct (ent32 n indices mask m i ltac:(lia) HI EM) as [-> HR]. cbn [bind].
    rewrite !ck_ok by lia. cbn [bind]. reflexivity.
  Qed.

  Lemma top32_ok indices n top_k (vec : list C) : 1 <= n <= 30 -> qubits_ok n indices -> - 2 ^ 31 <= top_k < 2 ^ 31 ->
    measure_top_probabilities32 indices n top_k vec = measure_top_probabilities indices n top_k vec.
  Proof.
    intros Hn HI Hk. unfold measure_top_probabilities32, measure_top_probabilities.
    rewrite !int_arg_ok by lia. cbn [bind]. destruct (_ <? 0); auto.
    pose proof (qubits_len n indices ltac:(lia) HI). pose proof (zlen_nonneg indices).
    pose proof (pow2_30 (zlen indices) ltac:(lia)). pose proof (pow2_30 (n - zlen indices) ltac:(lia)).
    match goal with |- bind ?x _ = bind ?y _ => replace x with y; [reflexivity|] end.
    symmetry. apply mfold_ext. intros [[ms ps] he] m Hm. apply in_zrange in Hm.
    rewrite row_mask32_ok by (auto; lia). apply bind_ext. intros mask EM. 
    match goal with |- bind ?x _ = bind ?y _ => replace x with y; [reflexivity|] end.
    symmetry. apply mfold_ext. intros vp j Hj. apply in_zrange in Hj.
    rewrite !w32_ok by lia.
    destruct (ent32 n indices mask m j ltac:(lia) HI EM) as [-> HR]. reflexivity.
  Qed.
End LI2.
