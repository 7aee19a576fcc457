(** Acceptance, slicing and expand_kron_matrix. *)
From Coq Require Import ZifyBool.
From Verif Require Import Base S_Bits M_Bits L_Bits M_Kron S_Kron L_Kron L_Kron2.

Section LK3.
  Context {K : Type} {OK : OrdRing K}.
  Notation C := (Cx K).
  Add Ring CRingLK3 : (@rth C _).

  Lemma pow2_inj_mul a k : 0 <= k -> a * 2 = 2 ^ k -> 1 <= k /\ a = 2 ^ (k - 1).
  Proof.
    intros Hk E. destruct (Z.eq_dec k 0) as [->|]; [cbn in E; lia|].
    split; [lia|]. replace k with (k - 1 + 1) in E by lia. rewrite Z.pow_add_r in E by lia.
    change (2 ^ 1) with 2 in E. lia.
  Qed.
  Lemma wf_shape_ok (m : mat K) k : 0 <= k -> mat_wf m -> mat_shape m = (2 ^ k, 2 ^ k) -> mat_ok k m.
  Proof.
    revert k. induction m as [r c d|m IH|n|r c g]; cbn [mat_wf mat_shape mat_ok]; intros k Hk Hw E.
    - inversion E; subst. intuition.
    - assert (E1 : fst (mat_shape m) * 2 = 2 ^ k) by congruence.
      assert (E2 : snd (mat_shape m) * 2 = 2 ^ k) by congruence. clear E.
      apply pow2_inj_mul in E1 as [? E1]; auto.
      apply pow2_inj_mul in E2 as [? E2]; auto. split; auto. apply IH; auto; [lia|].
      rewrite (surjective_pairing (mat_shape m)). congruence.
    - split; auto. assert (E1 : 2 ^ (2 * n) = 2 ^ k) by congruence.
      apply Z.pow_inj_r in E1; lia.
    - tauto.
  Qed.
  Lemma norm_mats_inv (mats : mats_arg K) gs : norm_mats mats = Ok gs -> forall km, In km mats -> shape_ok km.
  Proof.
    unfold norm_mats. generalize (@nil (list Z * mat K)) as acc.
    induction mats as [|[k m] mats IH]; intros acc E; [cbn; tauto|].
    cbn [mfold] in E.
    destruct k as [i|l|]; cbn [bind] in E; [| |discriminate].
    - destruct (mat_shape m) as [r c] eqn:Es.
      destruct (negb (2 ^ 1 =? r) || negb (2 ^ 1 =? c)) eqn:Eb; [discriminate|]. cbn [bind] in E.
      intros km [<-|Hin]; [|eapply IH; eauto]. unfold shape_ok. cbn [fst snd key_group].
      rewrite Es. change (zlen [i]) with 1. f_equal; lia.
    - destruct (mat_shape m) as [r c] eqn:Es.
      destruct (negb (2 ^ zlen l =? r) || negb (2 ^ zlen l =? c)) eqn:Eb; [discriminate|]. cbn [bind] in E.
      intros km [<-|Hin]; [|eapply IH; eauto]. unfold shape_ok. cbn [fst snd key_group].
      rewrite Es. f_equal; lia.
  Qed.
  Lemma mats_wf_groups n (mats : mats_arg K) :
    mats_wf n mats -> (forall km, In km mats -> shape_ok km) -> groups_ok n (mats_groups mats).
  Proof.
    intros [HK HW] HS g m Hin. unfold mats_groups in Hin. apply in_map_iff in Hin as ([k m'] & E & Hin).
    inversion E; subst. destruct (HW _ _ Hin) as [Hq Hm]. split; auto.
    apply wf_shape_ok; auto; [apply zlen_nonneg|]. apply (HS _ Hin).
  Qed.
  Lemma ok_sizes mats (vec : list C) n out ioff ooff i R :
    kronselect_dot mats vec n out ioff ooff i = Ok R ->
    zlen vec + ioff <= 2 ^ n /\ zlen out + ooff <= 2 ^ n /\ forall km, In km mats -> shape_ok km.
  Proof.
    unfold kronselect_dot.
    destruct (Z.ltb_spec (2 ^ n) (zlen vec + ioff)); [discriminate|].
    destruct (Z.ltb_spec (2 ^ n) (zlen out + ooff)); [discriminate|].
    destruct (norm_mats mats) as [gs|] eqn:E; [|discriminate]. intros _.
    split; [lia|]. split; [lia|]. eapply norm_mats_inv; eauto.
  Qed.
  Lemma ok_rect mats (vec : list C) n out ioff ooff sched R :
    keys_ok mats -> kronselect_dot mats vec n out ioff ooff (Cython sched) = Ok R ->
    rectangular (map fst (mats_groups mats)) = true.
  Proof.
    intros HK E. destruct (ok_sizes _ _ _ _ _ _ _ _ E) as (H1 & H2 & HS).
    unfold kronselect_dot in E.
    destruct (Z.ltb_spec (2 ^ n) (zlen vec + ioff)); [lia|].
    destruct (Z.ltb_spec (2 ^ n) (zlen out + ooff)); [lia|].
    rewrite norm_mats_ok in E by auto. cbn [bind] in E.
    destruct (rectangular _) eqn:ER; auto. rewrite cdot_loop_ragged in E by auto. discriminate.
  Qed.

  (** C01 *)
  Lemma kron_partial_correct mats (vec : list C) n out ioff ooff i R :
    0 <= n -> 0 <= ioff -> 0 <= ooff -> mats_wf n mats -> impl_sched_ok i (zlen out) ->
    kronselect_dot mats vec n out ioff ooff i = Ok R ->
    R = kron_result n mats vec ioff ooff (zlen out).
  Proof.
    intros Hn Hi Ho HW HI E. destruct (ok_sizes _ _ _ _ _ _ _ _ E) as (H1 & H2 & HS).
    assert (impl_ok i (map fst (mats_groups mats)) (zlen out)).
    { destruct i as [|sched]; cbn; auto. split; auto. eapply ok_rect; eauto. apply HW. }
    rewrite kronselect_dot_ok in E; auto.
    - inversion E. reflexivity.
    - apply HW.
    - apply mats_wf_groups; auto.
  Qed.

  (** C04 *)
  Lemma kron_accept_py mats (vec : list C) n out ioff ooff :
    0 <= n -> 0 <= ioff -> 0 <= ooff -> mats_wf n mats ->
    (exists R, kronselect_dot mats vec n out ioff ooff Python = Ok R) <->
    accepted mats vec n out ioff ooff.
  Proof.
    intros Hn Hi Ho HW. split.
    - intros [R E]. eapply ok_sizes; eauto.
    - intros (H1 & H2 & H3). eexists. apply kronselect_dot_ok; auto; [apply HW| |exact I].
      apply mats_wf_groups; auto.
  Qed.
  Lemma kron_accept_c mats (vec : list C) n out ioff ooff sched :
    0 <= n -> 0 <= ioff -> 0 <= ooff -> mats_wf n mats -> Permutation sched (zrange 0 (zlen out)) ->
    (exists R, kronselect_dot mats vec n out ioff ooff (Cython sched) = Ok R) <->
    accepted mats vec n out ioff ooff /\ rectangular (map fst (mats_groups mats)) = true.
  Proof.
    intros Hn Hi Ho HW HP. split.
    - intros [R E]. split; [eapply ok_sizes; eauto|]. eapply ok_rect; eauto. apply HW.
    - intros ((H1 & H2 & H3) & HR). eexists. apply kronselect_dot_ok; auto; [apply HW| |split; auto].
      apply mats_wf_groups; auto.
  Qed.
  Lemma norm_mats_exn (mats : mats_arg K) e : norm_mats mats = Raise e -> e = GenericException.
  Proof.
    unfold norm_mats. generalize (@nil (list Z * mat K)) as acc.
    induction mats as [|[k m] mats IH]; intros acc E; [discriminate|].
    cbn [mfold] in E.
    destruct k as [i|l|]; cbn [bind] in E; [| |congruence].
    - destruct (mat_shape m) as [r c].
      destruct (negb (2 ^ 1 =? r) || negb (2 ^ 1 =? c)); [cbn in E; congruence|]. cbn [bind] in E. eauto.
    - destruct (mat_shape m) as [r c].
      destruct (negb (2 ^ zlen l =? r) || negb (2 ^ zlen l =? c)); [cbn in E; congruence|]. cbn [bind] in E. eauto.
  Qed.
  Lemma kron_exn mats (vec : list C) n out ioff ooff i e :
    0 <= n -> 0 <= ioff -> 0 <= ooff -> mats_wf n mats -> impl_sched_ok i (zlen out) ->
    kronselect_dot mats vec n out ioff ooff i = Raise e -> e = ValueError \/ e = GenericException.
  Proof.
    intros Hn Hi Ho HW HI E. pose proof E as E0. unfold kronselect_dot in E.
    destruct (Z.ltb_spec (2 ^ n) (zlen vec + ioff)); [left; congruence|].
    destruct (Z.ltb_spec (2 ^ n) (zlen out + ooff)); [left; congruence|].
    destruct (norm_mats mats) as [gs|e'] eqn:En.
    - pose proof (norm_mats_inv _ _ En) as HS. rewrite norm_mats_ok in En by (auto; apply HW).
      inversion En; subst gs. cbn [bind] in E.
      destruct i as [|sched].
      + rewrite dot_loop_ok in E; auto; [discriminate|apply mats_wf_groups; auto|apply keys_nodup, HW].
      + destruct (rectangular (map fst (mats_groups mats))) eqn:ER.
        * rewrite cdot_loop_ok in E; auto; [discriminate|apply mats_wf_groups; auto].
        * rewrite cdot_loop_ragged in E; auto. left; congruence.
    - apply norm_mats_exn in En. cbn in E. right. congruence.
  Qed.

  (** C02 *)
  Lemma kron_agree mats (vec : list C) n out ioff ooff sched R :
    0 <= n -> 0 <= ioff -> 0 <= ooff -> mats_wf n mats -> Permutation sched (zrange 0 (zlen out)) ->
    kronselect_dot mats vec n out ioff ooff (Cython sched) = Ok R ->
    kronselect_dot mats vec n out ioff ooff Python = Ok R.
  Proof.
    intros Hn Hi Ho HW HP E.
    assert (Ha : accepted mats vec n out ioff ooff) by (eapply ok_sizes; eauto).
    apply kron_accept_py in Ha as [R' E']; auto. rewrite E'. f_equal.
    rewrite (kron_partial_correct _ _ _ _ _ _ Python _ Hn Hi Ho HW I E').
    symmetry. exact (kron_partial_correct _ _ _ _ _ _ (Cython sched) _ Hn Hi Ho HW HP E).
  Qed.
  Lemma kron_agree_rect mats (vec : list C) n out ioff ooff sched :
    0 <= n -> 0 <= ioff -> 0 <= ooff -> mats_wf n mats -> Permutation sched (zrange 0 (zlen out)) ->
    rectangular (map fst (mats_groups mats)) = true ->
    forall R, kronselect_dot mats vec n out ioff ooff (Cython sched) = Ok R <->
              kronselect_dot mats vec n out ioff ooff Python = Ok R.
  Proof.
    intros Hn Hi Ho HW HP HR R. split; [apply kron_agree; auto|]. intros E.
    assert (Ha : accepted mats vec n out ioff ooff) by (eapply ok_sizes; eauto).
    destruct (proj2 (kron_accept_c mats vec n out ioff ooff sched Hn Hi Ho HW HP) (conj Ha HR)) as [R' E'].
    rewrite E'. apply kron_agree in E'; auto. congruence.
  Qed.

  (** C03 *)
  Lemma slice_out mats (vec : list C) n full out ioff ooff i i' F :
    0 <= n -> 0 <= ioff -> 0 <= ooff -> mats_wf n mats ->
    impl_sched_ok i (zlen full) -> impl_ok i' (map fst (mats_groups mats)) (zlen out) ->
    zlen full = 2 ^ n -> zlen out + ooff <= 2 ^ n ->
    kronselect_dot mats vec n full ioff 0 i = Ok F ->
    kronselect_dot mats vec n out ioff ooff i' = Ok (pyslice F ooff (ooff + zlen out)).
  Proof.
    intros Hn Hi Ho HW HI HI' Hf Hl E. pose proof (ok_sizes _ _ _ _ _ _ _ _ E) as (H1 & H2 & HS).
    rewrite (kron_partial_correct _ _ _ _ _ _ _ _ Hn Hi (Z.le_refl 0) HW HI E).
    rewrite kronselect_dot_ok; auto; [|apply HW|apply mats_wf_groups; auto].
    f_equal. unfold kron_result. rewrite Hf. rewrite pyslice_map. unfold pyslice.
    pose proof (zlen_nonneg out).
    rewrite firstn_skipn_zrange by lia.
    replace (zrange ooff (ooff + zlen out)) with (map (fun r => r + ooff) (zrange 0 (zlen out)))
      by (rewrite <- zrange_shift; f_equal; lia).
    rewrite map_map. apply map_ext. intros r. f_equal. lia.
  Qed.
  Lemma slice_at_app off (v w : list C) c :
    slice_at off (v ++ w) c = (slice_at off v c + slice_at (off + zlen v) w c)%r.
  Proof.
    unfold slice_at. destruct (Z.ltb_spec (c - off) 0).
    - rewrite !znth_out; [ring| | |]; pose proof (zlen_nonneg v); lia.
    - destruct (Z.ltb_spec (c - off) (zlen v)).
      + rewrite (znth_out _ w) by lia. rewrite !znth_nth by lia. rewrite app_nth1 by (unfold zlen in *; lia). ring.
      + rewrite (znth_out _ v) by lia. rewrite !znth_nth by lia. rewrite app_nth2 by (unfold zlen in *; lia).
        replace (Z.to_nat (c - (off + zlen v))) with (Z.to_nat (c - off) - length v)%nat by (unfold zlen in *; lia).
        ring.
  Qed.
  Lemma slice_at_nil off c : slice_at off (@nil C) c = 0%r.
  Proof. unfold slice_at. apply znth_out. change (zlen (@nil C)) with 0. lia. Qed.
  Lemma slice_at_concat off (vs : list (list C)) c :
    slice_at off (concat vs) c = sum (pieces off vs) (fun ov => slice_at (fst ov) (snd ov) c).
  Proof.
    revert off. induction vs as [|v vs IH]; intros off; cbn [concat pieces sum fst snd].
    - apply slice_at_nil.
    - rewrite slice_at_app, IH. reflexivity.
  Qed.
  Lemma kron_apply_sum {I} n gs (l : list I) (f : I -> Z -> C) r :
    kron_apply n gs (fun c => sum l (fun i => f i c)) r = sum l (fun i => kron_apply n gs (f i) r).
  Proof.
    unfold kron_apply. rewrite sum_swap. apply sum_ext. intros c _. rewrite <- sum_mul_l. reflexivity.
  Qed.
  Lemma kron_apply_ext n gs (f g : Z -> C) r :
    (forall c, 0 <= c < 2 ^ n -> f c = g c) -> kron_apply n gs f r = kron_apply n gs g r.
  Proof. intros H. unfold kron_apply. apply sum_ext. intros c Hc. apply in_zrange in Hc. rewrite H; auto. Qed.
  Lemma pieces_bound off (vs : list (list C)) o v :
    In (o, v) (pieces off vs) -> off <= o /\ o + zlen v <= off + zlen (concat vs).
  Proof.
    revert off. induction vs as [|w vs IH]; intros off; cbn [pieces]; [cbn; tauto|].
    intros [E|Hin].
    - inversion E; subst. cbn [concat]. rewrite zlen_app. pose proof (zlen_nonneg (concat vs)). lia.
    - apply IH in Hin. cbn [concat]. rewrite zlen_app. pose proof (zlen_nonneg w). lia.
  Qed.
  Lemma slice_in mats (vs : list (list C)) n out ioff ooff i :
    0 <= n -> 0 <= ioff -> 0 <= ooff -> mats_wf n mats ->
    impl_ok i (map fst (mats_groups mats)) (zlen out) ->
    forall W, kronselect_dot mats (concat vs) n out ioff ooff i = Ok W ->
    exists Rs, Forall2 (fun ov R => kronselect_dot mats (snd ov) n out (fst ov) ooff i = Ok R) (pieces ioff vs) Rs /\
      forall r, 0 <= r < zlen out -> znth 0%r W r = sum Rs (fun R => znth 0%r R r).
  Proof.
    intros Hn Hi Ho HW HI W E. pose proof (ok_sizes _ _ _ _ _ _ _ _ E) as (H1 & H2 & HS).
    exists (map (fun ov => kron_result n mats (snd ov) (fst ov) ooff (zlen out)) (pieces ioff vs)).
    split.
    - assert (G : forall l, (forall o v, In (o, v) l -> In (o, v) (pieces ioff vs)) ->
        Forall2 (fun ov R => kronselect_dot mats (snd ov) n out (fst ov) ooff i = Ok R) l
          (map (fun ov => kron_result n mats (snd ov) (fst ov) ooff (zlen out)) l)).
      { induction l as [|[o v] l IH]; intros Hin; cbn [map]; constructor.
        - cbn [fst snd]. destruct (pieces_bound ioff vs o v) as [B1 B2]; [apply Hin; left; auto|].
          apply kronselect_dot_ok; auto; try lia; [apply HW|apply mats_wf_groups; auto].
        - apply IH. intros; apply Hin; right; auto. }
      apply G; auto.
    - intros r Hr. rewrite kronselect_dot_ok in E; auto; [|apply HW|apply mats_wf_groups; auto].
      inversion E. rewrite znth_map_zrange by lia. rewrite sum_map.
      transitivity (kron_apply n (mats_groups mats) (fun c => sum (pieces ioff vs) (fun ov => slice_at (fst ov) (snd ov) c)) (r + ooff)).
      + apply kron_apply_ext. intros. apply slice_at_concat.
      + rewrite kron_apply_sum. apply sum_ext. intros ov _. unfold kron_result.
        rewrite znth_map_zrange by lia. reflexivity.
  Qed.

  (** C05 *)
  Lemma expand_ok mats n :
    0 <= n -> mats_wf n mats -> (forall km, In km mats -> shape_ok km) -> dense_keys mats ->
    expand_kron_matrix mats n
    = Ok (map (fun i => map (fun r => kron_entry n (mats_groups mats) r i) (zrange 0 (2 ^ n))) (zrange 0 (2 ^ n))).
  Proof.
    intros Hn HW HS HD. unfold expand_kron_matrix.
    rewrite mmap_ok with (g := fun km => km).
    2:{ intros [k m] Hin. pose proof (HD k m Hin). destruct m; try tauto; reflexivity. }
    rewrite map_id. cbn [bind]. apply mmap_ok. intros i Hi. apply in_zrange in Hi.
    assert (0 <= 2 ^ n) by lia.
    rewrite kronselect_dot_ok; auto; try lia; try (rewrite zlen_map, zlen_zrange; lia);
      [|apply HW|apply mats_wf_groups; auto|exact I].
    rewrite zlen_map, zlen_zrange by lia. replace (2 ^ n - 0) with (2 ^ n) by lia.
    f_equal. apply map_zrange_ext. intros r Hr. replace (r + 0) with r by lia.
    unfold kron_apply. rewrite (sum_single _ i).
    - unfold slice_at. rewrite znth_map_zrange by lia.
      replace (0 + (i - 0)) with i by lia. rewrite Z.eqb_refl. ring.
    - apply zrange_nodup.
    - apply in_zrange; auto.
    - intros j Hj Hne. apply in_zrange in Hj. unfold slice_at. rewrite znth_map_zrange by lia.
      destruct (Z.eqb_spec (0 + (j - 0)) i); [lia|ring].
  Qed.
  Lemma expand_transpose mats n M (v out : list C) W :
    0 <= n -> mats_wf n mats -> dense_keys mats -> zlen v = 2 ^ n -> zlen out = 2 ^ n ->
    expand_kron_matrix mats n = Ok M -> kronselect_dot mats v n out 0 0 Python = Ok W ->
    W = matvec (transpose M (2 ^ n)) v.
  Proof.
    intros Hn HW HD Hv Ho EM EW. pose proof (ok_sizes _ _ _ _ _ _ _ _ EW) as (_ & _ & HS).
    rewrite (kron_partial_correct _ _ _ _ _ _ Python _ Hn (Z.le_refl 0) (Z.le_refl 0) HW I EW).
    rewrite expand_ok in EM by auto. injection EM as <-.
    unfold matvec, transpose, kron_result. rewrite map_map. rewrite Ho. apply map_zrange_ext. intros r Hr.
    unfold kron_apply. rewrite Hv. apply sum_ext. intros c Hc. apply in_zrange in Hc.
    rewrite map_map. rewrite znth_map_zrange by lia. rewrite znth_map_zrange by lia.
    replace (0 + c) with c by lia. replace (0 + r) with r by lia. replace (r + 0) with r by lia.
    unfold slice_at. replace (c - 0) with c by lia. reflexivity.
  Qed.
End LK3.
