(** Statements about measurements in the form used by the property theorems. *)
From Coq Require Import Permutation Sorted Reals Lra.
From Verif Require Import Base BaseR S_Bits M_Bits L_Bits M_Kron L_Kron L_Feed M_Feed M_Measure S_Measure L_Measure1 L_Measure2 L_Measure3 L_Measure4 L_Measure5.

Local Open Scope Z_scope.

Section Props.
  Context {K : Type} {OK : OrdRing K}.
  Notation C := (Cx K).
  Add Ring KRingM6 : (@rth K _).

  Lemma probs_ok (b : backend K) indices : full_backend b -> qubits_ok (bk_n b) indices ->
    bk_measure_probabilities b indices 0
    = Ok (inl (map (marginal (bk_n b) (rev indices) (amp_at 0 (bk_state b))) (zrange 0 (2 ^ zlen indices)))).
  Proof.
    intros (Hn & Hs & Ha) HI. unfold bk_measure_probabilities. cbn [Z.eqb]. rewrite measure_probabilities_ok; auto.
  Qed.
  Lemma probs_dist (b : backend K) indices ps : full_backend b -> qubits_ok (bk_n b) indices ->
    bk_measure_probabilities b indices 0 = Ok (inl ps) ->
    (forall p, In p ps -> rle 0%r p) /\ sum ps (fun p => p) = tprob (bk_state b).
  Proof.
    intros HB HI. rewrite probs_ok by auto. intros E. assert (E' := E). injection E' as <-. split.
    - intros p Hp. apply in_map_iff in Hp. destruct Hp as (v & <- & _). apply marginal_nonneg.
    - rewrite sum_map.
      rewrite <- (zlen_rev indices).
      change (sum _ _) with (below (bk_n b) (rev indices) (amp_at 0 (bk_state b)) (2 ^ zlen (rev indices))).
      rewrite below_all. apply tprob_slice; [apply HB|]. apply full_slice. auto.
  Qed.

  Lemma mo_in n indices q : qubits_ok n indices -> In q (measured_order n indices) <-> In q indices.
  Proof.
    intros [_ Hr]. unfold measured_order. rewrite filter_In, existsb_eqb, in_zrange. split; [tauto|].
    intros H. split; auto.
  Qed.
  (** entry reg(rev indices) of measure_probabilities is the probability of outcome reg(measured_order) *)
  Lemma renumbered (b : backend K) indices ps x : full_backend b -> qubits_ok (bk_n b) indices ->
    bk_measure_probabilities b indices 0 = Ok (inl ps) ->
    znth 0%r ps (reg (bk_n b) (rev indices) x)
    = outcome b indices (reg (bk_n b) (measured_order (bk_n b) indices) x).
  Proof.
    intros HB HI. rewrite probs_ok by auto. intros E. injection E as <-.
    pose proof (reg_range (bk_n b) (rev indices) x) as R. rewrite zlen_rev in R.
    rewrite znth_map_zrange by lia. rewrite Z.add_0_l. apply marginal_perm.
    intros q. rewrite <- in_rev, mo_in by auto. reflexivity.
  Qed.
  Lemma sorted_eq : forall l l' : list Z, StronglySorted Z.lt l -> StronglySorted Z.lt l' ->
    (forall q, In q l <-> In q l') -> l = l'.
  Proof.
    induction l as [|a l IH]; intros [|a' l'] S S' H; auto.
    - exfalso. apply (H a'). left; auto.
    - exfalso. apply (H a). left; auto.
    - inversion S as [|? ? S1 F1]; inversion S' as [|? ? S2 F2]; subst. rewrite Forall_forall in F1, F2.
      assert (a = a').
      { destruct (proj1 (H a) (or_introl eq_refl)) as [E|E]; auto.
        destruct (proj2 (H a') (or_introl eq_refl)) as [E'|E']; auto. apply F2 in E. apply F1 in E'. lia. }
      subst a'. f_equal. apply IH; auto. intros q. split; intros Hq.
      + destruct (proj1 (H q) (or_intror Hq)) as [E|]; auto. subst. apply F1 in Hq. lia.
      + destruct (proj2 (H q) (or_intror Hq)) as [E|]; auto. subst. apply F2 in Hq. lia.
  Qed.
  Lemma zrange_sorted lo hi : StronglySorted Z.lt (zrange lo hi).
  Proof.
    unfold zrange. generalize (Z.to_nat (hi - lo)) as c. intros c. generalize 0%nat as s.
    induction c as [|c IH]; intros s; cbn [seq map]; constructor; auto.
    rewrite Forall_forall. intros q Hq. apply in_map_iff in Hq. destruct Hq as (j & <- & Hj). apply in_seq in Hj. lia.
  Qed.
  Lemma filter_sorted (p : Z -> bool) l : StronglySorted Z.lt l -> StronglySorted Z.lt (filter p l).
  Proof.
    induction 1 as [|a l S IH F]; cbn [filter]; [constructor|]. destruct (p a); auto. constructor; auto.
    rewrite Forall_forall in *. intros q Hq. apply filter_In in Hq. apply F. tauto.
  Qed.
  Lemma decreasing_same (b : backend K) indices : full_backend b -> qubits_ok (bk_n b) indices ->
    StronglySorted Z.lt (rev indices) ->
    bk_measure_probabilities b indices 0 = Ok (inl (map (outcome b indices) (zrange 0 (2 ^ zlen indices)))).
  Proof.
    intros HB HI HS. rewrite probs_ok by auto. do 2 f_equal.
    replace (rev indices) with (measured_order (bk_n b) indices); auto.
    apply sorted_eq; auto.
    - apply filter_sorted, zrange_sorted.
    - intros q. rewrite <- in_rev. apply mo_in; auto.
  Qed.

  Lemma soft_born n indices off (vec : list C) rand m p :
    0 <= n -> qubits_ok n indices -> slice_ok n off vec -> draw_ok rand (tprob vec) ->
    (soft_measure rand 0%r indices n vec None off = Ok (m, p) <->
     0 <= m < 2 ^ zlen indices /\
     p = marginal n (measured_order n indices) (amp_at off vec) m /\
     rlt (below n (measured_order n indices) (amp_at off vec) m) (rand * tprob vec)%r /\
     rle (rand * tprob vec)%r (below n (measured_order n indices) (amp_at off vec) (m + 1))).
  Proof. intros Hn HI HS [D1 D2]. apply born; auto. Qed.
  Lemma soft_exists n indices off (vec : list C) rand :
    0 <= n -> qubits_ok n indices -> slice_ok n off vec -> draw_ok rand (tprob vec) ->
    exists m p, soft_measure rand 0%r indices n vec None off = Ok (m, p) /\ rlt 0%r p.
  Proof. intros Hn HI HS [D1 D2]. apply born_exists; auto. Qed.

  Lemma soft_positive (b : backend K) rand indices : full_backend b -> qubits_ok (bk_n b) indices ->
    draw_ok rand (tprob (bk_state b)) ->
    (exists m p, bk_soft_measure rand 0%r b indices None 0 = Ok (m, p) /\ rlt 0%r p) /\
    (forall rsqrt, exists m p b', bk_measure rsqrt rand 0%r b indices None None 0 0 = Ok ((m, p), b') /\ rlt 0%r p) /\
    (forall rsqrt, exists m p b', bk_reduce_measure rsqrt rand 0%r b indices None None 0 0 = Ok ((m, p), b') /\ rlt 0%r p).
  Proof.
    intros HB HI D. split; [|split].
    - destruct (soft_exists (bk_n b) indices 0 (bk_state b) rand) as (m & p & E & H); eauto; [apply HB|apply full_slice; auto].
    - intros rsqrt. destruct (measure_total rsqrt rand b indices HB HI D) as (m & p & b' & _ & E & H). eauto.
    - intros rsqrt. destruct (reduce_total rsqrt rand b indices HB HI D) as (m & p & b' & Es & E).
      destruct (measure_total rsqrt rand b indices HB HI D) as (m2 & p2 & b2 & Es2 & _ & H).
      exists m, p, b'. split; auto. congruence.
  Qed.

  Lemma total_ok acc0 (b : backend K) : bk_total_prob acc0 b = (acc0 + tprob (bk_state b))%r.
  Proof. apply prob_magnitude_spec. Qed.
  Lemma total_0 (b : backend K) : bk_total_prob 0%r b = tprob (bk_state b).
  Proof. apply prob_magnitude_0. Qed.
  Lemma total_wrong acc0 (b : backend K) : acc0 <> 0%r -> bk_total_prob acc0 b <> tprob (bk_state b).
  Proof.
    intros H E. apply H. rewrite total_ok in E.
    replace acc0 with ((acc0 + tprob (bk_state b)) - tprob (bk_state b))%r by ring. rewrite E. ring.
  Qed.

  Lemma top_all_bk (b : backend K) indices top_k : full_backend b -> qubits_ok (bk_n b) indices ->
    2 ^ zlen indices <= top_k ->
    exists l, bk_measure_probabilities b indices top_k = Ok (inr (map fst l, map snd l)) /\
      Permutation l (map (fun m => (m, outcome b indices m)) (zrange 0 (2 ^ zlen indices))) /\ decreasing (map snd l).
  Proof.
    intros (Hn & Hs & Ha) HI Hk. assert (0 < 2 ^ zlen indices) by (apply Z.pow_pos_nonneg; [lia|apply zlen_nonneg]).
    destruct (top_all (bk_n b) indices (bk_state b) Hn HI Hs top_k Hk) as (l & E & PP & D).
    exists l. split; auto. unfold bk_measure_probabilities. destruct (Z.eqb_spec top_k 0); [lia|]. rewrite E. reflexivity.
  Qed.
  Lemma top_some_bk (b : backend K) indices top_k : full_backend b -> qubits_ok (bk_n b) indices ->
    1 <= top_k < 2 ^ zlen indices -> bk_measure_probabilities b indices top_k = Raise OOB.
  Proof.
    intros (Hn & Hs & Ha) HI Hk. unfold bk_measure_probabilities. destruct (Z.eqb_spec top_k 0); [lia|].
    rewrite top_some; auto.
  Qed.
End Props.

Lemma rsqrt_R (p : R) : rlt 0%r p -> (Rinv (sqrt p) * Rinv (sqrt p) * p = 1)%r.
Proof.
  unfold rlt. cbv [rleb ROrdRing rO or_ring RCRing]. intros H.
  assert (H' : (0 < p)%R). { destruct (Rle_dec p 0); [|lra]. apply Rleb_le in r. congruence. }
  change ((/ sqrt p * / sqrt p * p)%R = 1%R).
  assert (0 < sqrt p)%R by (apply sqrt_lt_R0; auto).
  rewrite <- (sqrt_sqrt p) at 3 by lra. field. lra.
Qed.
