(** Orders that are powers of two: how often the period finding returns them. *)
From Coq Require Import Reals Lra Zpow_facts Znumtheory.
From Verif Require Import Base BaseR S_Bits L_Alg M_Shor S_Shor S_ShorR L_Shor L_Shor2 L_Shor3 L_Shor4 L_ShorR L_ShorPeak L_ShorExact.
Local Open Scope Z_scope.

Lemma denominators c q d' r' : 0 < c < 2 ^ 53 -> 0 < q < 2 ^ 53 -> convergent c q d' r' ->
  exists d0 r0, d0 * q = r0 * c /\ 0 < r0 /\ Z.gcd d0 r0 = 1 /\ r' <= r0.
Proof.
  intros Hc Hq Hcv. destruct (last_ok (Z.to_nat (c + 2 * q)) c q Hc Hq ltac:(lia)) as (fs & d0 & r0 & E & E0 & H0).
  destruct (convergents c q Hc Hq) as (l & Hl & E1 & Hin & Hg & fs' & Ef). rewrite E in E1. injection E1 as E1.
  exists d0, r0. split; [exact E0|]. split; [exact H0|]. split; [apply Hg; rewrite <- E1; apply in_app_iff; right; left; reflexivity|].
  apply Hin in Hcv. rewrite <- E1 in Hcv. apply in_app_iff in Hcv. destruct Hcv as [Hcv|[Hcv|[]]]; [|injection Hcv; lia].
  inversion Hl; subst; [lia|]. cbn [fractions_loop] in E1. destruct fs as [|p fs]; [destruct Hcv|]. cbn [app] in E1. injection E1 as -> E1. destruct Hcv as [Hcv|Hcv].
  - injection Hcv as <- <-. lia.
  - eapply (loop_sorted l0 1 (c / q * 1 + 0) 0 (c / q * 0 + 1)); eauto; try lia. intros a Ha. apply In_nth_error in Ha. destruct Ha as [i Hi].
    apply (cf_coefs c q (c / q :: l0) Hl ltac:(lia) (S i)); auto. lia.
Qed.
Lemma unit_fraction h r d' r' : 0 < h -> 1 < r -> convergent h (r * h) d' r' -> d' <= 1.
Proof.
  intros Hh Hr (l & i & Hl & Hi & Ev).
  assert (Hl' : cf_of h (r * h) [0; r]).
  { replace 0 with (h / (r * h)) at 1 by (apply Z.div_small; nia). constructor; [nia|]. rewrite Z.mod_small by nia.
    replace r with (r * h / h) at 2 by (apply Z.div_mul; lia). constructor; [exact Hh|]. rewrite Z.mod_mul by lia. constructor. }
  rewrite (cf_fun _ _ _ Hl _ Hl') in *. cbn in Hi. destruct i as [|[|i]]; [| |lia]; cbn in Ev; injection Ev as <- _; lia.
Qed.

(** the first measured value makes the program return [r] *)
Definition first_returns (N r c : Z) : bool := match quantum 1 N (fun _ => c) with Ok v => v =? r | _ => false end.

Section Two.
  Variables (N a r : Z).
  Hypothesis HN : 2 < N <= 2 ^ 14.
  Hypothesis Ho : order N a r.
  Hypothesis Hr : 2 < r.
  Hypothesis Hdiv : (r | fourier_size N).
  Let q := fourier_size N.
  Let h := q / r.
  Lemma q_rh : q = r * h.
  Proof. unfold h. destruct Hdiv as [k E]. fold q in E. rewrite E, Z.div_mul by lia. ring. Qed.
  Lemma h_pos : 0 < h.
  Proof. pose proof (fourier_size_bound N HN) as [_ H]. fold q in H. pose proof q_rh. nia. Qed.
  Lemma odd_prime d : Z.odd d = true -> Z.gcd d r = 1.
  Proof.
    intros Hd. assert (Hp : rel_prime d q).
    { unfold q, fourier_size. apply rel_prime_Zpower_r; [apply Z.log2_up_nonneg|]. apply Zgcd_1_rel_prime. rewrite Z.gcd_comm. exact (odd_gcd2 d Hd). }
    apply Zgcd_1_rel_prime. apply rel_prime_sym. apply (rel_prime_div q d r); [apply rel_prime_sym; exact Hp|exact Hdiv].
  Qed.
  Lemma r_even : Z.odd r = false.
  Proof. destruct (Z.odd r) eqn:E; [|reflexivity]. apply odd_prime in E. rewrite Z.gcd_diag in E. lia. Qed.

  Lemma returned_iff c : 0 <= c < q -> ((c * r) mod q = 0 /\ first_returns N r c = true) <-> exists k, 1 <= k < r / 2 /\ c = (2 * k + 1) * h.
  Proof.
    intros Hc. pose proof q_rh as Eq. pose proof h_pos as Hh. pose proof (size_q N HN) as Hq. fold q in Hq. pose proof r_even as Hev.
    assert (Er : r = 2 * (r / 2)) by (rewrite Zodd_mod in Hev; pose proof (Z.div_mod r 2 ltac:(lia)); pose proof (Z.mod_pos_bound r 2 ltac:(lia)); assert (r mod 2 <> 1) by (intros E; rewrite E in Hev; discriminate); lia).
    split.
    - intros [Hm Hf]. apply Z.mod_divide in Hm; [|lia]. destruct Hm as [d Ed]. assert (Ec : c = d * h) by (rewrite Eq in Ed; nia).
      assert (Hd : 0 <= d < r) by (rewrite Ec, Eq in Hc; nia).
      unfold first_returns in Hf. destruct (quantum 1 N (fun _ => c)) as [v|] eqn:E; [|discriminate]. apply Z.eqb_eq in Hf. subst v.
      destruct (quantum_result_top 1 N (fun _ => c) r HN (fun _ => Hc) E) as [->|(j & d' & _ & Hnz & Hcv & Ha & _)]; [lia|]. fold q in Hcv, Ha.
      assert (Hc0 : 0 < c) by lia. destruct (denominators c q d' r ltac:(lia) Hq Hcv) as (d0 & r0 & E0 & H0 & Hg & Hle).
      assert (E1 : d0 * r = r0 * d) by (rewrite Ec, Eq in E0; apply (Z.mul_reg_r _ _ h); [lia|]; rewrite <- !Z.mul_assoc; lia).
      assert (Hdv : (r0 | r)). { apply (Z.gauss r0 d0 r); [exists d; lia|rewrite Z.gcd_comm; exact Hg]. }
      assert (r0 = r) by (apply Z.divide_pos_le in Hdv; lia). subst r0. assert (d0 = d) by nia. subst d0.
      assert (Hodd : Z.odd d = true).
      { destruct (Z.odd d) eqn:Eo; [reflexivity|]. exfalso. assert (H2 : (2 | Z.gcd d r)). { apply Z.gcd_greatest; apply Z.mod_divide; try lia; rewrite Zmod_odd; [rewrite Eo|rewrite Hev]; reflexivity. }
        rewrite Hg in H2. apply Z.divide_pos_le in H2; lia. }
      assert (Hd1 : d <> 1). { intros ->. rewrite Z.mul_1_l in Ec. subst c. rewrite Eq in Hcv. apply unit_fraction in Hcv; [|lia|lia]. destruct Ha as [Ha _]. lia. }
      exists (d / 2). rewrite Zodd_mod in Hodd. apply Zeq_bool_eq in Hodd. pose proof (Z.div_mod d 2 ltac:(lia)). assert (Ed2 : d = 2 * (d / 2) + 1) by lia. split; [lia|]. rewrite <- Ed2. exact Ec.
    - intros (k & Hk & ->). set (d := 2 * k + 1). split; [rewrite Eq; replace (d * h * r) with (d * (r * h)) by ring; apply Z.mod_mul; nia|].
      unfold first_returns. assert (Hg : Z.gcd d r = 1) by (apply odd_prime; unfold d; rewrite Z.add_comm, Z.odd_add_mul_2; reflexivity).
      assert (Hdr : 1 < d < r) by (unfold d; lia). fold d in Hc.
      assert (Hq1 : quantum 1 N (fun _ => d * h) = Ok r).
      { apply (quantum_order 1 N a (fun _ => d * h) 0 d r HN (fun _ => Hc) Ho).
        - exists (r / 2). lia.
        - exact Hdr.
        - exact Hg.
        - lia.
        - intros i Hi. lia.
        - nia.
        - unfold near. fold q. rewrite Eq. replace (d * h * r - d * (r * h)) with 0 by ring. cbn. lia.
        - fold q. intros d' r' Hcv _. destruct (denominators (d * h) q d' r' ltac:(split; [nia|lia]) Hq Hcv) as (d0 & r0 & E0 & H0 & Hg0 & Hle).
          assert (E1 : d0 * r = r0 * d) by (rewrite Eq in E0; apply (Z.mul_reg_r _ _ h); [lia|]; rewrite <- !Z.mul_assoc; lia).
          assert (Hdv : (r0 | r)). { apply (Z.gauss r0 d0 r); [exists d; lia|rewrite Z.gcd_comm; exact Hg0]. }
          apply Z.divide_pos_le in Hdv; lia. }
      rewrite Hq1. apply Z.eqb_refl.
  Qed.

  Lemma sum_drop (l : list Z) (P Q : Z -> bool) (f : Z -> R) : (forall c, In c l -> Q c = false -> f c = 0%R) ->
    sum (filter P l) f = sum (filter (fun c => Q c && P c) l) f.
  Proof.
    induction l as [|c l IH]; intros H; [reflexivity|]. cbn [filter]. rewrite <- (Bool.andb_true_l (P c)) at 1. destruct (Q c) eqn:E.
    - destruct (P c); cbn [andb sum]; rewrite IH by (intros; apply H; [right|]; assumption); reflexivity.
    - cbn [andb]. destruct (P c); cbn [sum]; rewrite IH by (intros; apply H; [right|]; assumption); [|reflexivity].
      rewrite (H c (or_introl eq_refl) E). change (0 + sum (filter (fun c0 => Q c0 && P c0) l) f = sum (filter (fun c0 => Q c0 && P c0) l) f)%R. lra.
  Qed.

  Lemma shor_returned : sum (filter (first_returns N r) (zrange 0 q)) (shor_prob (Z.log2_up (N ^ 2)) N a) = (1 / 2 - 1 / IZR r)%R.
  Proof.
    pose proof q_rh as Eq. pose proof h_pos as Hh. pose proof r_even as Hev.
    assert (Er : r = 2 * (r / 2)) by (rewrite Zodd_mod in Hev; pose proof (Z.div_mod r 2 ltac:(lia)); pose proof (Z.mod_pos_bound r 2 ltac:(lia)); assert (r mod 2 <> 1) by (intros E; rewrite E in Hev; discriminate); lia).
    assert (Hm : 0 < Z.log2_up (N ^ 2)) by (apply Z.log2_up_pos; rewrite Z.pow_2_r; nia).
    assert (Hex : forall c, 0 <= c -> shor_prob (Z.log2_up (N ^ 2)) N a c = (if (c * r) mod q =? 0 then 1 / IZR r else 0)%R) by (intros c Hc; apply (shor_exact _ N a r c); auto; lia).
    rewrite (sum_drop _ _ (fun c => (c * r) mod q =? 0)).
    2: { intros c Hc E. apply in_zrange in Hc. rewrite Hex by lia. rewrite E. reflexivity. }
    rewrite (sum_perm _ (map (fun k => (2 * k + 1) * h) (zrange 1 (r / 2)))).
    - rewrite sum_map. rewrite (sum_ext _ _ (fun _ => (1 / IZR r)%R)).
      + rewrite sum_const_Z. rewrite zlen_zrange by lia. assert (IZR r <> 0%R) by (apply IZR_neq; lia). assert (E2 : (IZR r = 2 * IZR (r / 2))%R) by (rewrite <- mult_IZR; f_equal; exact Er). rewrite minus_IZR.
        replace (IZR (r / 2)) with (IZR r / 2)%R by lra. field. assumption.
      + intros k Hk. apply in_zrange in Hk. rewrite Hex by nia. replace ((2 * k + 1) * h * r) with ((2 * k + 1) * q) by (rewrite Eq; ring). rewrite Z.mod_mul by nia. reflexivity.
    - apply NoDup_Permutation; [apply NoDup_filter, zrange_nodup|apply NoDup_map_inj; [apply zrange_nodup|intros x y _ _ E; nia]|].
      intros c. rewrite filter_In, in_zrange, in_map_iff, Bool.andb_true_iff, Z.eqb_eq. split.
      + intros [Hc H]. apply (returned_iff c Hc) in H. destruct H as (k & Hk & ->). exists k. split; [reflexivity|apply in_zrange; exact Hk].
      + intros (k & <- & Hk). apply in_zrange in Hk. assert (Hc : 0 <= (2 * k + 1) * h < q) by (rewrite Eq; nia). split; [exact Hc|]. apply (returned_iff _ Hc). exists k. auto.
  Qed.
End Two.
