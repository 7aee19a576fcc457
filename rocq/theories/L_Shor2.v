(** Continued fractions: good approximations are among the convergents. Choice of the period. *)
From Verif Require Import Base M_Shor S_Shor L_Shor.

Lemma reduced_eq d r d1 r1 : Z.gcd d r = 1 -> Z.gcd d1 r1 = 1 -> 0 < r -> 0 <= r1 -> r * d1 = r1 * d -> d = d1 /\ r = r1.
Proof.
  intros G G1 Hr Hr1 E.
  assert (D1 : (r | r1)). { apply (Z.gauss r d r1); [exists d1; lia|]. rewrite Z.gcd_comm; auto. }
  assert (D2 : (r1 | r)). { apply (Z.gauss r1 d1 r); [exists d; lia|]. rewrite Z.gcd_comm; auto. }
  assert (r = r1) by (apply Z.divide_antisym_nonneg; auto; lia). subst. split; auto. nia.
Qed.

Section Approx.
  Variables c q d r : Z.
  Hypothesis Hq : 0 < q.
  Hypothesis Hr : 0 < r.
  Hypothesis Hg : Z.gcd d r = 1.
  Hypothesis Hd : 2 * r * Z.abs (r * c - d * q) < q.

  Lemma close_eq d1 r1 : 0 <= r1 <= r -> Z.gcd d1 r1 = 1 -> Z.abs (r1 * c - d1 * q) <= Z.abs (r * c - d * q) -> d = d1 /\ r = r1.
  Proof.
    intros H1 G1 H2. apply reduced_eq; auto; [lia|].
    assert (E : q * (r * d1 - r1 * d) = r1 * (r * c - d * q) - r * (r1 * c - d1 * q)) by ring.
    destruct (Z.eq_dec (r * d1 - r1 * d) 0) as [Z0|Z0]; [lia|]. exfalso.
    assert (q <= Z.abs (q * (r * d1 - r1 * d))) by (rewrite Z.abs_mul; nia).
    assert (Z.abs (q * (r * d1 - r1 * d)) <= r1 * Z.abs (r * c - d * q) + r * Z.abs (r1 * c - d1 * q)).
    { rewrite E. etransitivity; [apply Z.abs_triangle|]. rewrite Z.abs_opp, !Z.abs_mul, (Z.abs_eq r), (Z.abs_eq r1) by lia. lia. }
    nia.
  Qed.

  Lemma det_gcd d1 r1 d2 r2 : Z.abs (d1 * r2 - d2 * r1) = 1 -> Z.gcd d1 r1 = 1.
  Proof.
    intros H. apply Z.bezout_1_gcd. unfold Z.Bezout.
    destruct (Z.abs_spec (d1 * r2 - d2 * r1)) as [[_ E]|[_ E]]; [exists r2, (- d2)|exists (- r2), d2]; lia.
  Qed.

  Lemma loop_close c' q' l : cf_of c' q' l -> forall sg d2 d1 r2 r1, Z.abs sg = 1 -> Z.abs (d1 * r2 - d2 * r1) = 1 -> 0 <= r2 -> 0 <= r1 ->
    r2 * c - d2 * q = sg * c' -> r1 * c - d1 * q = - sg * q' -> 0 <= c' -> 0 <= q' -> r1 <= r ->
    (d, r) = (d1, r1) \/ In (d, r) (fractions_loop l d2 d1 r2 r1).
  Proof.
    induction 1 as [c'|c' q' l Hq' H IH]; intros sg d2 d1 r2 r1 Hs Hdet H2 H1 E2 E1 Hc' Hq0 Hle.
    - left. destruct (close_eq d1 r1) as [-> ->]; auto; [eapply det_gcd; eauto|]. rewrite E1. rewrite Z.mul_0_r. cbn. lia.
    - cbn [fractions_loop]. set (a := c' / q') in *. pose proof (Z.div_mod c' q' ltac:(lia)) as Edm. fold a in Edm.
      pose proof (Z.mod_pos_bound c' q' Hq') as Hm. assert (Ha : 0 <= a) by (apply Z.div_pos; lia).
      assert (Hn0 : 0 <= a * r1 + r2) by nia.
      assert (E' : (a * r1 + r2) * c - (a * d1 + d2) * q = sg * (c' mod q')).
      { replace ((a * r1 + r2) * c - (a * d1 + d2) * q) with (a * (r1 * c - d1 * q) + (r2 * c - d2 * q)) by ring.
        rewrite E1, E2. replace (c' mod q') with (c' - q' * a) by lia. ring. }
      assert (Hdet' : Z.abs ((a * d1 + d2) * r1 - d1 * (a * r1 + r2)) = 1).
      { replace ((a * d1 + d2) * r1 - d1 * (a * r1 + r2)) with (- (d1 * r2 - d2 * r1)) by ring. rewrite Z.abs_opp. auto. }
      destruct (Z_le_gt_dec (a * r1 + r2) r) as [Hn|Hn].
      + right. destruct (IH (- sg) d1 (a * d1 + d2) r1 (a * r1 + r2)) as [->|Hin]; auto; try lia; [left; auto|right; auto].
      + left. (* r1 <= r < next *)
        set (d' := a * d1 + d2) in *. set (r' := a * r1 + r2) in *.
        assert (Eg : exists x y, d = x * d1 + y * d' /\ r = x * r1 + y * r').
        { destruct (Z.abs_spec (d' * r1 - d1 * r')) as [[_ E]|[_ E]]; rewrite Hdet' in E.
          - exists (r * d' - d * r'), (d * r1 - r * d1). split; [transitivity (d * (d' * r1 - d1 * r'))|transitivity (r * (d' * r1 - d1 * r'))]; try ring; rewrite <- E; ring.
          - exists (- (r * d' - d * r')), (- (d * r1 - r * d1)).
            split; [transitivity (d * - (d' * r1 - d1 * r'))|transitivity (r * - (d' * r1 - d1 * r'))]; try ring; rewrite <- E; ring. }
        destruct Eg as (x & y & Ed & Er).
        destruct (close_eq d1 r1) as [-> ->]; auto; [eapply det_gcd; eauto|].
        assert (Edel : r * c - d * q = - sg * (x * q' - y * (c' mod q'))).
        { rewrite Ed, Er. replace ((x * r1 + y * r') * c - (x * d1 + y * d') * q) with (x * (r1 * c - d1 * q) + y * (r' * c - d' * q)) by ring.
          rewrite E1, E'. ring. }
        rewrite Edel, E1, !Z.abs_mul, Z.abs_opp, Hs.
        assert (Hxy : x <> 0 /\ (0 < x /\ y <= 0 \/ x < 0 /\ 0 <= y)).
        { assert (Y1 : y <= 0 -> y * r' <= 0) by (intros; apply Z.mul_nonpos_nonneg; lia).
          assert (Y2 : 1 <= y -> 1 * r' <= y * r') by (intros; apply Z.mul_le_mono_nonneg_r; lia).
          assert (X1 : x <= 0 -> x * r1 <= 0) by (intros; apply Z.mul_nonpos_nonneg; lia).
          assert (X2 : 0 <= x -> 0 <= x * r1) by (intros; apply Z.mul_nonneg_nonneg; lia).
          lia. }
        set (mm := c' mod q') in *. destruct Hxy as [_ [[X Y]|[X Y]]].
        * assert (1 * q' <= x * q') by (apply Z.mul_le_mono_nonneg_r; lia). assert (y * mm <= 0) by (apply Z.mul_nonpos_nonneg; lia).
          rewrite !Z.abs_eq by lia. lia.
        * assert (x * q' <= -1 * q') by (apply Z.mul_le_mono_nonneg_r; lia). assert (0 <= y * mm) by (apply Z.mul_nonneg_nonneg; lia).
          rewrite (Z.abs_neq (_ - _)), Z.abs_eq by lia. lia.
  Qed.

  Lemma cf_close l : cf_of c q l -> 0 <= c -> In (d, r) (fractions_loop l 0 1 1 0).
  Proof.
    intros H Hc. destruct (loop_close c q l H 1 0 1 1 0) as [E|]; auto; try lia. inversion E. lia.
  Qed.
End Approx.

(** denominators grow *)
Lemma loop_mono l : forall d2 d1 r2 r1, 0 <= r2 -> 0 < r1 -> (forall a, In a l -> 1 <= a) ->
  forall d r, In (d, r) (fractions_loop l d2 d1 r2 r1) -> r1 <= r.
Proof.
  induction l as [|a l IH]; intros d2 d1 r2 r1 H2 H1 Ha d r Hin; [destruct Hin|]. cbn [fractions_loop] in Hin.
  assert (1 <= a) by (apply Ha; left; auto). destruct Hin as [E|Hin]; [inversion E; nia|].
  apply IH in Hin; try nia. intros; apply Ha; right; auto.
Qed.
