From Verif Require Import Base M_Shor S_Shor.

Lemma int_true_div_ok c q : 0 < c < 2 ^ 53 -> 0 < q -> int_true_div c q = c / q.
Proof.
  intros Hc Hq. unfold int_true_div. set (s := Z.log2 c - Z.log2 q). set (e := if (if 0 <=? s then c <? q * 2 ^ s else c * 2 ^ (- s) <? q) then s - 1 else s).
  destruct (Z.log2_spec c) as [Lc1 Lc2]; [lia|]. destruct (Z.log2_spec q) as [Lq1 Lq2]; [lia|].
  pose proof (Z.log2_nonneg c). pose proof (Z.log2_nonneg q).
  assert (Hl : Z.log2 c < 53) by (apply Z.log2_lt_pow2; lia).
  (* 2^e * q <= c, stated without fractions *)
  assert (He : e <= 52 /\ (0 <= e -> q * 2 ^ e <= c) /\ (e < 0 -> q <= c * 2 ^ (- e))).
  { unfold e. rewrite Z.pow_succ_r in Lc2, Lq2 by lia. destruct (0 <=? s) eqn:E0.
    - apply Z.leb_le in E0. assert (Es : 2 ^ s * 2 ^ Z.log2 q = 2 ^ Z.log2 c) by (rewrite <- Z.pow_add_r by lia; f_equal; lia).
      destruct (c <? q * 2 ^ s) eqn:E1.
      + apply Z.ltb_lt in E1. split; [lia|]. split.
        * intros H1. assert (2 * (q * 2 ^ (s - 1)) = q * 2 ^ s); [|assert (0 < 2 ^ s) by (apply Z.pow_pos_nonneg; lia); nia].
          replace (2 ^ s) with (2 * 2 ^ (s - 1)) by (rewrite <- Z.pow_succ_r by lia; f_equal; lia). ring.
        * intros H1. assert (s = 0) by lia. rewrite H2 in *. change (- (0 - 1)) with 1. change (2 ^ 1) with 2. change (2 ^ 0) with 1 in *. lia.
      + apply Z.ltb_ge in E1. split; [lia|]. split; [lia|]. lia.
    - apply Z.leb_gt in E0. assert (Es : 2 ^ (- s) * 2 ^ Z.log2 c = 2 ^ Z.log2 q) by (rewrite <- Z.pow_add_r by lia; f_equal; lia).
      assert (0 < 2 ^ (- s)) by (apply Z.pow_pos_nonneg; lia).
      destruct (c * 2 ^ (- s) <? q) eqn:E1.
      + split; [lia|]. split; [lia|]. intros _. replace (- (s - 1)) with (Z.succ (- s)) by lia. rewrite Z.pow_succ_r by lia. nia.
      + apply Z.ltb_ge in E1. split; [lia|]. split; [lia|]. intros _. lia. }
  destruct He as (He & He1 & He2). assert (Eb : (0 <=? 52 - e) = true) by (apply Z.leb_le; lia). cbv zeta. rewrite Eb. set (sh := 52 - e) in *.
  assert (Hp : 0 < 2 ^ sh) by (apply Z.pow_pos_nonneg; lia).
  set (k := c / q). assert (Ek : c = q * k + c mod q) by (apply Z.div_mod; lia). pose proof (Z.mod_pos_bound c q Hq).
  assert (Hk : 0 <= k) by (apply Z.div_pos; lia).
  (* the rounded mantissa stays below (k+1) * 2^sh *)
  assert (Hm : 2 * (c * 2 ^ sh) < (2 * ((k + 1) * 2 ^ sh) - 1) * q).
  { assert (q <= 2 ^ sh * 2 - 1 \/ q < 2 * 2 ^ sh); [|nia]. right.
    destruct (Z.leb_spec 0 e) as [Hz|Hz].
    - specialize (He1 Hz). assert (2 * 2 ^ sh * 2 ^ e = 2 ^ 53); [|assert (0 < 2 ^ e) by (apply Z.pow_pos_nonneg; lia); nia].
      rewrite <- Z.mul_assoc, <- Z.pow_add_r by lia. unfold sh. replace (52 - e + e) with 52 by lia. reflexivity.
    - specialize (He2 Hz). assert (2 * 2 ^ sh = 2 ^ 53 * 2 ^ (- e)); [|assert (0 < 2 ^ (- e)) by (apply Z.pow_pos_nonneg; lia); nia].
      unfold sh. rewrite <- Z.pow_add_r by lia. rewrite <- Z.pow_succ_r by lia. f_equal. lia. }
  assert (Hlo : k * 2 ^ sh <= (c * 2 ^ sh) / q) by (apply Z.div_le_lower_bound; nia).
  assert (Ed : c * 2 ^ sh = q * ((c * 2 ^ sh) / q) + (c * 2 ^ sh) mod q) by (apply Z.div_mod; lia).
  pose proof (Z.mod_pos_bound (c * 2 ^ sh) q Hq). set (d := (c * 2 ^ sh) / q) in *. set (rr := (c * 2 ^ sh) mod q) in *.
  assert (Hd : d < (k + 1) * 2 ^ sh) by (unfold d; apply Z.div_lt_upper_bound; nia).
  assert (Hr : k * 2 ^ sh <= div_round_even (c * 2 ^ sh) q < (k + 1) * 2 ^ sh).
  { unfold div_round_even. fold d rr. destruct (2 * rr <? q) eqn:E1; [lia|]. apply Z.ltb_ge in E1.
    assert (d + 1 < (k + 1) * 2 ^ sh) by nia. destruct (q <? 2 * rr); [lia|]. destruct (Z.even d); lia. }
  symmetry. apply Z.div_unique with (r := div_round_even (c * 2 ^ sh) q - k * 2 ^ sh); lia.
Qed.

Lemma coefs_ok fuel : forall c q, 0 < c < 2 ^ 53 -> 0 < q < 2 ^ 53 -> (Z.to_nat (c + 2 * q) <= fuel)%nat ->
  exists l, gen_continued_fraction_coefs fuel c q = Ok l /\ cf_of c q l.
Proof.
  induction fuel as [|fuel IH]; intros c q Hc Hq Hf; [lia|]. cbn [gen_continued_fraction_coefs].
  replace ((0 <? c) && (0 <? q)) with true by lia. rewrite int_true_div_ok by lia.
  replace (c - q * (c / q)) with (c mod q) by (rewrite Z.mod_eq by lia; reflexivity). pose proof (Z.mod_pos_bound c q (proj1 Hq)).
  destruct (Z.eq_dec (c mod q) 0) as [E|E].
  - rewrite E. exists [c / q]. split.
    + destruct fuel; cbn [gen_continued_fraction_coefs]; rewrite Z.ltb_irrefl, Bool.andb_false_r; reflexivity.
    + constructor; [lia|]. rewrite E. constructor.
  - assert (c mod q <= c) by (apply Z.mod_le; lia).
    destruct (IH q (c mod q)) as (l & E1 & E2); [lia|lia|lia|]. exists (c / q :: l). rewrite E1. split; [reflexivity|]. constructor; [lia|exact E2].
Qed.

(** the yields are the values of the prefixes *)
Lemma loop_values l : forall d2 d1 r2 r1 i, (i < length l)%nat ->
  nth_error (fractions_loop l d2 d1 r2 r1) i =
  Some (let (a, b) := cf_value (firstn (S i) l) in (d1 * a + d2 * b, r1 * a + r2 * b)).
Proof.
  induction l as [|x l IH]; intros d2 d1 r2 r1 i Hi; [cbn in Hi; lia|]. destruct i as [|i].
  - cbn. f_equal. f_equal; lia.
  - cbn [fractions_loop nth_error]. rewrite IH by (cbn in Hi; lia). rewrite (firstn_cons (S i) x l). cbn [cf_value]. destruct (cf_value (firstn (S i) l)) as [a b]. f_equal. f_equal; ring.
Qed.
Lemma loop_length l : forall d2 d1 r2 r1, length (fractions_loop l d2 d1 r2 r1) = length l.
Proof. induction l; intros; cbn; [reflexivity|]. rewrite IHl. reflexivity. Qed.

Lemma cf_value_of c q l : cf_of c q l -> 0 < q -> let (d, r) := cf_value l in d * q = r * c /\ 0 < r.
Proof.
  intros H. induction H as [c|c q l Hq H IH]; intros Hp; [lia|]. cbn [cf_value]. pose proof (Z.mod_pos_bound c q Hq) as Hm.
  pose proof (Z.div_mod c q ltac:(lia)) as E. destruct (cf_value l) as [d r] eqn:El.
  destruct (Z.eq_dec (c mod q) 0) as [E0|E0].
  - rewrite E0 in *. inversion H as [c1 E1 E2 E3|]; subst; [|lia]. cbn in El. inversion El; subst. split; nia.
  - destruct IH as [H1 H2]; [lia|]. split; [nia|]. nia.
Qed.

(** determinants *)
Lemma loop_det l : forall d2 d1 r2 r1, Forall (fun p => True) l ->
  forall i a b, nth_error ((d2, r2) :: (d1, r1) :: fractions_loop l d2 d1 r2 r1) i = Some a -> nth_error ((d2, r2) :: (d1, r1) :: fractions_loop l d2 d1 r2 r1) (S i) = Some b ->
  fst b * snd a - fst a * snd b = (d1 * r2 - d2 * r1) * (-1) ^ Z.of_nat i.
Proof.
  induction l as [|x l IH]; intros d2 d1 r2 r1 _ i a b Ha Hb.
  - destruct i as [|[|[|i]]]; cbn in Ha, Hb; try discriminate. inversion Ha; inversion Hb; subst. cbn. ring.
  - destruct i as [|i].
    + cbn in Ha, Hb. inversion Ha; inversion Hb; subst. cbn. ring.
    + rewrite Nat2Z.inj_succ, Z.pow_succ_r by lia. cbn [nth_error] in Ha. cbn [fractions_loop] in Ha, Hb.
      assert (E := IH d1 (x * d1 + d2) r1 (x * r1 + r2) ltac:(apply Forall_forall; auto) i a b Ha Hb). rewrite E. ring.
Qed.

Lemma cf_coefs c q l : cf_of c q l -> 0 <= c -> forall i a, nth_error l i = Some a -> (0 < i)%nat -> 1 <= a.
Proof.
  intros H. induction H as [c|c q l Hq H IH]; intros Hc i a Hn Hi; [destruct i; discriminate|]. destruct i as [|i]; [lia|]. cbn in Hn.
  pose proof (Z.mod_pos_bound c q Hq). destruct i as [|i]; [|apply (IH ltac:(lia) (S i)); [exact Hn|lia]].
  destruct H as [|c' q' l' Hq' H']; [discriminate|]. cbn in Hn. inversion Hn; subst. apply Z.div_le_lower_bound; lia.
Qed.
Lemma cf_first c q a l : cf_of c q (a :: l) -> a = c / q.
Proof. inversion 1; reflexivity. Qed.

Lemma nth_error_ext {A} : forall l l' : list A, (forall i, nth_error l i = nth_error l' i) -> l = l'.
Proof.
  induction l as [|a l IH]; intros l' H; [specialize (H 0%nat); destruct l'; [reflexivity|discriminate]|].
  destruct l' as [|b l']; [specialize (H 0%nat); discriminate|]. assert (E := H 0%nat). cbn in E. injection E as ->. f_equal. apply IH. intros i. exact (H (S i)).
Qed.
(** all convergents *)
Lemma fractions_ok fuel c q : 0 < c < 2 ^ 53 -> 0 < q < 2 ^ 53 -> (Z.to_nat (c + 2 * q) <= fuel)%nat ->
  exists l fs, cf_of c q l /\ gen_continued_fractions fuel c q = Ok fs /\ fs = map (fun i => cf_value (firstn (S i) l)) (seq 0 (length l)).
Proof.
  intros Hc Hq Hf. destruct (coefs_ok fuel c q Hc Hq Hf) as (l & E & Hl). exists l, (fractions_loop l 0 1 1 0). split; [exact Hl|].
  unfold gen_continued_fractions. rewrite E. split; [reflexivity|].
  apply nth_error_ext. intros i. destruct (Nat.lt_ge_cases i (length l)) as [Hi|Hi].
  - rewrite loop_values by exact Hi. symmetry. erewrite map_nth_error.
    2:{ rewrite (nth_error_nth' _ 0%nat) by (rewrite seq_length; exact Hi). rewrite seq_nth by exact Hi. reflexivity. }
    cbn [Nat.add]. destruct (cf_value (firstn (S i) l)) as [a b]. f_equal. f_equal; ring.
  - transitivity (@None (Z * Z)); [|symmetry]; apply nth_error_None; [rewrite loop_length|rewrite map_length, seq_length]; exact Hi.
Qed.

Lemma det_ok fuel c q fs : gen_continued_fractions fuel c q = Ok fs ->
  (forall i d r d' r', nth_error fs i = Some (d, r) -> nth_error fs (S i) = Some (d', r') -> d' * r - d * r' = (-1) ^ Z.of_nat i) /\
  (forall d r, In (d, r) fs -> Z.gcd d r = 1).
Proof.
  unfold gen_continued_fractions. destruct (gen_continued_fraction_coefs fuel c q) as [l|]; [|discriminate]. intros E. injection E as <-.
  pose proof (loop_det l 0 1 1 0 ltac:(apply Forall_forall; auto)) as H. split.
  - intros i d r d' r' H1 H2. specialize (H (S (S i)) (d, r) (d', r') H1 H2). cbn [fst snd] in H. rewrite H.
    rewrite !Nat2Z.inj_succ, !Z.pow_succ_r by lia. ring.
  - intros d r Hin. apply In_nth_error in Hin. destruct Hin as [i Hi].
    destruct (nth_error ((0, 1) :: (1, 0) :: fractions_loop l 0 1 1 0) (S i)) as [[d0 r0]|] eqn:E0.
    + assert (E := H (S i) (d0, r0) (d, r) E0 Hi). cbn [fst snd] in E. apply Z.bezout_1_gcd.
      assert (HS : (-1) ^ Z.of_nat (S i) = 1 \/ (-1) ^ Z.of_nat (S i) = -1).
      { clear. induction i as [|i IH]; [right; reflexivity|]. rewrite Nat2Z.inj_succ, Z.pow_succ_r by lia. lia. }
      unfold Z.Bezout. destruct HS as [HS|HS]; rewrite HS in E; [exists r0, (- d0)|exists (- r0), d0]; lia.
    + exfalso. apply nth_error_None in E0. assert (nth_error (fractions_loop l 0 1 1 0) i <> None) by congruence. apply nth_error_Some in H0. cbn in E0. lia.
Qed.

Lemma last_ok fuel c q : 0 < c < 2 ^ 53 -> 0 < q < 2 ^ 53 -> (Z.to_nat (c + 2 * q) <= fuel)%nat ->
  exists fs d r, gen_continued_fractions fuel c q = Ok (fs ++ [(d, r)]) /\ d * q = r * c /\ 0 < r.
Proof.
  intros Hc Hq Hf. destruct (fractions_ok fuel c q Hc Hq Hf) as (l & fs & Hl & E & Efs).
  assert (Hn : l <> []) by (inversion Hl; subst; [lia|discriminate]).
  pose proof (cf_value_of c q l Hl ltac:(lia)) as Hv. destruct (cf_value l) as [d r] eqn:Ev.
  destruct (length l) as [|k] eqn:El; [destruct l; [congruence|discriminate]|].
  exists (map (fun i => cf_value (firstn (S i) l)) (seq 0 k)), d, r. split; [|exact Hv]. rewrite E, Efs, seq_S, map_app. cbn [map Nat.add].
  rewrite (firstn_all2 l) by lia. rewrite Ev. reflexivity.
Qed.
