(** Lemmas about bits, registers and the bit helpers of the code. *)
From Coq Require Import ZifyBool.
From Verif Require Import Base S_Bits M_Bits.

(** ** val *)
Lemma val_snoc l b : val (l ++ [b]) = 2 * val l + Z.b2z b.
Proof. unfold val. rewrite fold_left_app. reflexivity. Qed.
Lemma val_nil : val [] = 0.
Proof. reflexivity. Qed.
Lemma val_range l : 0 <= val l < 2 ^ zlen l.
Proof.
  induction l as [|b l IH] using rev_ind.
  - change (val []) with 0. change (zlen (@nil bool)) with 0. lia.
  - rewrite val_snoc, zlen_snoc.
    rewrite Z.pow_add_r by (try apply zlen_nonneg; lia). destruct b; cbn [Z.b2z]; lia.
Qed.
Lemma testbit_val l i : Z.testbit (val l) i = znth false l (zlen l - 1 - i).
Proof.
  revert i. induction l as [|b l IH] using rev_ind; intros i.
  - change (val []) with 0. rewrite Z.testbit_0_l. unfold znth. destruct (_ <? _); auto. destruct (Z.to_nat _); auto.
  - rewrite val_snoc, zlen_snoc.
    destruct (Z.ltb_spec i 0).
    { rewrite Z.testbit_neg_r by auto. symmetry. apply znth_out.
      rewrite zlen_snoc. lia. }
    destruct (Z.eq_dec i 0) as [->|].
    + rewrite Z.testbit_0_r. pose proof (zlen_nonneg l). rewrite znth_nth by lia.
      rewrite app_nth2 by (unfold zlen; lia).
      replace (_ - _)%nat with O by (unfold zlen; lia). reflexivity.
    + replace i with (Z.succ (i - 1)) at 1 by lia. rewrite Z.testbit_succ_r by lia.
      rewrite IH. unfold znth.
      replace (zlen l + 1 - 1 - i) with (zlen l - 1 - (i - 1)) by lia.
      destruct (Z.ltb_spec (zlen l - 1 - (i - 1)) 0); auto.
      rewrite app_nth1; auto. unfold zlen in *. lia.
Qed.
Lemma val_inj l l' : zlen l = zlen l' -> val l = val l' -> l = l'.
Proof.
  intros HL HV. apply list_eq_znth with (d:=false); auto. intros i Hi.
  pose proof (testbit_val l (zlen l - 1 - i)) as E1.
  pose proof (testbit_val l' (zlen l - 1 - i)) as E2.
  rewrite HV in E1. rewrite E2 in E1.
  replace (zlen l - 1 - (zlen l - 1 - i)) with i in E1 by lia.
  replace (zlen l' - 1 - (zlen l - 1 - i)) with i in E1 by lia. auto.
Qed.
Lemma val_app l l' : val (l ++ l') = val l * 2 ^ zlen l' + val l'.
Proof.
  revert l. induction l' as [|b l' IH] using rev_ind; intros l.
  - rewrite app_nil_r. change (zlen (@nil bool)) with 0. change (val []) with 0. change (2 ^ 0) with 1. lia.
  - rewrite app_assoc, !val_snoc, IH, zlen_snoc.
    rewrite Z.pow_add_r by (try apply zlen_nonneg; lia). change (2 ^ 1) with 2. lia.
Qed.
Lemma val_cons b l : val (b :: l) = Z.b2z b * 2 ^ zlen l + val l.
Proof. change (b :: l) with ([b] ++ l). rewrite val_app. cbn [val fold_left]. lia. Qed.

Lemma testbit_high x n i : 0 <= n -> 0 <= x < 2 ^ n -> n <= i -> Z.testbit x i = false.
Proof.
  intros Hn Hx Hi. destruct (Z.eq_dec x 0) as [->|]; [apply Z.testbit_0_l|].
  apply Z.bits_above_log2; try lia.
  assert (Z.log2 x < n) by (apply Z.log2_lt_pow2; lia). lia.
Qed.
Lemma bits_bound x n : 0 <= n -> 0 <= x -> (forall i, n <= i -> Z.testbit x i = false) -> x < 2 ^ n.
Proof.
  intros Hn Hx H. destruct (Z.eq_dec x 0) as [->|]; [lia|].
  apply Z.log2_lt_pow2; [lia|]. destruct (Z.ltb_spec (Z.log2 x) n); auto.
  exfalso. pose proof (Z.bit_log2 x ltac:(lia)) as Hb. rewrite H in Hb by lia. discriminate.
Qed.

Lemma zlen_bits_of k v : 0 <= k -> zlen (bits_of k v) = k.
Proof. intros. unfold bits_of. rewrite zlen_map, zlen_zrange; lia. Qed.
Lemma znth_bits_of k v i : 0 <= i < k -> znth false (bits_of k v) i = Z.testbit v (k - 1 - i).
Proof. intros. unfold bits_of. rewrite znth_map_zrange by lia. f_equal. Qed.
Lemma val_bits_of k v : 0 <= k -> val (bits_of k v) = v mod 2 ^ k.
Proof.
  intros Hk. apply Z.bits_inj'. intros i Hi.
  rewrite testbit_val, zlen_bits_of by auto.
  destruct (Z.ltb_spec i k).
  - rewrite znth_bits_of by lia. rewrite Z.mod_pow2_bits_low by lia. f_equal; lia.
  - rewrite Z.mod_pow2_bits_high by lia. apply znth_out. lia.
Qed.
Lemma bits_of_val l : bits_of (zlen l) (val l) = l.
Proof.
  apply val_inj.
  - apply zlen_bits_of, zlen_nonneg.
  - rewrite val_bits_of by apply zlen_nonneg. apply Z.mod_small. apply val_range.
Qed.
Lemma testbit_bits_small k v i : 0 <= k -> 0 <= v < 2^k -> Z.testbit v i = znth false (bits_of k v) (k - 1 - i).
Proof.
  intros. rewrite <- (Z.mod_small v (2^k)) at 1 by auto. rewrite <- val_bits_of by auto.
  rewrite testbit_val, zlen_bits_of; auto.
Qed.
Lemma bits_of_succ k v : 0 <= k -> bits_of (k + 1) v = bits_of k (v / 2) ++ [Z.odd v].
Proof.
  intros. unfold bits_of. rewrite (zrange_snoc 0 (k+1)) by lia. rewrite map_app.
  replace (k + 1 - 1) with k by lia. cbn [map]. f_equal.
  - apply map_zrange_ext. intros i Hi. 
    rewrite Z.div2_bits by lia. f_equal. lia.
  - f_equal. replace (k - k) with 0 by lia. apply Z.bit0_odd.
Qed.

Lemma mkstate_range n f : 0 <= n -> 0 <= mkstate n f < 2 ^ n.
Proof.
  intros. unfold mkstate. pose proof (val_range (map f (zrange 0 n))) as R.
  rewrite zlen_map, zlen_zrange in R by lia. replace (n - 0) with n in R by lia. exact R.
Qed.
Lemma qbit_mkstate n f q : 0 <= q < n -> qbit n (mkstate n f) q = f q.
Proof.
  intros. unfold qbit, mkstate. rewrite testbit_val, zlen_map, zlen_zrange by lia.
  rewrite znth_map_zrange by lia. f_equal; lia.
Qed.
Lemma qbit_ext n x y :
  0 <= n -> 0 <= x < 2 ^ n -> 0 <= y < 2 ^ n -> (forall q, 0 <= q < n -> qbit n x q = qbit n y q) -> x = y.
Proof.
  intros Hn Hx Hy H. apply Z.bits_inj'. intros i Hi.
  destruct (Z.ltb_spec i n).
  - specialize (H (n - 1 - i) ltac:(lia)). unfold qbit in H.
    replace (n - 1 - (n - 1 - i)) with i in H by lia. exact H.
  - rewrite !(testbit_high _ n) by lia. reflexivity.
Qed.
Lemma mkstate_qbit n x : 0 <= n -> 0 <= x < 2 ^ n -> mkstate n (qbit n x) = x.
Proof.
  intros. apply (qbit_ext n); auto using mkstate_range. intros. apply qbit_mkstate; auto.
Qed.
Lemma mkstate_ext n f g : (forall q, 0 <= q < n -> f q = g q) -> mkstate n f = mkstate n g.
Proof. intros. unfold mkstate. f_equal. apply map_zrange_ext; auto. Qed.

(** ** registers *)
Lemma reg_range n g x : 0 <= reg n g x < 2 ^ zlen g.
Proof. unfold reg. pose proof (val_range (map (qbit n x) g)) as R. rewrite zlen_map in R. exact R. Qed.
Lemma reg_testbit n g x j :
  0 <= j < zlen g -> Z.testbit (reg n g x) (zlen g - 1 - j) = qbit n x (znth 0 g j).
Proof.
  intros. unfold reg. rewrite testbit_val, zlen_map.
  replace (zlen g - 1 - (zlen g - 1 - j)) with j by lia. apply znth_map; auto.
Qed.
Lemma reg_ext n g x y : (forall q, In q g -> qbit n x q = qbit n y q) -> reg n g x = reg n g y.
Proof. intros. unfold reg. f_equal. apply map_ext_in; auto. Qed.
Lemma znth_in {A} (d : A) l i : 0 <= i < zlen l -> In (znth d l i) l.
Proof. intros. rewrite znth_nth by lia. apply nth_In. unfold zlen in *; lia. Qed.
Lemma in_znth {A} (d : A) l x : In x l -> exists i, 0 <= i < zlen l /\ znth d l i = x.
Proof.
  intros H. apply (In_nth _ _ d) in H as (k & Hk & E). exists (Z.of_nat k).
  split; [unfold zlen; lia|]. rewrite znth_nth by lia. rewrite Nat2Z.id. auto.
Qed.
Lemma znth_nodup {A} (d : A) l i j :
  NoDup l -> 0 <= i < zlen l -> 0 <= j < zlen l -> znth d l i = znth d l j -> i = j.
Proof.
  intros ND Hi Hj E. rewrite !znth_nth in E by lia. unfold zlen in *.
  apply (proj1 (NoDup_nth l d)) in E; auto; lia.
Qed.
Lemma reg_inj n g x y q : reg n g x = reg n g y -> In q g -> qbit n x q = qbit n y q.
Proof.
  intros E Hq. apply (in_znth 0) in Hq as (j & Hj & <-).
  rewrite <- !reg_testbit by auto. rewrite E. auto.
Qed.
Lemma reg_app n g g' x : reg n (g ++ g') x = reg n g x * 2 ^ zlen g' + reg n g' x.
Proof. unfold reg. rewrite map_app, val_app, zlen_map. auto. Qed.
Lemma reg_nil n x : reg n [] x = 0.
Proof. reflexivity. Qed.
Lemma reg_full n x : 0 <= n -> 0 <= x < 2 ^ n -> reg n (zrange 0 n) x = x.
Proof. intros. exact (mkstate_qbit n x H H0). Qed.

Lemma idx_none q g : idx q g = None <-> ~ In q g.
Proof.
  induction g as [|q' g IH]; cbn; [tauto|].
  destruct (Z.eqb_spec q q'); [subst; split; [discriminate|tauto]|].
  destruct (idx q g); cbn; split; intros H; try discriminate; auto.
  - exfalso. assert (Some z = None) by (apply IH; auto). discriminate.
  - intros [->|Hin]; auto. apply IH; auto.
Qed.
Lemma idx_some q g i : idx q g = Some i -> 0 <= i < zlen g /\ znth 0 g i = q.
Proof.
  revert i. induction g as [|q' g IH]; cbn [idx]; [discriminate|]. intros i.
  destruct (Z.eqb_spec q q').
  - intros E; inversion E; subst. split; [rewrite zlen_cons; pose proof (zlen_nonneg g); lia|]. reflexivity.
  - destruct (idx q g) as [k|]; cbn [option_map]; [|discriminate]. intros E. assert (i = 1 + k) by congruence. subst i. rewrite zlen_cons.
    destruct (IH k eq_refl) as [? E']. split; [lia|].
    rewrite znth_nth in * by lia. replace (Z.to_nat (Z.add 1 k)) with (S (Z.to_nat k)) by lia.
    exact E'.
Qed.
Lemma idx_znth g i : NoDup g -> 0 <= i < zlen g -> idx (znth 0 g i) g = Some i.
Proof.
  intros ND Hi. destruct (idx (znth 0 g i) g) as [k|] eqn:E.
  - apply idx_some in E as [Hk E]. f_equal. eapply znth_nodup; eauto.
  - apply idx_none in E. exfalso. apply E. apply znth_in; auto.
Qed.

Lemma setreg_range n g x v : 0 <= n -> 0 <= setreg n g x v < 2 ^ n.
Proof. intros. apply mkstate_range; auto. Qed.
Lemma qbit_setreg_in n g x v j :
  qubits_ok n g -> 0 <= j < zlen g ->
  qbit n (setreg n g x v) (znth 0 g j) = Z.testbit v (zlen g - 1 - j).
Proof.
  intros [ND Hg] Hj. unfold setreg. rewrite qbit_mkstate.
  - rewrite idx_znth by auto. auto.
  - apply Hg. apply znth_in; auto.
Qed.
Lemma qbit_setreg_out n g x v q :
  0 <= q < n -> ~ In q g -> qbit n (setreg n g x v) q = qbit n x q.
Proof.
  intros. unfold setreg. rewrite qbit_mkstate by auto.
  destruct (idx q g) eqn:E; auto. assert (idx q g = None) by (apply idx_none; auto). congruence.
Qed.
Lemma reg_setreg n g x v : qubits_ok n g -> 0 <= v < 2 ^ zlen g -> reg n g (setreg n g x v) = v.
Proof.
  intros Hg Hv. pose proof (zlen_nonneg g) as Hl.
  rewrite <- (Z.mod_small v (2 ^ zlen g)) at 2 by auto. rewrite <- val_bits_of by auto.
  unfold reg. f_equal. apply list_eq_znth with (d:=false).
  - rewrite zlen_map, zlen_bits_of; auto.
  - rewrite zlen_map. intros i Hi. rewrite znth_map with (d:=0) by auto.
    rewrite qbit_setreg_in by auto. rewrite znth_bits_of by auto. auto.
Qed.
Lemma reg_setreg_disj n g g' x v :
  (forall q, In q g' -> 0 <= q < n /\ ~ In q g) -> reg n g' (setreg n g x v) = reg n g' x.
Proof. intros H. apply reg_ext. intros q Hq. destruct (H q Hq). apply qbit_setreg_out; auto. Qed.
Lemma setreg_reg n g x y :
  0 <= n -> 0 <= y < 2 ^ n -> qubits_ok n g -> (forall q, 0 <= q < n -> ~ In q g -> qbit n x q = qbit n y q) ->
  setreg n g x (reg n g y) = y.
Proof.
  intros Hn Hy Hg H. apply (qbit_ext n); auto using setreg_range. intros q Hq.
  destruct (in_dec Z.eq_dec q g) as [Hin|Hout].
  - apply (in_znth 0) in Hin as (j & Hj & <-). rewrite qbit_setreg_in by auto. apply reg_testbit; auto.
  - rewrite qbit_setreg_out by auto. auto.
Qed.
Lemma setreg_idem n g x v w :
  0 <= n -> qubits_ok n g -> setreg n g (setreg n g x v) w = setreg n g x w.
Proof.
  intros Hn Hg. apply (qbit_ext n); auto using setreg_range. intros q Hq.
  destruct (in_dec Z.eq_dec q g) as [Hin|Hout].
  - apply (in_znth 0) in Hin as (j & Hj & <-). rewrite !qbit_setreg_in by auto. auto.
  - rewrite !qbit_setreg_out by auto. auto.
Qed.
Lemma setreg_comm n g g' x v w :
  0 <= n -> qubits_ok n g -> qubits_ok n g' -> (forall q, In q g -> ~ In q g') ->
  setreg n g (setreg n g' x w) v = setreg n g' (setreg n g x v) w.
Proof.
  intros Hn Hg Hg' Hd. apply (qbit_ext n); auto using setreg_range. intros q Hq.
  destruct (in_dec Z.eq_dec q g) as [Hin|Hout].
  - rewrite (qbit_setreg_out n g' _ _ q) by auto.
    apply (in_znth 0) in Hin as (j & Hj & <-). rewrite !qbit_setreg_in by auto. auto.
  - rewrite (qbit_setreg_out n g _ _ q) by auto.
    destruct (in_dec Z.eq_dec q g') as [Hin|Hout'].
    + apply (in_znth 0) in Hin as (j & Hj & <-). rewrite !qbit_setreg_in by auto. auto.
    + rewrite !qbit_setreg_out by auto. auto.
Qed.
Lemma setreg_ext_base n g x y v :
  (forall q, 0 <= q < n -> ~ In q g -> qbit n x q = qbit n y q) -> setreg n g x v = setreg n g y v.
Proof.
  intros H. apply mkstate_ext. intros q Hq. destruct (idx q g) eqn:E; auto.
  apply H; auto. apply idx_none; auto.
Qed.
Lemma setreg_inj_v n g x y v w :
  qubits_ok n g -> 0 <= v < 2 ^ zlen g -> 0 <= w < 2 ^ zlen g ->
  setreg n g x v = setreg n g y w -> v = w.
Proof. intros Hg Hv Hw E. rewrite <- (reg_setreg n g x v), <- (reg_setreg n g y w), E; auto. Qed.

(** ** python bit arrays *)
Lemma uint_to_bitarray_spec num n :
  0 <= n -> uint_to_bitarray num n = map Z.b2z (bits_of n num).
Proof.
  intros Hn. unfold uint_to_bitarray.
  assert (H : (fun j st => st = (rev (map Z.b2z (bits_of j num)), Z.shiftr num j)) n
    (fold_left (fun '(bits, num) _ => (bits ++ [num mod 2], Z.shiftr num 1)) (zrange 0 n) ([], num))).
  { apply (fold_zrange_inv (fun j st => st = (rev (map Z.b2z (bits_of j num)), Z.shiftr num j))); auto.
    intros j st Hj ->. rewrite Z.shiftr_shiftr by lia. f_equal.
    unfold bits_of. rewrite (zrange_cons 0 (j + 1)) by lia. cbn [map rev].
    replace (zrange (0 + 1) (j + 1)) with (map (fun i => i + 1) (zrange 0 j)) by (symmetry; apply zrange_shift).
    rewrite !map_map. f_equal.
    - f_equal. apply map_ext. intros i. f_equal. f_equal. lia.
    - f_equal. replace (j + 1 - 1 - 0) with j by lia.
      replace (Z.shiftr num j mod 2) with (Z.shiftr num j mod 2^1) by reflexivity.
      rewrite <- Z.land_ones by lia. change (Z.ones 1) with 1.
      rewrite Z.testbit_spec' by lia. rewrite Z.shiftr_div_pow2 by lia.
      change 1 with (Z.ones 1). rewrite Z.land_ones by lia. reflexivity. }
  cbv beta in H. rewrite H. cbn [fst]. apply rev_involutive.
Qed.
Lemma bitarray_to_uint_spec bits :
  bitarray_to_uint bits = Ok (val (map (fun b => negb (b =? 0)) bits)).
Proof.
  unfold bitarray_to_uint. set (L := zlen bits).
  destruct (mfold_zrange_inv
    (fun j s => s = val (map (fun b => negb (b =? 0)) (skipn (Z.to_nat (L - j)) bits)))
    (fun s i => do b <- pyget bits (zlen bits - i - 1);
                    Ok (s + (if (b =? 0) then 0 else 2 ^ i))) 0 L 0) as (s & E & Hs).
  - apply zlen_nonneg.
  - replace (L - 0) with L by lia. unfold L, zlen. rewrite Nat2Z.id. rewrite skipn_all. reflexivity.
  - intros j s Hj ->. fold L. rewrite (pyget_ok 0) by (fold L; lia). cbn [bind].
    eexists; split; [reflexivity|].
    replace (L - j - 1) with (L - (j + 1)) by lia.
    assert (SK : skipn (Z.to_nat (L - (j + 1))) bits
                 = znth 0 bits (L - (j + 1)) :: skipn (Z.to_nat (L - j)) bits).
    { rewrite znth_nth by lia. replace (Z.to_nat (L - j)) with (S (Z.to_nat (L - (j + 1)))) by lia.
      clear - Hj. assert (Hl : (Z.to_nat (L - (j + 1)) < length bits)%nat) by (unfold L, zlen in *; lia).
      clear Hj. revert Hl. generalize (Z.to_nat (L - (j + 1))). clear j. subst L.
      induction bits as [|b bits IH]; cbn; [lia|]. intros k Hk. destruct k; cbn; auto.
      apply IH. lia. }
    rewrite SK. cbn [map]. rewrite val_cons. rewrite zlen_map.
    replace (zlen (skipn (Z.to_nat (L - j)) bits)) with j
      by (unfold zlen; rewrite skipn_length; unfold L, zlen in *; lia).
    destruct (znth 0 bits (L - (j + 1)) =? 0); cbn [negb Z.b2z]; lia.
  - fold L in E |- *. rewrite E. f_equal. rewrite Hs. replace (L - L) with 0 by lia. reflexivity.
Qed.
Lemma b2z_truth b : negb (Z.b2z b =? 0) = b.
Proof. destruct b; reflexivity. Qed.
Lemma map_b2z_truth l : map (fun b => negb (b =? 0)) (map Z.b2z l) = l.
Proof. rewrite map_map. rewrite <- (map_id l) at 2. apply map_ext. apply b2z_truth. Qed.

Lemma uint_roundtrip x n : 0 <= n -> bitarray_to_uint (uint_to_bitarray x n) = Ok (x mod 2 ^ n).
Proof.
  intros. rewrite uint_to_bitarray_spec, bitarray_to_uint_spec by auto.
  rewrite map_b2z_truth, val_bits_of; auto.
Qed.
Lemma bitarray_roundtrip bits :
  (forall b, In b bits -> b = 0 \/ b = 1) ->
  exists v, bitarray_to_uint bits = Ok v /\ 0 <= v < 2 ^ zlen bits /\ uint_to_bitarray v (zlen bits) = bits.
Proof.
  intros H. eexists. split; [apply bitarray_to_uint_spec|]. split.
  - pose proof (val_range (map (fun b => negb (b =? 0)) bits)) as R. rewrite zlen_map in R. exact R.
  - rewrite uint_to_bitarray_spec by apply zlen_nonneg.
    rewrite <- (zlen_map (fun b => negb (b =? 0)) bits) at 1. rewrite bits_of_val.
    rewrite map_map. rewrite <- (map_id bits) at 2. apply map_ext_in.
    intros b Hb. destruct (H b Hb) as [->| ->]; reflexivity.
Qed.

Lemma uint_to_bitarray_get x n q : 0 <= q < n ->
  pyget (uint_to_bitarray x n) q = Ok (Z.b2z (qbit n x q)).
Proof.
  intros. rewrite uint_to_bitarray_spec by lia.
  rewrite (pyget_ok 0) by (rewrite zlen_map, zlen_bits_of; lia). f_equal.
  rewrite znth_map with (d:=false) by (rewrite zlen_bits_of; lia). f_equal. apply znth_bits_of; auto.
Qed.

(** ** qubit_index_notation *)
Lemma firstn_skipn_zrange a b n : 0 <= a <= b -> b <= n ->
  firstn (Z.to_nat (b - a)) (skipn (Z.to_nat a) (zrange 0 n)) = zrange a b.
Proof.
  intros. rewrite (zrange_app 0 a n) by lia. rewrite skipn_app, skipn_all2 by (rewrite zrange_length; lia).
  rewrite zrange_length. replace (Z.to_nat a - Z.to_nat (a - 0))%nat with O by lia. cbn [skipn app].
  rewrite (zrange_app a b n) by lia. rewrite firstn_app, zrange_length.
  replace (Z.to_nat (b - a) - Z.to_nat (b - a))%nat with O by lia. cbn [firstn].
  rewrite app_nil_r. apply firstn_all2. rewrite zrange_length. lia.
Qed.
Lemma pyslice_map {A B} (f : A -> B) l a b : pyslice (map f l) a b = map f (pyslice l a b).
Proof. unfold pyslice. rewrite skipn_map, firstn_map. auto. Qed.

Lemma fold_add_shift l a : fold_left Z.add l a = a + fold_left Z.add l 0.
Proof. revert a; induction l as [|x l IH]; cbn; intros; [lia|]. rewrite IH, (IH x). lia. Qed.

Lemma qubit_index_notation_spec i qns :
  (forall k, In k qns -> 0 <= k) ->
  let n := fold_left Z.add qns 0 in
  qubit_index_notation i qns None = Ok (map (fun g => reg n g i) (registers 0 qns)).
Proof.
  intros Hk n. unfold qubit_index_notation. fold n.
  assert (G : forall l start acc, (forall k, In k l -> 0 <= k) -> 0 <= start ->
    start + fold_left Z.add l 0 = n ->
    mfold (fun '(acc, start) qubit_size =>
       do num <- bitarray_to_uint (pyslice (uint_to_bitarray i n) start (start + qubit_size));
       Ok (acc ++ [num], start + qubit_size)) l (acc, start)
    = Ok (acc ++ map (fun g => reg n g i) (registers start l), n)).
  { clear Hk. induction l as [|k l IH]; intros start acc Hk Hs Hn.
    - cbn in *. rewrite app_nil_r. repeat f_equal. lia.
    - cbn [fold_left] in Hn. rewrite fold_add_shift in Hn.
      assert (0 <= k) by (apply Hk; cbn; auto).
      assert (Hp : 0 <= fold_left Z.add l 0).
      { clear - Hk. assert (forall a, 0 <= a -> 0 <= fold_left Z.add l a); [|apply H; lia].
        induction l as [|x l IH]; cbn; intros a Ha; auto. apply IH.
        - cbn in Hk. intros k' Hk'. apply Hk. cbn in *. intuition.
        - assert (0 <= x) by (apply Hk; cbn; auto). lia. }
      cbn [mfold]. rewrite uint_to_bitarray_spec by lia. unfold bits_of at 1.
      rewrite map_map, pyslice_map. unfold pyslice.
      rewrite firstn_skipn_zrange by lia. rewrite bitarray_to_uint_spec. cbn [bind].
      rewrite <- uint_to_bitarray_spec by lia. rewrite IH; try lia.
      + cbn [registers map]. rewrite <- app_assoc. cbn. repeat f_equal.
        rewrite map_map. unfold reg. f_equal. apply map_ext. intros q. apply b2z_truth.
      + intros; apply Hk; cbn; auto. }
  rewrite G; auto; lia.
Qed.

(** ** get_bit, set_bit *)
Lemma get_bit_spec num i : 0 <= i -> get_bit num i = Z.b2z (Z.testbit num i).
Proof.
  intros. unfold get_bit. change 1 with (Z.ones 1). rewrite Z.land_ones by lia.
  rewrite Z.testbit_spec', Z.shiftr_div_pow2 by lia. reflexivity.
Qed.
Lemma set_bit_spec num i value j :
  0 <= i -> 0 <= j ->
  Z.testbit (set_bit num i value) j = if (j =? i) then negb (value =? 0) else Z.testbit num j.
Proof.
  intros. unfold set_bit. rewrite Z.lxor_spec, Z.land_spec, Z.lxor_spec.
  rewrite Z.shiftl_spec by lia.
  destruct (Z.eqb_spec j i) as [->|].
  - replace (i - i) with 0 by lia. change (Z.testbit 1 0) with true. rewrite andb_true_r.
    destruct (Z.eqb_spec value 0).
    + cbn [Z.opp]. rewrite Z.testbit_0_l. cbn. destruct (Z.testbit num i); reflexivity.
    + change (- (1)) with (-1). rewrite Z.bits_m1 by lia. destruct (Z.testbit num i); reflexivity.
  - assert (Z.testbit 1 (j - i) = false) as ->.
    { destruct (Z.ltb_spec (j - i) 0); [apply Z.testbit_neg_r; lia|].
      apply (testbit_high 1 1); lia. }
    rewrite andb_false_r, xorb_false_r. reflexivity.
Qed.
Lemma set_bit_range n num i value :
  0 <= i < n -> 0 <= num < 2 ^ n -> 0 <= set_bit num i value < 2 ^ n.
Proof.
  intros Hi Hn.
  assert (0 <= set_bit num i value).
  { unfold set_bit. apply Z.lxor_nonneg. split; [|lia]. intros _.
    apply Z.land_nonneg. right. apply Z.shiftl_nonneg. lia. }
  split; auto. apply bits_bound; try lia. intros k Hk. rewrite set_bit_spec by lia.
  destruct (Z.eqb_spec k i); [lia|]. apply (testbit_high _ n); lia.
Qed.

(** ** entwine_bit *)
Lemma rank_succ p b : 0 <= b -> rank p (b + 1) = rank p b + (if p b then 1 else 0).
Proof.
  intros. unfold rank. rewrite (zrange_snoc 0 (b+1)) by lia.
  replace (b + 1 - 1) with b by lia. rewrite filter_app, zlen_app. f_equal.
  cbn. destruct (p b); reflexivity.
Qed.
Lemma rank_0 p : rank p 0 = 0.
Proof. reflexivity. Qed.
Lemma rank_nonneg p b : 0 <= rank p b.
Proof. apply zlen_nonneg. Qed.
Lemma rank_mono p b c : 0 <= b <= c -> rank p b <= rank p c.
Proof.
  intros. unfold rank. rewrite (zrange_app 0 b c) by lia. rewrite filter_app, zlen_app.
  pose proof (zlen_nonneg (filter p (zrange b c))). lia.
Qed.
Lemma rank_compl p b : 0 <= b -> rank p b + rank (fun i => negb (p i)) b = b.
Proof.
  intros H. pattern b. apply natlike_ind; auto.
  intros j Hj E. unfold Z.succ. rewrite !rank_succ by lia. destruct (p j); cbn [negb]; lia.
Qed.
Lemma rank_lt p b c : 0 <= b < c -> p b = true -> rank p b < rank p c.
Proof.
  intros H E. assert (rank p (b+1) <= rank p c) by (apply rank_mono; lia).
  rewrite rank_succ, E in H0 by lia. lia.
Qed.

(** the bit of the entwined number at position [b] *)
Definition pdep_bit (mask vi vn b : Z) : bool :=
  if Z.testbit mask b then Z.testbit vi (rank (Z.testbit mask) b)
  else Z.testbit vn (rank (fun i => negb (Z.testbit mask i)) b).

Lemma land_pow2_shift x b : 0 <= b -> Z.shiftr (Z.land x (2 ^ b)) b = Z.b2z (Z.testbit x b).
Proof.
  intros. rewrite Z.shiftr_land. replace (Z.shiftr (2 ^ b) b) with 1.
  - change (Z.land (Z.shiftr x b) 1) with (get_bit x b). apply get_bit_spec; auto.
  - rewrite Z.shiftr_div_pow2 by lia. symmetry. apply Z.div_same. lia.
Qed.
Lemma pow2_shiftr1 b : 0 < b -> Z.shiftr (2 ^ b) 1 = 2 ^ (b - 1).
Proof.
  intros. rewrite Z.shiftr_div_pow2 by lia. replace b with (b - 1 + 1) at 1 by lia.
  rewrite Z.pow_add_r by lia. apply Z.div_mul. lia.
Qed.

Lemma entwine_bit_spec n k vi vn mask :
  0 <= k <= n -> rank (Z.testbit mask) n = k ->
  entwine_bit k (n - k) vi vn mask = mkstate n (fun q => pdep_bit mask vi vn (n - 1 - q)).
Proof.
  intros Hk Hr. unfold entwine_bit. replace (k + (n - k)) with n by lia.
  set (st0 := (0, k, n - k, _, _, _)).
  pose (P := fun j (st : Z*Z*Z*Z*Z*Z) =>
    let '(m, ni, nn, im, nm, bs) := st in
    m = val (map (fun q => pdep_bit mask vi vn (n - 1 - q)) (zrange 0 j)) /\
    ni = rank (Z.testbit mask) (n - j) /\
    nn = rank (fun i => negb (Z.testbit mask i)) (n - j) /\
    (0 < ni -> im = 2 ^ (ni - 1)) /\ (0 < nn -> nm = 2 ^ (nn - 1)) /\
    (j < n -> bs = 2 ^ (n - 1 - j))).
  assert (H : P n (fold_left (entwine_step n vi vn mask) (zrange 0 n) st0)).
  { apply fold_zrange_inv; [lia| |].
    - unfold P, st0. pose proof (rank_compl (Z.testbit mask) n ltac:(lia)).
      replace (n - 0) with n by lia. repeat split; try lia; intros; rewrite Z.shiftl_1_l; f_equal; lia.
    - intros j [[[[[m ni] nn] im] nm] bs] Hj (-> & -> & -> & Him & Hnm & Hbs).
      rewrite Hbs in * by lia. clear Hbs.
      unfold entwine_step.
      pose proof (rank_succ (Z.testbit mask) (n - 1 - j) ltac:(lia)) as R1.
      pose proof (rank_succ (fun i => negb (Z.testbit mask i)) (n - 1 - j) ltac:(lia)) as R2.
      replace (n - 1 - j + 1) with (n - j) in R1, R2 by lia. cbv beta in R2.
      pose proof (rank_nonneg (Z.testbit mask) (n - 1 - j)).
      pose proof (rank_nonneg (fun i => negb (Z.testbit mask i)) (n - 1 - j)).
      rewrite land_pow2_shift by lia.
      rewrite !Z.shiftl_mul_pow2 by lia. change (2 ^ 1) with 2.
      destruct (Z.testbit mask (n - 1 - j)) eqn:Eb; cbn [Z.b2z negb] in *.
      + change (1 =? 0) with false. cbn [negb].
        rewrite Him by lia. rewrite R1.
        replace (rank (Z.testbit mask) (n - 1 - j) + 1 - 1) with (rank (Z.testbit mask) (n - 1 - j)) by lia.
        rewrite land_pow2_shift by lia.
        unfold P. rewrite R2.
        replace (n - (j + 1)) with (n - 1 - j) by lia.
        repeat split; try lia.
        * rewrite (zrange_snoc 0 (j+1)) by lia. replace (j + 1 - 1) with j by lia.
          rewrite map_app. cbn [map]. rewrite val_snoc. unfold pdep_bit at 3. rewrite Eb. lia.
        * intros. apply pow2_shiftr1. lia.
        * intros. rewrite Hnm by lia. f_equal. lia.
        * intros. rewrite pow2_shiftr1 by lia. f_equal; lia.
      + change (0 =? 0) with true. cbn [negb].
        rewrite Hnm by lia. rewrite R2.
        set (rn := rank (fun i => negb (Z.testbit mask i)) (n - 1 - j)) in *.
        replace (rn + 1 - 1) with rn by lia.
        rewrite land_pow2_shift by lia.
        unfold P. rewrite R1.
        replace (n - (j + 1)) with (n - 1 - j) by lia.
        repeat split; try lia.
        * rewrite (zrange_snoc 0 (j+1)) by lia. replace (j + 1 - 1) with j by lia.
          rewrite map_app. cbn [map]. rewrite val_snoc. unfold pdep_bit at 3. rewrite Eb. fold rn. lia.
        * intros. rewrite Him by lia. f_equal. lia.
        * intros. apply pow2_shiftr1. lia.
        * intros. rewrite pow2_shiftr1 by lia. f_equal; lia. }
  destruct (fold_left _ _ _) as [[[[[m ni] nn] im] nm] bs]. destruct H as (-> & _). reflexivity.
Qed.

Lemma znth_filter_rank p n b :
  0 <= b < n -> p b = true -> znth 0 (filter p (zrange 0 n)) (rank p b) = b.
Proof.
  intros Hb Hp. rewrite (zrange_app 0 b n) by lia. rewrite filter_app.
  rewrite (zrange_cons b n) by lia. cbn [filter]. rewrite Hp.
  rewrite znth_nth by apply rank_nonneg. rewrite app_nth2 by (unfold rank, zlen; lia).
  unfold rank, zlen. rewrite Nat2Z.id, Nat.sub_diag. reflexivity.
Qed.
Lemma znth_rev {A} (d : A) l i : 0 <= i < zlen l -> znth d (rev l) i = znth d l (zlen l - 1 - i).
Proof.
  intros. rewrite !znth_nth by lia. unfold zlen in *. rewrite rev_nth by lia. f_equal. lia.
Qed.

Definition pext (p : Z -> bool) (n x : Z) : Z :=
  val (map (Z.testbit x) (rev (filter p (zrange 0 n)))).
Lemma pext_range p n x : 0 <= pext p n x < 2 ^ rank p n.
Proof.
  unfold pext. pose proof (val_range (map (Z.testbit x) (rev (filter p (zrange 0 n))))) as R.
  rewrite zlen_map, zlen_rev in R. exact R.
Qed.
Lemma pext_testbit p n x b :
  0 <= b < n -> p b = true -> Z.testbit (pext p n x) (rank p b) = Z.testbit x b.
Proof.
  intros Hb Hp. unfold pext. rewrite testbit_val, zlen_map, zlen_rev.
  fold (rank p n). pose proof (rank_lt p b n Hb Hp). pose proof (rank_nonneg p b).
  rewrite znth_map with (d:=0) by (rewrite zlen_rev; fold (rank p n); lia).
  rewrite znth_rev by (fold (rank p n); lia). fold (rank p n).
  replace (rank p n - 1 - (rank p n - 1 - rank p b)) with (rank p b) by lia.
  rewrite znth_filter_rank; auto.
Qed.
Lemma rank_surj p n r : 0 <= n -> 0 <= r < rank p n -> exists b, 0 <= b < n /\ p b = true /\ rank p b = r.
Proof.
  intros Hn. revert r. pattern n. apply natlike_ind; auto.
  - intros r. rewrite rank_0. lia.
  - intros j Hj IH r. unfold Z.succ. rewrite rank_succ by auto. intros Hr.
    destruct (Z.ltb_spec r (rank p j)).
    + destruct (IH r ltac:(lia)) as (b & ? & ? & ?). exists b. repeat split; auto; lia.
    + destruct (p j) eqn:E; [|lia]. exists j. repeat split; auto; lia.
Qed.

Lemma entwine_bits n k vi vn mask b :
  0 <= k <= n -> rank (Z.testbit mask) n = k -> 0 <= b < n ->
  Z.testbit (entwine_bit k (n - k) vi vn mask) b =
  if Z.testbit mask b then Z.testbit vi (rank (Z.testbit mask) b)
  else Z.testbit vn (rank (fun i => negb (Z.testbit mask i)) b).
Proof.
  intros Hk Hr Hb. rewrite entwine_bit_spec by auto.
  pose proof (qbit_mkstate n (fun q => pdep_bit mask vi vn (n - 1 - q)) (n - 1 - b) ltac:(lia)) as Q.
  unfold qbit in Q. replace (n - 1 - (n - 1 - b)) with b in Q by lia. exact Q.
Qed.
Lemma entwine_range n k vi vn mask :
  0 <= k <= n -> rank (Z.testbit mask) n = k -> 0 <= entwine_bit k (n - k) vi vn mask < 2 ^ n.
Proof. intros Hk Hr. rewrite entwine_bit_spec by auto. apply mkstate_range. lia. Qed.
Lemma rank_compl_eq n k mask : 0 <= k <= n -> rank (Z.testbit mask) n = k ->
  rank (fun i => negb (Z.testbit mask i)) n = n - k.
Proof. intros. pose proof (rank_compl (Z.testbit mask) n ltac:(lia)). lia. Qed.
Lemma bits_ext_below k v w :
  0 <= k -> 0 <= v < 2 ^ k -> 0 <= w < 2 ^ k -> (forall i, 0 <= i < k -> Z.testbit v i = Z.testbit w i) -> v = w.
Proof.
  intros Hk Hv Hw H. apply Z.bits_inj'. intros i Hi. destruct (Z.ltb_spec i k); auto.
  rewrite !(testbit_high _ k); auto.
Qed.
Lemma entwine_inj n k mask vi vn wi wn :
  0 <= k <= n -> rank (Z.testbit mask) n = k ->
  0 <= vi < 2 ^ k -> 0 <= wi < 2 ^ k -> 0 <= vn < 2 ^ (n - k) -> 0 <= wn < 2 ^ (n - k) ->
  entwine_bit k (n - k) vi vn mask = entwine_bit k (n - k) wi wn mask -> vi = wi /\ vn = wn.
Proof.
  intros Hk Hr Hvi Hwi Hvn Hwn E. pose proof (rank_compl_eq n k mask Hk Hr) as Hrc. split.
  - apply (bits_ext_below k); auto; try lia. intros r Hr'. rewrite <- Hr in Hr'.
    apply rank_surj in Hr' as (b & Hb & Hp & Hrb); [|lia].
    pose proof (entwine_bits n k vi vn mask b Hk Hr Hb) as B1.
    pose proof (entwine_bits n k wi wn mask b Hk Hr Hb) as B2.
    rewrite Hp, Hrb in *. congruence.
  - apply (bits_ext_below (n - k)); auto; try lia. intros r Hr'. rewrite <- Hrc in Hr'.
    apply rank_surj in Hr' as (b & Hb & Hp & Hrb); [|lia].
    pose proof (entwine_bits n k vi vn mask b Hk Hr Hb) as B1.
    pose proof (entwine_bits n k wi wn mask b Hk Hr Hb) as B2.
    apply negb_true_iff in Hp. rewrite Hp, Hrb in *. congruence.
Qed.
Lemma entwine_surj n k mask x :
  0 <= k <= n -> rank (Z.testbit mask) n = k -> 0 <= x < 2 ^ n ->
  let vi := pext (Z.testbit mask) n x in
  let vn := pext (fun i => negb (Z.testbit mask i)) n x in
  0 <= vi < 2 ^ k /\ 0 <= vn < 2 ^ (n - k) /\ entwine_bit k (n - k) vi vn mask = x.
Proof.
  intros Hk Hr Hx vi vn. pose proof (rank_compl_eq n k mask Hk Hr) as Hrc. split; [|split].
  - rewrite <- Hr. apply pext_range.
  - rewrite <- Hrc. apply pext_range.
  - apply (bits_ext_below n); auto; try lia.
    + apply entwine_range; auto.
    + intros b Hb. rewrite entwine_bits by auto. destruct (Z.testbit mask b) eqn:E.
      * apply pext_testbit; auto.
      * apply (pext_testbit (fun i => negb (Z.testbit mask i))); auto. rewrite E. auto.
Qed.
Lemma entwine_bijective n k mask x :
  0 <= k <= n -> rank (Z.testbit mask) n = k -> 0 <= x < 2 ^ n ->
  exists! v : Z * Z, 0 <= fst v < 2 ^ k /\ 0 <= snd v < 2 ^ (n - k) /\
     entwine_bit k (n - k) (fst v) (snd v) mask = x.
Proof.
  intros Hk Hr Hx. destruct (entwine_surj n k mask x Hk Hr Hx) as (H1 & H2 & H3).
  eexists (_, _). split; [cbn [fst snd]; eauto|].
  intros [wi wn]. cbn [fst snd]. intros (W1 & W2 & W3).
  destruct (entwine_inj n k mask _ _ wi wn Hk Hr H1 W1 H2 W2 ltac:(congruence)) as [-> ->]. reflexivity.
Qed.
