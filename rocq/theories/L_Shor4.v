(** Factoring: classical. *)
From Coq Require Import Znumtheory.
From Verif Require Import Base M_Shor S_Shor L_Shor L_Shor2 L_Shor3.

Lemma gcd_pos a N : 0 < N -> 0 < Z.gcd a N.
Proof. intros H. pose proof (Z.gcd_nonneg a N). assert (Z.gcd a N <> 0); [|lia]. intros E. apply Z.gcd_eq_0_r in E. lia. Qed.
Lemma gcd_whole x N : 0 < N -> Z.gcd x N = N -> (N | x).
Proof. intros H E. rewrite <- E. apply Z.gcd_divide_l. Qed.
Lemma nontrivial_gcd x N : 0 < N -> Z.gcd x N <> 1 -> ~ (N | x) -> nontrivial N (Z.gcd x N).
Proof.
  intros HN H1 H2. pose proof (gcd_pos x N HN). pose proof (Z.gcd_divide_r x N) as D. split; auto.
  pose proof (Z.divide_pos_le _ _ HN D). assert (Z.gcd x N <> N); [|lia]. intros E. apply H2. apply gcd_whole; auto.
Qed.
Lemma small_divide N x : 0 < N -> (N | x) -> - N < x < N -> x = 0.
Proof. intros HN [k ->] H. assert (k = 0) by nia. subst. reflexivity. Qed.

Lemma gcd_product N x y : 0 < N -> (N | x * y) -> (N | Z.gcd x N * Z.gcd y N).
Proof.
  intros HN D. pose proof (gcd_pos x N HN) as Hg. destruct (Z.gcd_divide_l x N) as [x' Ex]. destruct (Z.gcd_divide_r x N) as [N' EN].
  set (g := Z.gcd x N) in *. assert (Hcop : Z.gcd x' N' = 1).
  { assert (E : g = g * Z.gcd x' N') ; [|nia]. rewrite <- (Z.gcd_mul_mono_l_nonneg x' N' g) by lia. unfold g at 1. f_equal; lia. }
  assert (DN : (N' | y)).
  { apply (Z.gauss N' x' y); [|rewrite Z.gcd_comm; auto]. destruct D as [k Ek]. exists k. apply (Z.mul_reg_l _ _ g); [lia|].
    replace (g * (x' * y)) with (x * y) by (rewrite Ex; ring). replace (g * (k * N')) with (k * N) by (rewrite EN; ring). auto. }
  assert (D2 : (N' | Z.gcd y N)) by (apply Z.gcd_greatest; auto; exists g; lia).
  destruct D2 as [k Ek]. exists k. rewrite Ek. rewrite EN at 1. ring.
Qed.
Lemma odd_product N x : 0 < N -> Z.odd N = true -> (N | (x + 1) * (x - 1)) -> Z.gcd (x + 1) N * Z.gcd (x - 1) N = N.
Proof.
  intros HN Ho D. pose proof (gcd_pos (x + 1) N HN). pose proof (gcd_pos (x - 1) N HN).
  apply Z.divide_antisym_nonneg; [nia|lia| |apply gcd_product; auto].
  set (f := Z.gcd (x + 1) N) in *. set (g := Z.gcd (x - 1) N) in *.
  assert (Hc : Z.gcd f g = 1).
  { set (e := Z.gcd f g). pose proof (Z.gcd_divide_l f g) as Df. pose proof (Z.gcd_divide_r f g) as Dg. fold e in Df, Dg.
    assert (D1 : (e | x + 1)) by (eapply Z.divide_trans; [exact Df|apply Z.gcd_divide_l]).
    assert (D2 : (e | x - 1)) by (eapply Z.divide_trans; [exact Dg|apply Z.gcd_divide_l]).
    assert (D3 : (e | N)) by (eapply Z.divide_trans; [exact Df|apply Z.gcd_divide_r]).
    assert (D4 : (e | 2)) by (replace 2 with ((x + 1) - (x - 1)) by ring; apply Z.divide_sub_r; auto).
    pose proof (Z.gcd_nonneg f g) as He. fold e in He. assert (Hle : e <= 2) by (apply Z.divide_pos_le; auto; lia).
    assert (e <> 0) by (intros E; unfold e in E; apply Z.gcd_eq_0_l in E; lia).
    assert (e <> 2); [|lia]. intros E. rewrite E in D3. destruct D3 as [k ->]. rewrite Z.odd_mul in Ho. cbn in Ho. rewrite Bool.andb_false_r in Ho. discriminate. }
  destruct (Z.gcd_divide_r (x + 1) N) as [k Ek]. fold f in Ek.
  assert (Dk : (g | k)). { apply (Z.gauss g f k); [|rewrite Z.gcd_comm; auto]. rewrite Z.mul_comm, <- Ek. apply Z.gcd_divide_r. }
  destruct Dk as [m Em]. exists m. rewrite Ek at 1. rewrite Em. ring.
Qed.

Lemma odd_gcd2 N : Z.odd N = true -> Z.gcd 2 N = 1.
Proof.
  intros Ho. pose proof (Z.gcd_divide_l 2 N) as D. pose proof (Z.gcd_nonneg 2 N). assert (Z.gcd 2 N <= 2) by (apply Z.divide_pos_le; auto; lia).
  assert (Z.gcd 2 N <> 0) by (intros E; apply Z.gcd_eq_0_l in E; lia). assert (Z.gcd 2 N <> 2); [|lia].
  intros E. pose proof (Z.gcd_divide_r 2 N) as [k Ek]. rewrite E in Ek. rewrite Ek, Z.odd_mul in Ho. cbn in Ho. rewrite Bool.andb_false_r in Ho. discriminate.
Qed.

Section Classical.
  Variables (N : Z) (choices : nat -> Z) (peaks : nat -> nat -> Z).
  Hypothesis HN : 2 < N <= 2 ^ 14.
  Hypothesis Hc : forall i, 2 <= choices i <= N - 1.
  Hypothesis Hp : forall i j, 0 <= peaks i j < fourier_size N.

  Lemma N53 : N < 2 ^ 53.
  Proof. assert (2 ^ 14 < 2 ^ 53) by reflexivity. lia. Qed.
  Lemma size_q : 0 < fourier_size N < 2 ^ 53.
  Proof. pose proof (fourier_size_bound N HN). lia. Qed.
  Lemma quantum_even qfuel i r : quantum qfuel N (peaks i) = Ok r -> r mod 2 <> 1 -> 0 < r < 2 ^ 53 /\ r = 2 * int_true_div r 2 /\ 0 < int_true_div r 2 /\
    exists j d, convergent (peaks i j) (fourier_size N) d r /\ accepted (fourier_size N) d r.
  Proof.
    intros E Hr. pose proof size_q as Hq. unfold quantum in E. fold (fourier_size N) in E.
    apply (quantum_result (fourier_size N) (peaks i) Hq (Hp i)) in E; auto. destruct E as [->|(j & d & _ & _ & A1 & A2 & _)]; [cbn in Hr; lia|].
    unfold accepted in A2. assert (Hb : 0 < r < 2 ^ 53) by lia. split; auto. rewrite int_true_div_ok by lia. pose proof (Z.div_mod r 2). pose proof (Z.mod_pos_bound r 2).
    split; [lia|]. split; [lia|]. eauto.
  Qed.
  Lemma quantum_ok_or qfuel i : (exists r, quantum qfuel N (peaks i) = Ok r) \/ quantum qfuel N (peaks i) = Raise OutOfFuel.
  Proof.
    destruct (quantum qfuel N (peaks i)) as [r|e] eqn:E; eauto. right. f_equal. unfold quantum in E. fold (fourier_size N) in E.
    eapply quantum_raise; [apply size_q|apply (Hp i)|exact E].
  Qed.

  (** what a result looks like *)
  Lemma classical_result qfuel fuel : forall i f g, classical_loop fuel qfuel N choices peaks i = Ok (f, g) ->
    exists i', (i <= i')%nat /\ let a := choices i' in
     (Z.gcd a N <> 1 /\ f = Z.gcd a N /\ g = N / f) \/
     (Z.gcd a N = 1 /\ exists r, quantum qfuel N (peaks i') = Ok r /\ r mod 2 <> 1 /\ let x := (a ^ int_true_div r 2) mod N in
        x <> N - 1 /\ f = Z.gcd (x + 1) N /\ g = Z.gcd (x - 1) N /\ f <> 1 /\ g <> 1).
  Proof.
    induction fuel as [|fuel IH]; intros i f g E; [discriminate|]. cbn [classical_loop] in E. replace (N - 1 <? 2) with false in E by lia. cbv zeta in E.
    destruct (Z.eqb_spec (Z.gcd (choices i) N) 1) as [G|G].
    2:{ cbn in E. injection E as <- <-. exists i. split; auto. left. split; auto. split; auto. pose proof N53. apply int_true_div_ok; [lia|]. apply gcd_pos; lia. }
    cbn [negb] in E. destruct (quantum qfuel N (peaks i)) as [r|] eqn:Eq; [|discriminate]. cbn [bind] in E.
    assert (Hrec : classical_loop fuel qfuel N choices peaks (S i) = Ok (f, g) -> exists i', (i <= i')%nat /\ let a := choices i' in
     (Z.gcd a N <> 1 /\ f = Z.gcd a N /\ g = N / f) \/
     (Z.gcd a N = 1 /\ exists r, quantum qfuel N (peaks i') = Ok r /\ r mod 2 <> 1 /\ let x := (a ^ int_true_div r 2) mod N in
        x <> N - 1 /\ f = Z.gcd (x + 1) N /\ g = Z.gcd (x - 1) N /\ f <> 1 /\ g <> 1)).
    { intros E'. destruct (IH _ _ _ E') as (i' & Hi' & H). exists i'. split; auto. lia. }
    destruct (Z.eqb_spec (r mod 2) 1); [apply Hrec; exact E|]. destruct (Z.eqb_spec ((choices i ^ int_true_div r 2) mod N) (N - 1)); [apply Hrec; exact E|].
    destruct (Z.eqb_spec (Z.gcd ((choices i ^ int_true_div r 2) mod N + 1) N) 1); [apply Hrec; exact E|].
    destruct (Z.eqb_spec (Z.gcd ((choices i ^ int_true_div r 2) mod N - 1) N) 1); [apply Hrec; exact E|]. cbn in E. injection E as <- <-.
    exists i. split; auto. right. split; auto. exists r. split; auto. split; auto.
  Qed.

  Lemma gcd_factors a : 2 <= a <= N - 1 -> Z.gcd a N <> 1 -> nontrivial N (Z.gcd a N) /\ nontrivial N (N / Z.gcd a N) /\ Z.gcd a N * (N / Z.gcd a N) = N.
  Proof.
    intros Ha G. assert (NT : nontrivial N (Z.gcd a N)). { apply nontrivial_gcd; auto; [lia|]. intros D. apply Z.divide_pos_le in D; lia. }
    split; auto. destruct NT as [B [k Ek]]. assert (Ed : N / Z.gcd a N = k) by (rewrite Ek at 1; apply Z.div_mul; lia).
    rewrite Ed. split; [|lia]. split; [nia|]. exists (Z.gcd a N). lia.
  Qed.

  Lemma classical_odd qfuel fuel i f g : Z.odd N = true -> classical_loop fuel qfuel N choices peaks i = Ok (f, g) -> nontrivial N f /\ nontrivial N g.
  Proof.
    intros Ho E. destruct (classical_result _ _ _ _ _ E) as (i' & _ & [(G & -> & ->)|(G & r & Eq & Er & Hx & -> & -> & H0 & H1)]).
    - destruct (gcd_factors _ (Hc i') G) as (A & B & _). auto.
    - set (x := (choices i' ^ int_true_div r 2) mod N) in *. pose proof (Z.mod_pos_bound (choices i' ^ int_true_div r 2) N ltac:(lia)) as Bx. fold x in Bx.
      split; apply nontrivial_gcd; auto; try lia; intros D.
      + apply small_divide in D; lia.
      + apply small_divide in D; try lia. assert (x = 1) by lia. rewrite H in H0. apply H0. apply odd_gcd2; auto.
  Qed.
  Lemma period_square a r x : period N a r -> r = 2 * x -> 0 <= x -> (N | ((a ^ x) mod N + 1) * ((a ^ x) mod N - 1)).
  Proof.
    intros [_ E] -> Hx. rewrite Z.mul_comm, Z.pow_mul_r, Z.pow_2_r in E by lia. rewrite Z.mul_mod in E by lia.
    set (y := (a ^ x) mod N) in *. replace ((y + 1) * (y - 1)) with (y * y - 1) by ring.
    apply Z.mod_divide; [lia|]. rewrite Zminus_mod, E. rewrite (Z.mod_small 1 N) by lia. rewrite Z.sub_diag. apply Z.mod_0_l. lia.
  Qed.
  Lemma classical_product qfuel fuel i f g : Z.odd N = true ->
    (forall i r, quantum qfuel N (peaks i) = Ok r -> r <> 1 -> period N (choices i) r) ->
    classical_loop fuel qfuel N choices peaks i = Ok (f, g) -> f * g = N.
  Proof.
    intros Ho HP E. destruct (classical_result _ _ _ _ _ E) as (i' & _ & [(G & -> & ->)|(G & r & Eq & Er & Hx & -> & -> & H0 & H1)]).
    - apply (gcd_factors _ (Hc i') G).
    - destruct (quantum_even _ _ _ Eq Er) as (R1 & R2 & R3 & _). apply odd_product; auto; [lia|].
      apply (period_square _ r); auto; [|lia]. apply HP; auto. intros ->. cbn in Er. lia.
  Qed.
  (** the program ends when a round finds an even period with a^(r/2) other than 1 and -1 *)
  Lemma classical_found qfuel fuel : forall k i, (i < fuel)%nat -> (forall i', (i' < i)%nat -> exists r, quantum qfuel N (peaks (k + i')%nat) = Ok r) ->
    (Z.gcd (choices (k + i)%nat) N <> 1 \/ exists r x, quantum qfuel N (peaks (k + i)%nat) = Ok r /\ period N (choices (k + i)%nat) r /\ r = 2 * x /\
       (choices (k + i)%nat ^ x) mod N <> 1 /\ (choices (k + i)%nat ^ x) mod N <> N - 1) ->
    exists fg, classical_loop fuel qfuel N choices peaks k = Ok fg.
  Proof.
    induction fuel as [|fuel IH]; intros k i Hi Hq Hf; [lia|]. cbn [classical_loop]. replace (N - 1 <? 2) with false by lia. cbv zeta.
    destruct (Z.eqb_spec (Z.gcd (choices k) N) 1) as [G|G]; [|cbn; eauto]. cbn [negb]. destruct i as [|i].
    - rewrite Nat.add_0_r in Hf. destruct Hf as [Hf|(r & x & Eq & P & Er & H1 & H2)]; [congruence|]. rewrite Eq. cbn [bind].
      assert (Em : r mod 2 = 0) by (rewrite Er, Z.mul_comm; apply Z.mod_mul; lia). rewrite Em. cbn [Z.eqb].
      destruct (quantum_even _ _ _ Eq ltac:(lia)) as (_ & E2 & _). assert (int_true_div r 2 = x) as -> by lia.
      assert (Hx : 0 <= x) by (destruct P; lia). pose proof (period_square _ _ _ P Er Hx) as D.
      pose proof (Z.mod_pos_bound (choices k ^ x) N ltac:(lia)) as B. set (y := (choices k ^ x) mod N) in *.
      assert (Hy : 0 < y).
      { assert (y <> 0); [|lia]. intros E. rewrite E in D. replace ((0 + 1) * (0 - 1)) with (- (1)) in D by reflexivity. apply Z.divide_opp_r in D. apply Z.divide_1_r in D. lia. }
      replace (y =? N - 1) with false by lia.
      destruct (Z.eqb_spec (Z.gcd (y + 1) N) 1) as [F|F].
      { exfalso. assert (D' : (N | y - 1)) by (apply (Z.gauss N (y + 1) (y - 1)); auto; rewrite Z.gcd_comm; auto). apply small_divide in D'; lia. }
      destruct (Z.eqb_spec (Z.gcd (y - 1) N) 1) as [F'|F'].
      { exfalso. assert (D' : (N | y + 1)) by (apply (Z.gauss N (y - 1) (y + 1)); [rewrite Z.mul_comm; auto|rewrite Z.gcd_comm; auto]). apply Z.divide_pos_le in D'; lia. }
      cbn. eauto.
    - destruct (Hq 0%nat) as [r Er]; [lia|]. rewrite Nat.add_0_r in Er. rewrite Er. cbn [bind].
      assert (HR : exists fg, classical_loop fuel qfuel N choices peaks (S k) = Ok fg).
      { apply (IH (S k) i); [lia| |].
        - intros i' Hi'. destruct (Hq (S i')) as [r' Er']; [lia|]. exists r'. rewrite <- Er'. do 2 f_equal. lia.
        - replace (S k + i)%nat with (k + S i)%nat by lia. auto. }
      destruct (r mod 2 =? 1); auto. destruct (_ =? N - 1); auto. destruct (_ || _); eauto.
  Qed.
  Lemma classical_prime qfuel fuel i : prime N -> classical_loop fuel qfuel N choices peaks i = Raise OutOfFuel.
  Proof.
    intros HPr. assert (Ho : Z.odd N = true).
    { rewrite Zodd_mod. apply Zbool.Zeq_is_eq_bool. destruct (Z.eq_dec (N mod 2) 0) as [E|E]; [|pose proof (Z.mod_pos_bound N 2); lia].
      apply Z.mod_divide in E; [|lia]. destruct (prime_divisors N HPr 2 E) as [?|[?|[?|?]]]; lia. }
    destruct (classical_loop fuel qfuel N choices peaks i) as [[f g]|e] eqn:E.
    - destruct (classical_odd _ _ _ _ _ Ho E) as [[B D] _]. destruct (prime_divisors N HPr f D) as [?|[?|[?|?]]]; lia.
    - f_equal. revert i E. induction fuel as [|fuel IH]; intros i E; [cbn in E; congruence|]. cbn [classical_loop] in E. replace (N - 1 <? 2) with false in E by lia. cbv zeta in E.
      destruct (Z.gcd (choices i) N =? 1); [|discriminate]. cbn [negb] in E. destruct (quantum_ok_or qfuel i) as [[r Er]|Er]; rewrite Er in E; cbn [bind] in E; [|congruence].
      destruct (r mod 2 =? 1); [eauto|]. destruct (_ =? N - 1); [eauto|]. destruct (_ || _); [eauto|discriminate].
  Qed.
End Classical.

(** ** the theorems *)
Lemma classical_le fuel qfuel N choices peaks r : classical fuel qfuel N choices peaks = Ok r -> N <= 2 ^ 14 /\ classical_loop fuel qfuel N choices peaks 0 = Ok r.
Proof. unfold classical. destruct (Z.ltb_spec (2 ^ 14) N); [discriminate|auto]. Qed.
Lemma classical_odd_top fuel qfuel N choices peaks f g : 2 < N -> Z.odd N = true ->
  (forall i, 2 <= choices i <= N - 1) -> (forall i j, 0 <= peaks i j < fourier_size N) ->
  classical fuel qfuel N choices peaks = Ok (f, g) -> nontrivial N f /\ nontrivial N g.
Proof. intros HN Ho Hc Hp E. apply classical_le in E. destruct E. eapply (classical_odd N); eauto. Qed.
Lemma classical_product_top fuel qfuel N choices peaks f g : 2 < N -> Z.odd N = true ->
  (forall i, 2 <= choices i <= N - 1) -> (forall i j, 0 <= peaks i j < fourier_size N) ->
  (forall i r, quantum qfuel N (peaks i) = Ok r -> r <> 1 -> period N (choices i) r) ->
  classical fuel qfuel N choices peaks = Ok (f, g) -> f * g = N.
Proof. intros HN Ho Hc Hp HP E. apply classical_le in E. destruct E. eapply (classical_product N); eauto. Qed.
Lemma classical_found_top fuel qfuel N choices peaks i : 2 < N <= 2 ^ 14 ->
  (forall i, 2 <= choices i <= N - 1) -> (forall i j, 0 <= peaks i j < fourier_size N) -> (i < fuel)%nat ->
  (forall i', (i' < i)%nat -> exists r, quantum qfuel N (peaks i') = Ok r) ->
  (Z.gcd (choices i) N <> 1 \/ exists r x, quantum qfuel N (peaks i) = Ok r /\ period N (choices i) r /\ r = 2 * x /\
     (choices i ^ x) mod N <> 1 /\ (choices i ^ x) mod N <> N - 1) ->
  exists fg, classical fuel qfuel N choices peaks = Ok fg.
Proof.
  intros HN Hc Hp Hi Hq H. unfold classical. destruct (Z.ltb_spec (2 ^ 14) N); [lia|]. apply (classical_found N choices peaks HN Hp qfuel fuel 0 i); auto.
Qed.
Lemma classical_prime_top fuel qfuel N choices peaks : prime N ->
  (forall i, 2 <= choices i <= N - 1) -> (forall i j, 0 <= peaks i j < fourier_size N) -> 2 < N <= 2 ^ 14 ->
  classical fuel qfuel N choices peaks = Raise OutOfFuel.
Proof. intros HPr Hc Hp HN. unfold classical. destruct (Z.ltb_spec (2 ^ 14) N); [lia|]. apply classical_prime; auto. Qed.
Lemma classical_raises fuel qfuel N choices peaks : N <= 2 \/ 2 ^ 14 < N -> classical (S fuel) qfuel N choices peaks = Raise ValueError.
Proof.
  intros H. unfold classical. destruct (Z.ltb_spec (2 ^ 14) N); auto. cbn [classical_loop]. replace (N - 1 <? 2) with true by lia. auto.
Qed.

(** the order, by computation *)
Definition order_b (N a r : Z) : bool := (0 <? r) && ((a ^ r) mod N =? 1) && forallb (fun s => negb ((a ^ s) mod N =? 1)) (zrange 1 r).
Lemma order_check N a r : order_b N a r = true -> order N a r.
Proof.
  unfold order_b. rewrite !Bool.andb_true_iff, Z.ltb_lt, Z.eqb_eq, forallb_forall. intros [[H1 H2] H3]. split; [split; auto|]. intros s [Hs Es].
  destruct (Z_le_gt_dec r s); auto. exfalso. specialize (H3 s). rewrite in_zrange, Es in H3. cbn in H3. specialize (H3 ltac:(lia)). discriminate.
Qed.
Lemma prime_7 : prime 7.
Proof.
  apply prime_intro; [lia|]. intros k Hk. apply Zgcd_1_rel_prime.
  assert (k = 1 \/ k = 2 \/ k = 3 \/ k = 4 \/ k = 5 \/ k = 6) as H by lia. destruct H as [->|[->|[->|[->|[->| ->]]]]]; reflexivity.
Qed.
Lemma product_105 : order 105 2 12 /\ fourier_size 105 = 2 ^ 14 /\ 12288 * 12 = 9 * 2 ^ 14 /\ quantum 1 105 (fun _ => 12288) = Ok 4 /\
  classical 1 1 105 (fun _ => 2) (fun _ _ => 12288) = Ok (5, 3).
Proof. split; [apply order_check; vm_compute; auto|]. vm_compute. auto. Qed.
Lemma even_20 : order 20 17 4 /\ quantum 1 20 (fun _ => 384) = Ok 4 /\ classical 1 1 20 (fun _ => 17) (fun _ _ => 384) = Ok (10, 4) /\
  classical 1 1 14 (fun _ => 11) (fun _ _ => 97) = Ok (2, 14).
Proof. split; [apply order_check; vm_compute; auto|]. vm_compute. auto. Qed.
Lemma greater_33 : order 33 2 10 /\ fourier_size 33 = 2048 /\ near 2048 614 3 10 /\ Z.gcd 3 10 = 1 /\
  quantum 1 33 (fun _ => 614) = Ok 1024 /\ ~ period 33 2 1024.
Proof.
  split; [apply order_check; vm_compute; auto|]. split; [reflexivity|]. split; [vm_compute; congruence|]. split; [reflexivity|]. split; [vm_compute; reflexivity|].
  intros [_ H]. vm_compute in H. discriminate.
Qed.
Lemma first_21 : order 21 2 6 /\ fourier_size 21 = 512 /\ near 512 85 1 6 /\ quantum 10 21 (fun _ => 85) = Ok 1.
Proof. split; [apply order_check; vm_compute; auto|]. split; [reflexivity|]. split; [vm_compute; congruence|]. vm_compute. reflexivity. Qed.

Lemma near_found N peak d r : 2 < N <= 2 ^ 14 -> 0 < peak < fourier_size N -> 0 < r < N -> Z.gcd d r = 1 ->
  near (fourier_size N) peak d r -> convergent peak (fourier_size N) d r.
Proof. intros HN Hp Hr Hg Hn. pose proof (fourier_size_bound N HN). apply near_convergent; auto; try lia. nia. Qed.
Lemma quantum_result_top fuel N peaks r : 2 < N <= 2 ^ 14 -> (forall j, 0 <= peaks j < fourier_size N) -> quantum fuel N peaks = Ok r ->
  r = 1 \/ exists j d, (j < fuel)%nat /\ peaks j <> 0 /\ convergent (peaks j) (fourier_size N) d r /\ accepted (fourier_size N) d r /\
    forall d' r', convergent (peaks j) (fourier_size N) d' r' -> accepted (fourier_size N) d' r' -> r' <= r.
Proof. intros HN Hp E. apply (quantum_result (fourier_size N) peaks (size_q N HN) Hp fuel 0 1 10 r); auto. Qed.
Lemma quantum_order fuel N a peaks j d r : 2 < N <= 2 ^ 14 -> (forall j, 0 <= peaks j < fourier_size N) ->
  order N a r -> (2 | r) -> 1 < d < r -> Z.gcd d r = 1 ->
  (j < fuel)%nat -> (forall i, (i < j)%nat -> peaks i = 0) -> peaks j <> 0 -> near (fourier_size N) (peaks j) d r ->
  (forall d' r', convergent (peaks j) (fourier_size N) d' r' -> accepted (fourier_size N) d' r' -> r' <= r) ->
  quantum fuel N peaks = Ok r.
Proof.
  intros HN Hp Ho H2 Hd Hg Hj Hz Hnz Hn Hmax. pose proof (order_lt N a r ltac:(lia) Ho). pose proof (fourier_size_bound N HN). pose proof (Hp j).
  unfold quantum. fold (fourier_size N). apply (quantum_first (fourier_size N) peaks (size_q N HN) Hp fuel 0 10 j d r); auto; try lia.
  - intros k Hk. apply Hz. lia.
  - apply near_found; auto; lia.
  - split; auto. split; auto. nia.
Qed.
Lemma quantum_ends_top fuel N (peaks : nat -> Z) : 2 < N <= 2 ^ 14 -> (forall j, 0 <= peaks j < fourier_size N) ->
  (10 <= length (filter (fun j => negb (peaks j =? 0)%Z) (seq 0 fuel)))%nat -> exists r, quantum fuel N peaks = Ok r.
Proof. intros HN Hp H. apply (quantum_ends (fourier_size N) peaks (size_q N HN) Hp). lia. Qed.
Lemma quantum_zeros_top fuel N : quantum fuel N (fun _ => 0) = Raise OutOfFuel.
Proof. apply quantum_zeros; auto. lia. Qed.
Lemma odd_never fuel N peaks r : 2 < N <= 2 ^ 14 -> (forall j, 0 <= peaks j < fourier_size N) -> 1 < r -> Z.odd r = true ->
  quantum fuel N peaks <> Ok r.
Proof.
  intros HN Hp Hr Ho E. destruct (quantum_result_top _ _ _ _ HN Hp E) as [->|(j & d & _ & _ & _ & (_ & _ & [k ->]) & _)]; [lia|].
  rewrite Z.odd_mul in Ho. cbn in Ho. rewrite Bool.andb_false_r in Ho. discriminate.
Qed.
Lemma greatest_427 : forall d' r', convergent 427 (fourier_size 21) d' r' -> accepted (fourier_size 21) d' r' -> r' <= 6.
Proof.
  intros d' r' Hc (_ & H1 & H2). change (fourier_size 21) with 512 in *.
  destruct (convergents 427 512) as (l & Hl & E & Hin & _); [split; reflexivity|split; reflexivity|].
  apply Hin in Hc. assert (E' : gen_continued_fractions (Z.to_nat (427 + 2 * 512)) 427 512 = Ok [(0, 1); (1, 1); (5, 6); (211, 253); (427, 512)]) by (vm_compute; reflexivity).
  rewrite E' in E. injection E as E. rewrite <- E in Hc. cbn in Hc. destruct Hc as [Hc|[Hc|[Hc|[Hc|[Hc|[]]]]]]; injection Hc; intros; subst; try lia.
  destruct H2. lia.
Qed.
