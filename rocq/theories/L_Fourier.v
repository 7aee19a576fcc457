(** The circuit of qip/qfft.py, as a map on amplitudes, is the discrete Fourier transform. *)
From Verif Require Import Base S_Bits L_Bits M_Kron M_Ops S_Ops L_Ops4 L_Alg M_Graph S_Graph M_Context S_Context.

Section Fourier.
  Context {K : Type} {OK : OrdRing K}.
  Notation C := (Cx K).
  Add Ring Cring : (@rth C _).

  Lemma cpow_add (z : C) a b : cpow z (a + b) = (cpow z a * cpow z b)%r.
  Proof. induction a as [|a IH]; cbn [cpow Nat.add]; [ring|]. rewrite IH. ring. Qed.
  Lemma cpow_mul (z : C) a b : cpow z (a * b) = cpow (cpow z a) b.
  Proof.
    induction b as [|b IH]; [rewrite Nat.mul_0_r; reflexivity|].
    rewrite Nat.mul_succ_r, Nat.add_comm, cpow_add, IH. reflexivity.
  Qed.
  Lemma cpow_one k : cpow (1%r : C) k = 1%r.
  Proof. induction k as [|k IH]; cbn [cpow]; [auto|]. rewrite IH. ring. Qed.
  Lemma cpow_zadd (z : C) a b : 0 <= a -> 0 <= b -> cpow z (Z.to_nat (a + b)) = (cpow z (Z.to_nat a) * cpow z (Z.to_nat b))%r.
  Proof. intros. rewrite Z2Nat.inj_add by auto. apply cpow_add. Qed.
  Lemma cpow_zmul (z : C) a b : 0 <= a -> 0 <= b -> cpow z (Z.to_nat (a * b)) = cpow (cpow z (Z.to_nat a)) (Z.to_nat b).
  Proof. intros. rewrite Z2Nat.inj_mul by auto. apply cpow_mul. Qed.

  Variable root : Z -> C.
  Hypothesis root1 : root 1 = (- (1))%r.
  Hypothesis root2 : forall m, 1 <= m -> (root (m + 1) * root (m + 1))%r = root m.

  Lemma root_pow m j : 1 <= m -> 0 <= j -> cpow (root (m + j)) (Z.to_nat (2 ^ j)) = root m.
  Proof.
    intros Hm Hj. revert j Hj. apply (natlike_ind (fun j => cpow (root (m + j)) (Z.to_nat (2 ^ j)) = root m)).
    - rewrite Z.add_0_r. change (Z.to_nat (2 ^ 0)) with 1%nat. cbn [cpow]. ring.
    - intros j Hj IH. rewrite Z.pow_succ_r by auto. rewrite cpow_zmul by lia.
      change (Z.to_nat 2) with 2%nat. cbn [cpow]. rewrite <- IH.
      replace (m + Z.succ j) with (m + j + 1) by lia. rewrite <- (root2 (m + j)) by lia. f_equal. ring.
  Qed.
  Lemma root_half m : 1 <= m -> cpow (root m) (Z.to_nat (2 ^ (m - 1))) = (- (1))%r.
  Proof. intros. rewrite <- root1. replace m with (1 + (m - 1)) at 1 by lia. apply root_pow; lia. Qed.
  Lemma root_full m : 1 <= m -> cpow (root m) (Z.to_nat (2 ^ m)) = 1%r.
  Proof.
    intros. replace m with (m - 1 + 1) at 2 by lia. rewrite Z.pow_add_r by lia. rewrite cpow_zmul by lia.
    rewrite root_half by auto. change (Z.to_nat (2 ^ 1)) with 2%nat. cbn [cpow]. ring.
  Qed.

  Variable n : Z.
  Hypothesis Hn : 0 <= n.
  Variable s : C.

  (** phase [root m] when the control and the target are 1 *)
  Definition cphase (m : Z) (c t : Z) (v : Z -> C) (r : Z) : C :=
    if qbit n r c then (if qbit n r t then (root m * v r)%r else v r) else v r.
  Fixpoint phases (t : Z) (cs : list Z) (m : Z) (v : Z -> C) : Z -> C :=
    match cs with [] => v | c :: cs => phases t cs (m + 1) (cphase m c t v) end.
  Fixpoint qft (h : K) (qs : list Z) (v : Z -> C) : Z -> C :=
    match qs with [] => v | q :: qs => qft h qs (phases q qs 2 (apply1 n (gate_H h) q v)) end.

  Lemma phases_val t : forall cs m v r, 1 <= m ->
    phases t cs m v r = ((if qbit n r t then cpow (root (m - 1 + zlen cs)) (Z.to_nat (reg n cs r)) else 1) * v r)%r.
  Proof.
    induction cs as [|c cs IH]; intros m v r Hm; cbn [phases].
    - rewrite reg_nil. cbn [cpow Z.to_nat]. destruct (qbit n r t); ring.
    - rewrite IH by lia. unfold cphase. rewrite zlen_cons.
      replace (m + 1 - 1 + zlen cs) with (m - 1 + (zlen cs + 1)) by lia.
      destruct (qbit n r t); [|destruct (qbit n r c); ring].
      change (c :: cs) with ([c] ++ cs). rewrite reg_app.
      pose proof (reg_range n cs r). pose proof (reg_range n [c] r). pose proof (zlen_nonneg cs).
      rewrite cpow_zadd by nia. unfold reg at 2. cbn [map]. unfold val; cbn [fold_left].
      destruct (qbit n r c); cbn [Z.b2z]; rewrite Z.mul_0_r, Z.add_0_l.
      + rewrite Z.mul_1_l. replace (m - 1 + (zlen cs + 1)) with (m + zlen cs) by lia. rewrite (root_pow m (zlen cs)) by auto. ring.
      + rewrite Z.mul_0_l. cbn [cpow Z.to_nat]. ring.
  Qed.

  Lemma apply_H h q v r : 0 <= q < n -> 0 <= r < 2 ^ n ->
    apply1 n (gate_H h) q v r =
    (creal h * (v (setreg n [q] r 0) + (if qbit n r q then - (1) else 1) * v (setreg n [q] r 1)))%r.
  Proof.
    intros Hq Hr. unfold apply1, gate_H. pose proof (setreg_flipped n q r Hq Hr) as F.
    pose proof (setreg_same n q r Hq Hr) as E.
    destruct (qbit n r q); cbn [negb Z.b2z] in *; rewrite F, E; ring.
  Qed.
  Lemma setreg_split q qs r b x : qubits_ok n (q :: qs) -> 0 <= r < 2 ^ n -> 0 <= b < 2 -> 0 <= x < 2 ^ zlen qs ->
    setreg n (q :: qs) r (b * 2 ^ zlen qs + x) = setreg n [q] (setreg n qs r x) b.
  Proof.
    intros [Hnd Hin] Hr Hb Hx. inversion Hnd as [|? ? Hq Hnd']; subst. pose proof (zlen_nonneg qs).
    assert (Hqs : qubits_ok n qs) by (split; auto; intros; apply Hin; right; auto).
    assert (Hq0 : 0 <= q < n) by (apply Hin; left; auto).
    apply (qbit_ext n); auto using setreg_range. intros p Hp.
    destruct (Z.eq_dec p q) as [->|Hpq].
    - pose proof (qbit_setreg_in n (q :: qs) r (b * 2 ^ zlen qs + x) 0 (conj Hnd Hin)) as E1.
      rewrite zlen_cons in E1. specialize (E1 ltac:(lia)). change (znth 0 (q :: qs) 0) with q in E1. rewrite E1.
      pose proof (qbit_setreg_in n [q] (setreg n qs r x) b 0) as E2. change (znth 0 [q] 0) with q in E2.
      change (zlen [q]) with 1 in E2. rewrite E2; [|split; [repeat constructor; cbn; tauto|intros ? [<-|[]]; auto]|lia].
      replace (zlen qs + 1 - 1 - 0) with (zlen qs) by lia. change (1 - 1 - 0) with 0.
      assert (b = 0 \/ b = 1) as [->| ->] by lia.
      + rewrite Z.mul_0_l, Z.add_0_l. rewrite (testbit_high x (zlen qs)) by lia. reflexivity.
      + rewrite Z.mul_1_l. rewrite Z.testbit_odd, Z.shiftr_div_pow2 by auto.
        replace (2 ^ zlen qs + x) with (x + 1 * 2 ^ zlen qs) by lia.
        rewrite Z.div_add by (apply Z.pow_nonzero; lia). rewrite Z.div_small by auto. reflexivity.
    - rewrite (qbit_setreg_out n [q]) by (auto; intros [->|[]]; auto).
      destruct (in_dec Z.eq_dec p qs) as [Hi|Hi].
      + apply (in_znth 0) in Hi. destruct Hi as (j & Hj & <-).
        pose proof (qbit_setreg_in n (q :: qs) r (b * 2 ^ zlen qs + x) (j + 1) (conj Hnd Hin)) as E1.
        rewrite zlen_cons in E1. specialize (E1 ltac:(lia)).
        assert (Ez : znth 0 (q :: qs) (j + 1) = znth 0 qs j).
        { rewrite !znth_nth by lia. replace (Z.to_nat (j + 1)) with (S (Z.to_nat j)) by lia. reflexivity. }
        rewrite Ez in E1. rewrite E1. rewrite (qbit_setreg_in n qs r x j) by auto.
        replace (zlen qs + 1 - 1 - (j + 1)) with (zlen qs - 1 - j) by lia.
        set (i := zlen qs - 1 - j) in *.
        rewrite <- (Z.mod_pow2_bits_low (b * 2 ^ zlen qs + x) (zlen qs) i) by lia.
        rewrite Z.add_comm, Z.mod_add by (apply Z.pow_nonzero; lia). rewrite Z.mod_small by auto. reflexivity.
      + rewrite !qbit_setreg_out; auto. intros [->|]; auto.
  Qed.

  Lemma double_sum (f : Z -> C) m : 0 <= m ->
    sum (zrange 0 (2 ^ (m + 1))) f = sum (zrange 0 (2 ^ m)) (fun x => f x + f (2 ^ m + x)%Z)%r.
  Proof.
    intros Hm. assert (0 < 2 ^ m) by (apply Z.pow_pos_nonneg; lia).
    rewrite Z.pow_add_r by lia. change (2 ^ 1) with 2.
    rewrite (zrange_app 0 (2 ^ m) (2 ^ m * 2)) by lia. rewrite sum_app, sum_add. f_equal.
    replace (zrange (2 ^ m) (2 ^ m * 2)) with (zrange (0 + 2 ^ m) (2 ^ m + 2 ^ m)) by (f_equal; lia).
    rewrite zrange_shift, sum_map. apply sum_ext. intros i _. f_equal. lia.
  Qed.

  Theorem qft_fourier h : forall qs v r, qubits_ok n qs -> 0 <= r < 2 ^ n ->
    qft h qs v r = fourier n (root (zlen qs)) (cpow (creal h) (length qs)) qs (rev qs) v r.
  Proof.
    induction qs as [|q qs IH]; intros v r Hqs Hr; cbn [qft].
    - unfold fourier. change (zlen (@nil Z)) with 0. change (2 ^ 0) with 1. cbn [length cpow rev]. rewrite reg_nil.
      change (zrange 0 1) with [0]. cbn [sum]. rewrite Z.mul_0_l. cbn [Z.to_nat cpow].
      replace (setreg n [] r 0) with r; [ring|].
      apply (qbit_ext n); auto using setreg_range. intros p Hp. rewrite qbit_setreg_out; auto.
    - destruct Hqs as [Hnd Hin]. inversion Hnd as [|? ? Hq Hnd']; subst.
      assert (Hqs : qubits_ok n qs) by (split; auto; intros; apply Hin; right; auto).
      assert (Hq0 : 0 <= q < n) by (apply Hin; left; auto).
      rewrite IH by auto. unfold fourier. rewrite zlen_cons. set (m := zlen qs). assert (Hm : 0 <= m) by apply zlen_nonneg.
      rewrite double_sum by auto. cbn [length cpow rev]. rewrite <- !sum_mul_l. apply sum_ext. intros x Hx. apply in_zrange in Hx.
      rewrite phases_val by lia. fold m. replace (2 - 1 + m) with (m + 1) by lia.
      assert (Hr' : 0 <= setreg n qs r x < 2 ^ n) by (apply setreg_range; auto).
      rewrite apply_H by auto. rewrite reg_setreg by auto. rewrite qbit_setreg_out by auto.
      pose proof (setreg_split q qs r 0 x (conj Hnd Hin) Hr ltac:(lia) Hx) as E0.
      pose proof (setreg_split q qs r 1 x (conj Hnd Hin) Hr ltac:(lia) Hx) as E1.
      rewrite Z.mul_0_l, Z.add_0_l in E0. rewrite Z.mul_1_l in E1. fold m in E0, E1. cbv beta. rewrite E0, E1. clear E0 E1.
      rewrite reg_app. change (zlen [q]) with 1. change (2 ^ 1) with 2.
      set (Y := reg n (rev qs) r).
      assert (HY : 0 <= Y) by (unfold Y; pose proof (reg_range n (rev qs) r); lia).
      assert (Eb : reg n [q] r = Z.b2z (qbit n r q)) by (unfold reg; cbn [map]; unfold val; cbn [fold_left]; lia).
      rewrite Eb. set (v0 := v (setreg n [q] (setreg n qs r x) 0)). set (v1 := v (setreg n [q] (setreg n qs r x) 1)).
      set (P := root (m + 1)).
      assert (EY : cpow (root m) (Z.to_nat (x * Y)) = cpow P (Z.to_nat (x * (Y * 2)))).
      { destruct (Z.eq_dec m 0) as [Em|Em].
        - assert (x = 0) by (rewrite Em in Hx; cbn in Hx; lia). subst x. rewrite !Z.mul_0_l. reflexivity.
        - replace (x * (Y * 2)) with (2 * (x * Y)) by lia. rewrite (cpow_zmul P 2 (x * Y)) by nia. f_equal.
          change (Z.to_nat 2) with 2%nat. cbn [cpow]. unfold P. rewrite <- (root2 m) by lia. ring. }
      assert (EP : forall k, 0 <= k -> cpow P (Z.to_nat (2 ^ m * (k * 2))) = 1%r).
      { intros k Hk. replace (2 ^ m * (k * 2)) with (2 ^ (m + 1) * k) by (rewrite Z.pow_add_r by lia; lia).
        rewrite cpow_zmul by lia. unfold P. rewrite root_full by lia. apply cpow_one. }
      assert (EH : cpow P (Z.to_nat (2 ^ m)) = (- (1))%r).
      { unfold P. replace m with (m + 1 - 1) at 2 by lia. apply root_half. lia. }
      assert (0 < 2 ^ m) by (apply Z.pow_pos_nonneg; lia).
      rewrite EY. replace ((2 ^ m + x) * (Y * 2 + Z.b2z (qbit n r q)))
        with (2 ^ m * (Y * 2) + (x * (Y * 2) + (2 ^ m * Z.b2z (qbit n r q) + x * Z.b2z (qbit n r q)))) by ring.
      replace (x * (Y * 2 + Z.b2z (qbit n r q))) with (x * (Y * 2) + x * Z.b2z (qbit n r q)) by ring.
      assert (0 <= Z.b2z (qbit n r q)) by (destruct (qbit n r q); cbn; lia).
      rewrite !cpow_zadd by nia. rewrite EP by auto.
      destruct (qbit n r q); cbn [Z.b2z].
      + rewrite !Z.mul_1_r, EH. ring.
      + rewrite !Z.mul_0_r. cbn [Z.to_nat cpow]. ring.
  Qed.
End Fourier.
