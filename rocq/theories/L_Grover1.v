(** Inversion about the mean. *)
From Verif Require Import Base S_Bits L_Bits M_Kron S_Kron M_Ops S_Ops L_Ops4 M_Func S_Func L_Func2 S_Context M_Measure S_Measure L_Alg L_Graph7 L_Graph10 L_Fourier.

Section Walsh.
  Context {K : Type} {OK : OrdRing K}.
  Notation C := (Cx K).
  Add Ring CRg : (@rth C _).
  Variable n : Z.
  Hypothesis Hn : 0 <= n.
  Variable s : K.
  Local Notation had := (apply_each n (gate_H s)).
  Local Notation sp qs := (cpow (creal s) (length qs)).

  Lemma ok_tail q qs : qubits_ok n (q :: qs) -> qubits_ok n qs /\ qubits_ok n [q] /\ 0 <= q < n /\ ~ In q qs.
  Proof.
    intros [H1 H2]. inversion H1; subst. assert (0 <= q < n) by (apply H2; left; auto).
    split; [split; auto; intros; apply H2; right; auto|]. split; [split; [repeat constructor; cbn; tauto|intros x [<-|[]]; auto]|auto].
  Qed.
  (** the amplitude at 0 is the sum of all *)
  Lemma had_zero : forall qs v r, qubits_ok n qs -> 0 <= r < 2 ^ n -> (forall q, In q qs -> qbit n r q = false) ->
    had qs v r = (sp qs * sum (zrange 0 (2 ^ zlen qs)) (fun y => v (setreg n qs r y)))%r.
  Proof.
    induction qs as [|q qs IH]; intros v r Hqs Hr Hz.
    - change (zrange 0 (2 ^ zlen (@nil Z))) with [0]. cbn [sum cpow length apply_each fold_right].
      replace (setreg n [] r 0) with r; [ring|]. apply (qbit_ext n); auto using setreg_range. intros p Hp. rewrite qbit_setreg_out; auto.
    - destruct (ok_tail q qs Hqs) as (O1 & O2 & Hq & Hni). cbn [apply_each fold_right]. fold (had qs v).
      rewrite apply_H by auto. rewrite (Hz q) by (left; auto).
      assert (Hb : forall b, had qs v (setreg n [q] r b) = (sp qs * sum (zrange 0 (2 ^ zlen qs)) (fun y => v (setreg n [q] (setreg n qs r y) b)))%r).
      { intros b. rewrite IH; auto using setreg_range.
        - f_equal. apply sum_ext. intros y _. f_equal. apply setreg_comm; auto. intros p Hp [->|[]]. auto.
        - intros p Hp. rewrite qbit_setreg_out; [apply Hz; right; auto|apply O1; auto|]. intros [->|[]]. auto. }
      rewrite !Hb, zlen_cons. pose proof (zlen_nonneg qs). rewrite double_sum, sum_add by auto. cbn [length cpow].
      rewrite (sum_ext _ (fun y => v (setreg n (q :: qs) r y)) (fun y => v (setreg n [q] (setreg n qs r y) 0))).
      2:{ intros y Hy. apply in_zrange in Hy. f_equal. rewrite <- setreg_split by (auto; lia). f_equal. }
      rewrite (sum_ext _ (fun y => v (setreg n (q :: qs) r (2 ^ zlen qs + y))) (fun y => v (setreg n [q] (setreg n qs r y) 1))).
      2:{ intros y Hy. apply in_zrange in Hy. f_equal. rewrite <- setreg_split by (auto; lia). f_equal. lia. }
      ring.
  Qed.
  (** a basis state spreads evenly *)
  Lemma had_delta : forall qs (v d : Z -> C), qubits_ok n qs ->
    (forall r, 0 <= r < 2 ^ n -> v r = if forallb (fun q => negb (qbit n r q)) qs then d r else 0%r) ->
    (forall q r, In q qs -> 0 <= r < 2 ^ n -> d (flipped n q r) = d r) ->
    forall r, 0 <= r < 2 ^ n -> had qs v r = (sp qs * d r)%r.
  Proof.
    induction qs as [|q qs IH]; intros v d Hqs Hv Hd r Hr.
    - cbn [apply_each fold_right length cpow]. rewrite Hv by auto. cbn [forallb]. ring.
    - destruct (ok_tail q qs Hqs) as (O1 & O2 & Hq & Hni). cbn [apply_each fold_right]. fold (had qs v).
      set (d' := fun r => if qbit n r q then 0%r else d r).
      assert (E : forall r, 0 <= r < 2 ^ n -> had qs v r = (sp qs * d' r)%r).
      { apply IH; auto.
        - intros x Hx. rewrite Hv by auto. cbn [forallb]. unfold d'. destruct (qbit n x q); cbn [negb andb]; auto. destruct (forallb _ qs); auto.
        - intros p x Hp Hx. unfold d'. assert (0 <= p < n) by (apply O1; auto). rewrite qbit_flipped by auto. destruct (Z.eqb_spec q p) as [->|]; [tauto|].
          rewrite Hd by (auto; right; auto). auto. }
      unfold apply1, gate_H. rewrite !E by (auto using flipped_range). unfold d'. rewrite qbit_flipped, Z.eqb_refl by auto.
      rewrite Hd by (auto; left; auto). cbn [length cpow]. destruct (qbit n r q); cbn [negb]; ring.
  Qed.
  (** the qubits left alone *)
  Lemma flipped_comm p q r : flipped n p (flipped n q r) = flipped n q (flipped n p r).
  Proof. unfold flipped. rewrite !Z.lxor_assoc. f_equal. apply Z.lxor_comm. Qed.
  Lemma each_flipped g p : 0 <= p < n -> forall qs v, (forall q, In q qs -> 0 <= q < n /\ q <> p) ->
    forall r, apply_each n g qs v (flipped n p r) = apply_each n g qs (fun x => v (flipped n p x)) r.
  Proof.
    intros Hp. induction qs as [|q qs IH]; intros v Hq r; [reflexivity|]. cbn [apply_each fold_right]. fold (apply_each n g qs v).
    fold (apply_each n g qs (fun x => v (flipped n p x))). destruct (Hq q (or_introl eq_refl)) as [H1 H2].
    unfold apply1. destruct g as [[[a b] c] d]. rewrite qbit_flipped by auto. destruct (Z.eqb_spec q p); [tauto|].
    rewrite (flipped_comm q p), !IH by (intros; apply Hq; right; auto). auto.
  Qed.
  Lemma had_invol qs v r : (s * s + s * s = 1)%r -> qubits_ok n qs -> 0 <= r < 2 ^ n -> had qs (had qs v) r = v r.
  Proof.
    intros Hs Hq Hr. pose proof (gates_inverse n (gate_H s) (gate_H s) [qs] v r Hn) as G. cbn [concat] in G. rewrite app_nil_r in G.
    apply G; auto. unfold inverse2, gate_H.
    assert (E : (creal s * creal s + creal s * creal s = 1 :> C)%r).
    { rewrite <- creal_mul. change (@radd C _ (creal (s * s)%r) (creal (s * s)%r)) with (cxadd (creal (s * s)%r) (creal (s * s)%r)).
      unfold cxadd, creal. cbn [fst snd]. rewrite Hs. assert ((0 + 0 = 0 :> K)%r) as -> by apply (Radd_0_l rth). reflexivity. }
    split; [auto|]. split; [ring|]. split; [ring|]. rewrite <- E. ring.
  Qed.

  (** ** the two reflections *)
  Variables (Q : list Z) (p : Z).
  Hypothesis HQ : qubits_ok n (Q ++ [p]).
  Hypothesis Hall : forall q, 0 <= q < n -> In q (Q ++ [p]).
  Let N := 2 ^ zlen Q.
  Definition indicator (x0 x : Z) : Z := if (x =? x0) then 1 else 0.
  (** the state w in the register Q, with amplitudes a and -a of the last qubit *)
  Definition kicked (a : C) (w : Z -> C) (r : Z) : C := (w (reg n Q r) * (if qbit n r p then - a else a))%r.
  Definition marked (x0 : Z) (w : Z -> C) (x : Z) : C := if (x =? x0) then (- w x)%r else w x.
  Definition mean (w : Z -> C) : C := (cpow (creal s * creal s) (length Q) * sum (zrange 0 N) w)%r.
  Definition rotated (x0 : Z) (w : Z -> C) (x : Z) : C := (marked x0 w x - (1 + 1) * mean (marked x0 w))%r.

  Lemma Q_ok : qubits_ok n Q.
  Proof. destruct HQ as [H1 H2]. apply NoDup_app_inv in H1. split; [tauto|]. intros q Hq. apply H2, in_app_iff; auto. Qed.
  Lemma p_ok : 0 <= p < n /\ ~ In p Q.
  Proof.
    destruct HQ as [H1 H2]. apply NoDup_app_inv in H1. split; [apply H2, in_app_iff; right; left; auto|]. intros H. apply (proj2 (proj2 H1) p); auto. left; auto.
  Qed.
  Lemma fxor_indicator x0 r : 0 <= r < 2 ^ n -> fxor n Q [p] (indicator x0) r = if (reg n Q r =? x0) then flipped n p r else r.
  Proof.
    intros Hr. destruct p_ok as [Hp Hpq]. unfold fxor, indicator. change (zlen [p]) with 1. change (2 ^ 1) with 2. rewrite reg1.
    destruct (reg n Q r =? x0).
    - rewrite <- setreg_flipped by auto. f_equal. destruct (qbit n r p); reflexivity.
    - transitivity (setreg n [p] r (Z.b2z (qbit n r p))); [f_equal|apply setreg_same; auto]. destruct (qbit n r p); reflexivity.
  Qed.
  Lemma reg_Q_flip r : reg n Q (flipped n p r) = reg n Q r.
  Proof.
    destruct p_ok as [Hp Hpq]. apply reg_ext. intros q Hq. rewrite qbit_flipped by (auto; apply Q_ok; auto). destruct (Z.eqb_spec q p) as [->|]; tauto.
  Qed.
  Lemma kicked_flip a w r : kicked a w (flipped n p r) = (- kicked a w r)%r.
  Proof.
    destruct p_ok as [Hp Hpq]. unfold kicked. rewrite reg_Q_flip, qbit_flipped, Z.eqb_refl by auto. destruct (qbit n r p); cbn [negb]; ring.
  Qed.
  Lemma oracle a w x0 r : 0 <= r < 2 ^ n -> kicked a w (fxor n Q [p] (indicator x0) r) = kicked a (marked x0 w) r.
  Proof.
    intros Hr. rewrite fxor_indicator by auto. unfold marked. unfold kicked at 2. destruct (reg n Q r =? x0); [|reflexivity].
    rewrite kicked_flip. unfold kicked. ring.
  Qed.
  Lemma reg_zero r : reg n Q r = 0 <-> forallb (fun q => negb (qbit n r q)) Q = true.
  Proof.
    unfold reg. generalize Q. intros l. induction l as [|q l IH]; [cbn; tauto|]. cbn [map forallb]. rewrite val_cons, andb_true_iff, <- IH.
    pose proof (val_range (map (qbit n r) l)) as R. assert (0 < 2 ^ zlen (map (qbit n r) l)) by (apply Z.pow_pos_nonneg; [lia|apply zlen_nonneg]).
    destruct (qbit n r q); cbn [negb Z.b2z]; split; intros Hx; [exfalso; nia|destruct Hx; discriminate|split; [auto|nia]|destruct Hx; nia].
  Qed.
  Lemma diffusion a w : (s * s + s * s = 1)%r -> forall r, 0 <= r < 2 ^ n ->
    had Q (fun x => had Q (kicked a w) (fxor n Q [p] (indicator 0) x)) r = kicked a (fun x => w x - (1 + 1) * mean w)%r r.
  Proof.
    intros Hs r Hr. destruct p_ok as [Hp Hpq]. pose proof Q_ok as OQ. set (v2 := had Q (kicked a w)).
    assert (F2 : forall x, 0 <= x < 2 ^ n -> v2 (flipped n p x) = (- v2 x)%r).
    { intros x Hx. unfold v2. rewrite each_flipped; [|auto|intros q Hq; split; [apply OQ; auto|intros ->; auto]].
      transitivity (had Q (fun y => (- (1)) * kicked a w y + 0 * kicked a w y)%r x).
      - apply apply_each_ext; auto; [intros q Hq; apply OQ; auto|]. intros y _. rewrite kicked_flip. ring.
      - rewrite (apply_each_lin n (gate_H s) Q (- (1))%r 0%r) by (auto; intros q Hq; apply OQ; auto). ring. }
    set (d := fun x => v2 (setreg n Q x 0)).
    set (dl := fun x => if forallb (fun q => negb (qbit n x q)) Q then d x else 0%r).
    assert (V3 : forall x, 0 <= x < 2 ^ n -> v2 (fxor n Q [p] (indicator 0) x) = (1 * v2 x + (- (1 + 1)) * dl x)%r).
    { intros x Hx. rewrite fxor_indicator by auto. unfold dl. destruct (Z.eqb_spec (reg n Q x) 0) as [E|E].
      - replace (forallb _ Q) with true by (symmetry; apply reg_zero; auto). rewrite F2 by auto. replace (d x) with (v2 x); [ring|]. unfold d. rewrite <- E, setreg_reg by auto. auto.
      - replace (forallb _ Q) with false; [ring|]. symmetry. apply not_true_is_false. intros H. apply reg_zero in H. auto. }
    rewrite (apply_each_ext n (gate_H s) Q _ (fun x => 1 * v2 x + (- (1 + 1)) * dl x)%r) by (auto; intros q Hq; apply OQ; auto).
    rewrite (apply_each_lin n (gate_H s) Q) by (auto; intros q Hq; apply OQ; auto).
    assert (Dz : forall x, 0 <= x < 2 ^ n -> d x = (sp Q * sum (zrange 0 N) w * (if qbit n x p then - a else a))%r).
    { intros x Hx. unfold d, v2. rewrite had_zero; auto using setreg_range.
      - transitivity (sp Q * sum (zrange 0 N) (fun y => w y * (if qbit n x p then - a else a)))%r; [|rewrite sum_mul_r; ring].
        f_equal. apply sum_ext. intros y Hy. apply in_zrange in Hy. rewrite setreg_idem by auto. unfold kicked.
        rewrite reg_setreg, qbit_setreg_out by auto. reflexivity.
      - intros q Hq. apply (in_znth 0) in Hq. destruct Hq as (j & Hj & <-). rewrite qbit_setreg_in by auto. apply Z.testbit_0_l. }
    rewrite (had_delta Q dl d); auto.
    2:{ intros q x Hq Hx. assert (Hqn : 0 <= q < n) by (apply OQ; auto). rewrite !Dz by auto using flipped_range. rewrite qbit_flipped by auto. destruct (Z.eqb_spec p q) as [->|]; [tauto|auto]. }
    rewrite Dz by auto. unfold v2. rewrite had_invol by auto. unfold kicked, mean.
    assert (Epow : cpow (creal s * creal s)%r (length Q) = (sp Q * sp Q)%r :> C).
    { generalize (length Q). intros n0. induction n0 as [|m IH]; cbn [cpow]; [ring|]. rewrite IH. ring. }
    rewrite Epow. ring.
  Qed.
  Lemma iteration a w x0 v : (s * s + s * s = 1)%r -> (forall r, 0 <= r < 2 ^ n -> v r = kicked a w r) ->
    forall r, 0 <= r < 2 ^ n ->
    had Q (fun x => had Q (fun y => v (fxor n Q [p] (indicator x0) y)) (fxor n Q [p] (indicator 0) x)) r = kicked a (rotated x0 w) r.
  Proof.
    intros Hs Hv r Hr. pose proof Q_ok as OQ. unfold rotated. rewrite <- (diffusion a (marked x0 w)) by auto.
    apply apply_each_ext; auto; [intros q Hq; apply OQ; auto|]. intros x Hx.
    apply apply_each_ext; auto; [intros q Hq; apply OQ; auto| |apply fxor_range; auto]. intros y Hy.
    rewrite Hv by (apply fxor_range; auto). apply oracle; auto.
  Qed.
End Walsh.
