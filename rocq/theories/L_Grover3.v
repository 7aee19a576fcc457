(** Grover's search: iterating. *)
From Verif Require Import Base S_Bits L_Bits M_Kron S_Kron M_Ops S_Ops L_Ops4 M_Feed S_Feed L_Feed M_Func S_Func L_Func2
  M_Measure S_Measure L_Alg M_Graph S_Graph L_Graph3 L_Graph7 L_Graph8 L_Graph11
  M_Context S_Context M_Examples S_Examples L_Resume L_Grover1 L_Grover2.

(** ** reversing bits *)
Lemma reversed_range k x : 0 <= k -> 0 <= reversed k x < 2 ^ k.
Proof. intros Hk. unfold reversed. pose proof (val_range (rev (bits_of k x))) as R. rewrite zlen_rev, zlen_bits_of in R by auto. auto. Qed.
Lemma reversed_reversed k x : 0 <= k -> 0 <= x < 2 ^ k -> reversed k (reversed k x) = x.
Proof.
  intros Hk Hx. unfold reversed at 1. replace (bits_of k (reversed k x)) with (rev (bits_of k x)).
  - rewrite rev_involutive, val_bits_of by auto. apply Z.mod_small; auto.
  - unfold reversed. rewrite <- (bits_of_val (rev (bits_of k x))) at 1. f_equal. rewrite zlen_rev, zlen_bits_of; auto.
Qed.
Lemma reg_reversed k x b : 0 <= k -> reg (k + 1) (rev (zrange 0 k)) (x * 2 + Z.b2z b) = reversed k x.
Proof.
  intros Hk. unfold reg, reversed, bits_of. rewrite map_rev. f_equal. f_equal. apply map_ext_in. intros q Hq. apply in_zrange in Hq. unfold qbit.
  replace (k + 1 - 1 - q) with (Z.succ (k - 1 - q)) by lia. rewrite Z.mul_comm. destruct b; cbn [Z.b2z].
  - rewrite Z.testbit_odd_succ by lia. auto.
  - rewrite Z.add_0_r. rewrite Z.testbit_even_succ by lia. auto.
Qed.
Lemma reg_straight k x b : 0 <= k -> 0 <= x < 2 ^ k -> reg (k + 1) (zrange 0 k) (x * 2 + Z.b2z b) = x.
Proof.
  intros Hk Hx. rewrite <- (reg_full k x) at 2 by auto.
  unfold reg. f_equal. apply map_ext_in. intros q Hq. apply in_zrange in Hq. unfold qbit.
  replace (k + 1 - 1 - q) with (Z.succ (k - 1 - q)) by lia. rewrite Z.mul_comm. destruct b; cbn [Z.b2z].
  - rewrite Z.testbit_odd_succ by lia. auto.
  - rewrite Z.add_0_r. rewrite Z.testbit_even_succ by lia. auto.
Qed.
Lemma last_bit k x b : 0 <= k -> qbit (k + 1) (x * 2 + Z.b2z b) k = b.
Proof.
  intros Hk. unfold qbit. replace (k + 1 - 1 - k) with 0 by lia. rewrite Z.bit0_odd, Z.add_comm, Z.mul_comm, Z.odd_add_mul_2. destruct b; reflexivity.
Qed.

Section Iterate.
  Context {K : Type} {OK : OrdRing K}.
  Notation C := (Cx K).
  Add Ring KRi : (@rth K _).
  Add Ring CRi : (@rth C _).
  Variable cn : consts K.
  Variables (k x0 : Z) (u a : K).
  Hypothesis Hk : 0 < k.
  Let n := k + 1.
  Let s := c_h cn.
  Hypothesis Hs : (s * s + s * s = 1)%r.
  Notation Q := (zrange 0 (0 + k)).

  Lemma split_index r : 0 <= r < 2 ^ n -> exists x b, 0 <= x < 2 ^ k /\ r = x * 2 + Z.b2z b.
  Proof.
    intros Hr. unfold n in Hr. rewrite Z.pow_add_r in Hr by lia. change (2 ^ 1) with 2 in Hr.
    exists (r / 2), (Z.odd r). split; [split; [apply Z.div_pos; lia|apply Z.div_lt_upper_bound; lia]|].
    rewrite (Z.div_mod r 2) at 1 by lia. rewrite Zmod_odd. destruct (Z.odd r); cbn [Z.b2z]; lia.
  Qed.
  Lemma index_range x b : 0 <= x < 2 ^ k -> 0 <= x * 2 + Z.b2z b < 2 ^ n.
  Proof. intros Hx. unfold n. rewrite Z.pow_add_r by lia. change (2 ^ 1) with 2. destruct b; cbn [Z.b2z]; lia. Qed.
  Lemma kicked_at al w x b : 0 <= x < 2 ^ k -> kicked n Q k al w (x * 2 + Z.b2z b) = (w x * (if b then - al else al))%r.
  Proof. intros Hx. unfold kicked, n. rewrite Z.add_0_l, reg_straight, last_bit by lia. auto. Qed.
  Lemma cnorm2_opp (z : C) : cnorm2 (- z)%r = cnorm2 z.
  Proof. change (- z)%r with (cxopp z). unfold cnorm2, cxopp. cbn [fst snd]. ring. Qed.
  Lemma probs_kicked v (al : C) w : (forall r, 0 <= r < 2 ^ n -> v r = kicked n Q k al w r) -> forall x, 0 <= x < 2 ^ k ->
    znth 0%r (probs_of k v) (reversed k x) = ((cnorm2 al + cnorm2 al) * cnorm2 (w x))%r.
  Proof.
    intros Hv x Hx. pose proof (reversed_range k x ltac:(lia)) as R. unfold probs_of. rewrite znth_map_zrange by lia. rewrite !Z.add_0_l.
    unfold marginal. fold n. replace (2 ^ n) with (2 ^ k * 2) by (unfold n; rewrite Z.pow_add_r by lia; reflexivity).
    rewrite sum_prod_range by lia.
    rewrite (sum_ext _ _ (fun y => if (y =? x) then ((cnorm2 al + cnorm2 al) * cnorm2 (w x))%r else 0%r)).
    - rewrite (sum_single _ x) with (f := fun y => if (y =? x) then ((cnorm2 al + cnorm2 al) * cnorm2 (w x))%r else 0%r).
      + rewrite Z.eqb_refl. auto.
      + apply zrange_nodup.
      + apply in_zrange; auto.
      + intros y _ Hy. destruct (Z.eqb_spec y x); [congruence|auto].
    - intros y Hy. apply in_zrange in Hy. change (zrange 0 2) with [0; 1]. cbn [sum].
      pose proof (reg_reversed k y false ltac:(lia)) as E0. pose proof (reg_reversed k y true ltac:(lia)) as E1. cbn [Z.b2z] in E0, E1. fold n in E0, E1.
      rewrite E0, E1. pose proof (index_range y false Hy) as I0. pose proof (index_range y true Hy) as I1.
      pose proof (kicked_at al w y false Hy) as K0. pose proof (kicked_at al w y true Hy) as K1. cbn [Z.b2z] in *.
      rewrite !Hv, K0, K1 by auto. destruct (Z.eqb_spec y x) as [->|Hne].
      + rewrite Z.eqb_refl, !cnorm2_mul, cnorm2_opp. ring.
      + destruct (Z.eqb_spec (reversed k y) (reversed k x)) as [E|_]; [|ring]. exfalso. apply Hne.
        rewrite <- (reversed_reversed k y), <- (reversed_reversed k x) by lia. congruence.
  Qed.

  Fixpoint search_state (j : nat) : Z -> C := match j with O => fun _ => creal u | S j => rotated s Q x0 (search_state j) end.
  Lemma runs_list : exists w sm_ds sm_da, grover cn k x0 u a = (w, Ok (sm_ds, sm_da)) /\
    forall evs, (forall i, enum_ok (evs i) /\ scheds_ok (evs i) (w_heap w) n) -> forall j,
    exists c st_ cm, grover_runs SList evs (w_heap w) sm_ds sm_da j = (c, Ok (st_, cm)) /\ zlen st_ = 2 ^ n /\
      (forall x b, 0 <= x < 2 ^ k -> znth 0%r st_ (x * 2 + Z.b2z b) = (search_state (S j) x * (if b then - creal a else creal a))%r) /\
      exists ps, lookup sm_ds cm = Ok (CProbs (inl ps)) /\ zlen ps = 2 ^ k /\
        forall x, 0 <= x < 2 ^ k -> znth 0%r ps (reversed k x) = ((a * a + a * a) * cnorm2 (search_state (S j) x))%r.
  Proof.
    destruct (grover_built cn k x0 u a Hk) as (w & vis & sm & sa & E & S0 & I0 & Sq & _ & R). exists w, sm, sa. split; auto.
    intros evs Hev. set (h := w_heap w) in *. set (args := [sm; sa]) in *.
    assert (Hn : 0 <= n) by (unfold n; lia).
    assert (Hal : forall q, 0 <= q < n -> In q (Q ++ [k])).
    { intros q Hq. apply in_app_iff. unfold n in Hq. destruct (Z.eq_dec q k) as [->|]; [right; left; auto|left; apply in_zrange; lia]. }
    assert (HQ : qubits_ok n (Q ++ [k])) by (pose proof (QA_ok k Hk) as O; rewrite (A_eq k) in O; exact O).
    assert (Step : forall w0, forall r, 0 <= r < 2 ^ n ->
      apply_each n (gate_H s) (concat [Q]) (fun x => apply_each n (gate_H s) (concat [Q]) (fun y => kicked n Q k (creal a) w0 (fxor n Q (zrange (0 + k) (0 + k + 1)) (indicator x0) y)) (fxor n Q (zrange (0 + k) (0 + k + 1)) (indicator 0) x)) r
      = kicked n Q k (creal a) (rotated s Q x0 w0) r).
    { intros w0 r Hr. cbn [concat]. rewrite app_nil_r, (A_eq k). apply iteration; auto. }
    assert (G : forall j, exists c st_ cm, grover_runs SList evs h sm sa j = (c, Ok (st_, cm)) /\ zlen st_ = 2 ^ n /\ session h vis c (repeat args (S j)) /\
      (forall r, 0 <= r < 2 ^ n -> amp st_ r = kicked n Q k (creal a) (search_state (S j)) r) /\ lookup sm cm = Ok (CProbs (inl (probs_of k (amp st_))))).
    { induction j as [|j (c & st0 & cm0 & E0 & Z0 & Ses & A0 & L0)].
      - destruct (R cache0 [] (evs O) SNone (fun _ => creal u)) as (c & st_ & cm & E1 & Z1 & Ses1 & A1 & L1); auto; try (apply Hev).
        { intros x []. }
        exists c, st_, cm. split; auto. split; auto. split; auto. split; auto. intros r Hr. etransitivity; [apply A1; auto|]. apply Step; auto.
      - destruct (R c (repeat args (S j)) (evs (S j)) (SList st0) (search_state (S j))) as (c1 & st_ & cm & E1 & Z1 & Ses1 & A1 & L1); auto; try (apply Hev).
        { intros x Hx. apply repeat_spec in Hx. auto. } { right. exists st0. auto. }
        exists c1, st_, cm. split; [|split; [|split; [|split]]]; auto.
        + cbn [grover_runs]. rewrite E0. cbn [sbind]. auto.
        + intros r Hr. etransitivity; [apply A1; auto|]. apply Step; auto. }
    intros j. destruct (G j) as (c & st_ & cm & E1 & Z1 & _ & A1 & L1). exists c, st_, cm. split; auto. split; auto. split.
    - intros x b Hx. change (znth 0%r st_ (x * 2 + Z.b2z b)) with (amp st_ (x * 2 + Z.b2z b)). rewrite A1 by (apply index_range; auto). apply kicked_at; auto.
    - exists (probs_of k (amp st_)). split; auto. split; [unfold probs_of; rewrite zlen_map, zlen_zrange; lia|].
      intros x Hx. rewrite (probs_kicked (amp st_) (creal a) (search_state (S j))) by auto. rewrite cnorm2_creal. auto.
  Qed.
End Iterate.

(** the program as it is *)
Lemma runs_array {K} {OK : OrdRing K} (cn : consts K) k x0 u a : 0 < k ->
  exists w sm_ds sm_da, grover cn k x0 u a = (w, Ok (sm_ds, sm_da)) /\
  forall evs, (forall i, enum_ok (evs i) /\ scheds_ok (evs i) (w_heap w) (k + 1)) ->
  (exists r, snd (grover_runs SArray evs (w_heap w) sm_ds sm_da 0) = Ok r) /\
  forall j, snd (grover_runs SArray evs (w_heap w) sm_ds sm_da (S j)) = Raise ValueError.
Proof.
  intros Hk. destruct (grover_built cn k x0 u a Hk) as (w & vis & sm & sa & E & S0 & I0 & Sq & (srcs & W & Sp & Sr & EW) & R). exists w, sm, sa. split; auto.
  intros evs Hev. destruct (R cache0 [] (evs O) SNone (fun _ => creal u)) as (c & st_ & cm & E1 & Z1 & _); auto; try (apply Hev).
  { intros x []. }
  assert (G0 : grover_runs SArray evs (w_heap w) sm sa 0 = (c, Ok (st_, cm))) by exact E1.
  split; [exists (st_, cm); rewrite G0; auto|]. induction j as [|j IH].
  - cbn [grover_runs] in *. rewrite E1. cbn [sbind]. rewrite (run_array (w_heap w) vis [sm; sa] srcs); auto; [apply Hev|constructor|intros x []|].
    rewrite Z1. rewrite Z.pow_add_r by lia. pose proof (Z.pow_pos_nonneg 2 k). change (2 ^ 1) with 2. lia.
  - set (g := grover_runs SArray evs (w_heap w) sm sa (S j)) in IH.
    change (snd (sbind g (fun c '(state, _) => run (evs (S (S j))) c (w_heap w) [sm; sa] [] false (SArray state))) = Raise ValueError).
    destruct g as [c1 r1]. cbn [snd] in IH. subst r1. reflexivity.
Qed.
