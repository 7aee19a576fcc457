(** Lemmas about F(f). *)
From Coq Require Import Permutation.
From Verif Require Import Base S_Bits M_Bits L_Bits M_Kron S_Kron L_Kron L_Alg L_Measure1 M_Feed M_Func S_Func S_Measure L_Measure4.

Lemma mmap_ok {A B} (f : A -> res B) (g : A -> B) l : (forall a, In a l -> f a = Ok (g a)) -> mmap f l = Ok (map g l).
Proof.
  induction l as [|a l IH]; cbn [mmap map]; intros H; auto. rewrite H by (left; auto). cbn [bind].
  rewrite IH by (intros; apply H; right; auto). reflexivity.
Qed.

(** ** scatter *)
Definition scattered (n : Z) (indices : list Z) (width value count z : Z) : Prop :=
  0 <= z < 2 ^ n /\
  (forall i, 0 <= i < count -> qbit n z (znth 0 indices i) = Z.testbit value (width - 1 - i)) /\
  (forall q, 0 <= q < n -> (forall i, 0 <= i < count -> znth 0 indices i <> q) -> qbit n z q = false).

Lemma scatter_ok n indices width value count :
  0 <= n -> qubits_ok n indices -> 0 <= count <= zlen indices -> count <= width ->
  exists z, scatter indices n width value count = Ok z /\ scattered n indices width value count z.
Proof.
  intros Hn [ND Hr] Hc Hw. unfold scatter. set (stp := fun acc j => _).
  apply (mfold_zrange_inv (fun j z => scattered n indices width value j z)).
  - lia.
  - split; [split; [lia|apply Z.pow_pos_nonneg; lia]|]. split.
    + intros; lia.
    + intros q Hq _. unfold qbit. apply Z.bits_0.
  - intros j z Hj (R & S1 & S2). unfold stp. rewrite (cget_ok 0) by lia. cbn [bind].
    assert (Hq := Hr _ (znth_in 0 indices j ltac:(lia))). unfold cget_bit, cset_bit.
    destruct (Z.ltb_spec (width - 1 - j) 0); [lia|]. cbn [bind].
    destruct (Z.ltb_spec (n - 1 - znth 0 indices j) 0); [lia|]. eexists. split; [reflexivity|].
    rewrite get_bit_spec by lia. split; [apply set_bit_range; lia|]. split.
    + intros i Hi. unfold qbit. assert (Hqi := Hr _ (znth_in 0 indices i ltac:(lia))).
      rewrite set_bit_spec by lia. rewrite b2z_truth.
      destruct (Z.eqb_spec (n - 1 - znth 0 indices i) (n - 1 - znth 0 indices j)) as [E|E].
      * assert (i = j) by (apply (znth_nodup 0 indices); auto; lia). subst. reflexivity.
      * assert (i <> j) by congruence. apply S1. lia.
    + intros q Hq' H'. unfold qbit. rewrite set_bit_spec by lia.
      destruct (Z.eqb_spec (n - 1 - q) (n - 1 - znth 0 indices j)).
      * exfalso. apply (H' j); lia.
      * apply S2; auto. intros i Hi. apply H'. lia.
Qed.

Lemma scatter_other_in m n indices width value count :
  0 <= n -> qubits_ok n indices -> 0 <= count <= zlen indices -> count <= width ->
  scatter_other m indices n width value count = scatter indices n width value count.
Proof.
  intros Hn [ND Hr] Hc Hw. unfold scatter_other, scatter. apply mfold_ext. intros acc j Hj. apply in_zrange in Hj.
  destruct (Z.ltb_spec j (zlen indices)); [|lia]. rewrite (cget_ok 0) by lia. cbn [bind].
  destruct (Z.ltb_spec (width - 1 - j) 0); [lia|]. assert (Hq := Hr _ (znth_in 0 indices j ltac:(lia))).
  destruct (Z.leb_spec (zlen indices) j); [lia|]. destruct (Z.ltb_spec (n - 1 - znth 0 indices j) 0); [lia|]. reflexivity.
Qed.
(** bits 0 for garbage positions change nothing *)
Lemma scatter_other_tail m n indices value count :
  0 <= n -> qubits_ok n indices -> zlen indices <= count -> harmless m n indices -> 0 <= value < 2 ^ zlen indices ->
  exists z, scatter_other m indices n (zlen indices) value count = Ok z /\ scattered n indices (zlen indices) value (zlen indices) z.
Proof.
  intros Hn HI Hc [Hm Hb] Hv. pose proof (zlen_nonneg indices) as Hz.
  destruct (scatter_ok n indices (zlen indices) value (zlen indices)) as (z & E & S); auto; try lia.
  exists z. split; auto. rewrite <- (scatter_other_in m) in E by (auto; lia). unfold scatter_other in *.
  rewrite (zrange_app 0 (zlen indices) count) by lia. rewrite mfold_app, E. cbn [bind].
  match goal with |- mfold ?s _ _ = _ => set (stp := s) end.
  assert (G : forall l, (forall j, In j l -> zlen indices <= j) -> mfold stp l z = Ok z).
  { induction l as [|j l IH]; intros Hl; [reflexivity|]. cbn [mfold]. assert (Hj := Hl j (or_introl eq_refl)).
    destruct (Hm j Hj) as (q & mask & Eq & Ek & Hk). unfold stp at 1. destruct (Z.ltb_spec j (zlen indices)); [lia|]. rewrite Eq. cbn [bind].
    destruct (Z.ltb_spec (zlen indices - 1 - j) 0); [|lia]. rewrite Hb by (auto; lia). cbn [bind].
    destruct (Z.leb_spec (zlen indices) j); [|lia]. cbn [orb]. rewrite Ek. cbn [bind Z.eqb Z.opp]. rewrite Z.lxor_0_l.
    replace (Z.lxor z (Z.land z mask)) with z; [apply IH; intros; apply Hl; right; auto|].
    destruct S as (R & _ & S2). apply Z.bits_inj'. intros b Hb'. rewrite Z.lxor_spec, Z.land_spec. destruct (Z.testbit z b) eqn:Ez; [|reflexivity].
    destruct (Z_lt_dec b n) as [Hlt|]; [|rewrite (testbit_high _ n) in Ez by lia; discriminate].
    assert (Hin : exists i, 0 <= i < zlen indices /\ znth 0 indices i = n - 1 - b).
    { destruct (in_dec Z.eq_dec (n - 1 - b) indices) as [Hin|Hin]; [apply (in_znth 0), Hin|]. exfalso.
      assert (Hf := S2 (n - 1 - b) ltac:(lia)). unfold qbit in Hf. replace (n - 1 - (n - 1 - b)) with b in Hf by lia. rewrite Hf in Ez; [discriminate|].
      intros i Hi Ei. apply Hin. rewrite <- Ei. apply znth_in. auto. }
    destruct Hin as (i & Hi & Ei). assert (Hk' := Hk (znth 0 indices i) (znth_in 0 indices i Hi)). rewrite Ei in Hk'. replace (n - 1 - (n - 1 - b)) with b in Hk' by lia. rewrite Hk'. reflexivity. }
  apply G. intros j Hj. apply in_zrange in Hj. lia.
Qed.
Lemma scatter_strict n indices value count :
  0 <= n -> qubits_ok n indices -> zlen indices < count ->
  scatter_other strict indices n (zlen indices) value count = Raise OOB.
Proof.
  intros Hn HI Hc. pose proof (zlen_nonneg indices).
  destruct (scatter_ok n indices (zlen indices) value (zlen indices)) as (z & E & _); auto; [lia|lia|].
  rewrite <- (scatter_other_in strict) in E by (auto; lia). unfold scatter_other in *. rewrite (zrange_app 0 (zlen indices) count) by lia. rewrite mfold_app, E. cbn [bind].
  rewrite zrange_cons by lia. cbn [mfold]. destruct (Z.ltb_spec (zlen indices) (zlen indices)); [lia|]. reflexivity.
Qed.

Lemma calm_tame : tame calm.
Proof. repeat split; intros; eexists; reflexivity. Qed.

Lemma other_indices_spec reg1 reg2 n : other_indices reg1 reg2 n = others n reg1 reg2.
Proof.
  unfold other_indices, others. apply filter_ext. intros q. rewrite existsb_app, negb_orb. reflexivity.
Qed.
Lemma others_in n reg1 reg2 q : In q (others n reg1 reg2) <-> 0 <= q < n /\ ~ In q reg1 /\ ~ In q reg2.
Proof.
  unfold others. rewrite filter_In, in_zrange, negb_true_iff. rewrite <- not_true_iff_false, existsb_eqb, in_app_iff.
  tauto.
Qed.
Lemma others_ok n reg1 reg2 : qubits_ok n (others n reg1 reg2).
Proof.
  split; [apply NoDup_filter, zrange_nodup|]. intros q Hq. apply others_in in Hq. tauto.
Qed.
Lemma others_len n reg1 reg2 : 0 <= n -> qubits_ok n (reg1 ++ reg2) ->
  zlen (others n reg1 reg2) = n - (zlen reg1 + zlen reg2).
Proof.
  intros Hn [ND Hr].
  assert (P : Permutation (zrange 0 n) ((reg1 ++ reg2) ++ others n reg1 reg2)).
  { apply NoDup_Permutation.
    - apply zrange_nodup.
    - apply NoDup_app_inv; split; [auto|split].
      + apply others_ok.
      + intros q H1 H2. apply others_in in H2. apply in_app_iff in H1. tauto.
    - intros q. rewrite !in_app_iff, others_in, in_zrange. split.
      + intros Hq. destruct (in_dec Z.eq_dec q reg1), (in_dec Z.eq_dec q reg2); tauto.
      + intros [H|H]; [apply Hr, in_app_iff; auto|tauto]. }
  apply Permutation_length in P. assert (zlen (zrange 0 n) = n) by (rewrite zlen_zrange; lia).
  unfold zlen in *. rewrite !app_length in P. lia.
Qed.

Section Regs.
  Variables (n : Z) (reg1 reg2 : list Z).
  Hypothesis (HI : qubits_ok n (reg1 ++ reg2)).
  Lemma reg1_ok : qubits_ok n reg1.
  Proof. destruct HI as [ND Hr]. apply NoDup_app_inv in ND. split; [apply ND|]. intros q Hq; apply Hr, in_app_iff; auto. Qed.
  Lemma reg2_ok : qubits_ok n reg2.
  Proof. destruct HI as [ND Hr]. apply NoDup_app_inv in ND. split; [apply ND|]. intros q Hq; apply Hr, in_app_iff; auto. Qed.
  Lemma reg12_disj q : In q reg1 -> ~ In q reg2.
  Proof. destruct HI as [ND Hr]. apply NoDup_app_inv in ND. intros H1 H2. destruct ND as (_ & _ & D). exact (D q H1 H2). Qed.
End Regs.

Section FA.
  Context {K : Type} {OK : OrdRing K}.
  Notation C := (Cx K).
  Variables (n : Z) (reg1 reg2 : list Z) (f : Z -> Z) (vec : list C).
  Hypotheses (Hn : 0 <= n) (HI : qubits_ok n (reg1 ++ reg2)) (HV : zlen vec = 2 ^ n).
  Notation oth := (others n reg1 reg2).
  Variable (m : machine).
  Hypothesis (HL : zlen reg2 <= zlen oth \/ harmless m n oth).
  Let n1 := zlen reg1.
  Let n2 := zlen reg2.
  (** how many of the other qubits the loop reaches *)
  Let n3 := Z.min n2 (zlen oth).
  Let dropped := skipn (Z.to_nat n2) oth.
  Lemma n3_facts : 0 <= n3 <= zlen oth /\ n3 <= n2.
  Proof. unfold n3, n2. pose proof (zlen_nonneg reg2). pose proof (zlen_nonneg oth). lia. Qed.
  Notation g := (fxor n reg1 reg2 f).

  Lemma not_in_znth (l : list Z) q : ~ In q l -> forall i, 0 <= i < zlen l -> znth 0 l i <> q.
  Proof. intros H i Hi E. apply H. rewrite <- E. apply znth_in; auto. Qed.

  (** the bits of source and target of one copy *)
  Definition tgt (x q r t : Z) : Prop :=
    0 <= t < 2 ^ n /\
    (forall i, 0 <= i < n1 -> qbit n t (znth 0 reg1 i) = Z.testbit x (n1 - 1 - i)) /\
    (forall i, 0 <= i < n2 -> qbit n t (znth 0 reg2 i) = Z.testbit q (n2 - 1 - i)) /\
    (forall i, 0 <= i < n3 -> qbit n t (znth 0 oth i) = Z.testbit r (zlen oth - 1 - i)) /\
    (forall i, n3 <= i < zlen oth -> qbit n t (znth 0 oth i) = false).

  Lemma tgt_unique x q r t t' : tgt x q r t -> tgt x q r t' -> t = t'.
  Proof.
    intros (R & A1 & A2 & A3 & A4) (R' & B1 & B2 & B3 & B4). apply (qbit_ext n); auto. intros p Hp.
    destruct (in_dec Z.eq_dec p reg1) as [I1|I1].
    { apply (in_znth 0) in I1. destruct I1 as (i & Hi & <-). rewrite A1, B1; auto. }
    destruct (in_dec Z.eq_dec p reg2) as [I2|I2].
    { apply (in_znth 0) in I2. destruct I2 as (i & Hi & <-). rewrite A2, B2; auto. }
    assert (I3 : In p oth) by (apply others_in; auto). apply (in_znth 0) in I3. destruct I3 as (i & Hi & <-).
    destruct (Z_lt_dec i n3).
    - rewrite A3, B3; auto; lia.
    - rewrite A4, B4; auto; lia.
  Qed.

  Lemma lor_tgt x q r zx zq zr :
    scattered n reg1 n1 x n1 zx -> scattered n reg2 n2 q n2 zq -> scattered n oth (zlen oth) r n3 zr ->
    tgt x q r (Z.lor (Z.lor zx zq) zr).
  Proof.
    intros (R1 & A1 & B1) (R2 & A2 & B2) (R3 & A3 & B3).
    assert (Q : forall p, qbit n (Z.lor (Z.lor zx zq) zr) p = qbit n zx p || qbit n zq p || qbit n zr p).
    { intros p. unfold qbit. rewrite !Z.lor_spec. reflexivity. }
    pose proof (reg1_ok n reg1 reg2 HI) as O1. pose proof (reg2_ok n reg1 reg2 HI) as O2. pose proof (others_ok n reg1 reg2) as O3.
    assert (D1 : forall p, In p reg1 -> qbit n zq p = false /\ qbit n zr p = false).
    { intros p Hp. assert (0 <= p < n) by (apply O1; auto). split.
      - apply B2; auto. apply not_in_znth. apply (reg12_disj n reg1 reg2 HI); auto.
      - apply B3; auto. intros i Hi E. assert (In p oth) by (rewrite <- E; apply znth_in; pose proof n3_facts; lia).
        apply others_in in H0. tauto. }
    assert (D2 : forall p, In p reg2 -> qbit n zx p = false /\ qbit n zr p = false).
    { intros p Hp. assert (0 <= p < n) by (apply O2; auto). split.
      - apply B1; auto. apply not_in_znth. intros H'. exact (reg12_disj n reg1 reg2 HI p H' Hp).
      - apply B3; auto. intros i Hi E. assert (In p oth) by (rewrite <- E; apply znth_in; pose proof n3_facts; lia).
        apply others_in in H0. tauto. }
    assert (D3 : forall p, In p oth -> qbit n zx p = false /\ qbit n zq p = false).
    { intros p Hp. apply others_in in Hp. split.
      - apply B1; [tauto|]. apply not_in_znth. tauto.
      - apply B2; [tauto|]. apply not_in_znth. tauto. }
    split.
    { split.
      - rewrite !Z.lor_nonneg. lia.
      - apply bits_bound; auto. { rewrite !Z.lor_nonneg. lia. }
        intros i Hi. rewrite !Z.lor_spec. rewrite !(testbit_high _ n); auto; lia. }
    assert (P2 : 0 <= n2) by apply zlen_nonneg. pose proof n3_facts as P3.
    split; [|split; [|split]]; intros i Hi; rewrite Q.
    - destruct (D1 (znth 0 reg1 i)) as [-> ->]; [apply znth_in; auto|]. rewrite !orb_false_r. auto.
    - destruct (D2 (znth 0 reg2 i)) as [-> ->]; [apply znth_in; auto|]. rewrite orb_false_r. cbn [orb]. auto.
    - destruct (D3 (znth 0 oth i)) as [-> ->]; [apply znth_in; lia|]. cbn [orb]. auto.
    - destruct (D3 (znth 0 oth i)) as [-> ->]; [apply znth_in; lia|]. cbn [orb]. apply B3; [apply O3, znth_in; lia|].
      intros j Hj E. apply (znth_nodup 0 oth) in E; try lia. apply O3.
  Qed.

  (** source of a target *)
  Lemma tgt_source x q r t s : 0 <= x < 2 ^ n1 -> 0 <= q < 2 ^ n2 ->
    tgt x (Z.lxor (f x) q) r t -> tgt x q r s -> s = g t.
  Proof.
    intros Hx Hq (R & A1 & A2 & A3 & A4) HS. apply (tgt_unique x q r); auto.
    pose proof (reg1_ok n reg1 reg2 HI) as O1. pose proof (reg2_ok n reg1 reg2 HI) as O2.
    assert (P1 : 0 <= n1) by apply zlen_nonneg. assert (P2 : 0 <= n2) by apply zlen_nonneg.
    assert (Ex : reg n reg1 t = x).
    { apply (bits_ext_below n1); auto; [apply reg_range|]. intros b Hb.
      pose proof (reg_testbit n reg1 t (n1 - 1 - b)) as T. fold n1 in T.
      replace (n1 - 1 - (n1 - 1 - b)) with b in T by lia. rewrite T by lia. rewrite A1 by lia. f_equal. lia. }
    unfold fxor. rewrite Ex. fold n2. split; [apply setreg_range; auto|]. split; [|split; [|split]].
    - intros i Hi. rewrite qbit_setreg_out; [auto|apply O1, znth_in; auto|]. apply (reg12_disj n reg1 reg2 HI), znth_in; auto.
    - intros i Hi. rewrite qbit_setreg_in; auto. fold n2. rewrite Z.lxor_spec.
      pose proof (reg_testbit n reg2 t i Hi) as T. fold n2 in T. rewrite T.
      rewrite Z.mod_pow2_bits_low by lia. rewrite A2 by auto. rewrite Z.lxor_spec.
      destruct (Z.testbit (f x) _), (Z.testbit q _); reflexivity.
    - intros i Hi. assert (In (znth 0 oth i) oth) by (apply znth_in; pose proof n3_facts; lia).
      apply others_in in H. rewrite qbit_setreg_out; [auto|tauto|tauto].
    - intros i Hi. assert (In (znth 0 oth i) oth) by (apply znth_in; pose proof n3_facts; lia).
      apply others_in in H. rewrite qbit_setreg_out; [auto|tauto|tauto].
  Qed.

  Lemma reg_zero l t : reg n l t = 0 <-> (forall q, In q l -> qbit n t q = false).
  Proof.
    split.
    - intros E q Hq. apply (in_znth 0) in Hq. destruct Hq as (i & Hi & <-). rewrite <- (reg_testbit n l t i Hi), E.
      apply Z.bits_0.
    - intros H. rewrite (reg_ext n l t 0).
      + unfold reg. assert (G : forall k : list Z, val (map (qbit n 0) k) = 0).
        { induction k as [|a k IH]; [reflexivity|]. cbn [map]. rewrite val_cons, IH. unfold qbit. rewrite Z.bits_0.
          cbn [Z.b2z]. lia. }
        apply G.
      + intros q Hq. rewrite H by auto. unfold qbit. rewrite Z.bits_0. reflexivity.
  Qed.
  Lemma dropped_in q : In q dropped <-> exists i, n3 <= i < zlen oth /\ znth 0 oth i = q.
  Proof.
    assert (P2 : 0 <= n2) by apply zlen_nonneg. unfold dropped. destruct (Z_le_dec n2 (zlen oth)) as [Hle|Hgt].
    2:{ unfold n3. rewrite Z.min_r by lia. rewrite skipn_all2 by (unfold zlen in Hgt; lia). split; [intros []|intros (i & Hi & _); lia]. }
    unfold n3. rewrite Z.min_l by lia. split.
    - intros H. apply (In_nth _ _ 0) in H. destruct H as (k & Hk & E). rewrite skipn_length in Hk.
      exists (n2 + Z.of_nat k). split; [unfold zlen in *; lia|]. unfold znth. destruct (Z.ltb_spec (n2 + Z.of_nat k) 0); [lia|].
      rewrite <- E. rewrite <- (firstn_skipn (Z.to_nat n2) oth) at 1.
      assert (LF : length (firstn (Z.to_nat n2) oth) = Z.to_nat n2) by (rewrite firstn_length; unfold zlen in *; lia).
      rewrite app_nth2 by (rewrite LF; lia). f_equal. rewrite LF. lia.
    - intros (i & Hi & E). rewrite <- E. unfold znth. destruct (Z.ltb_spec i 0); [lia|].
      rewrite <- (firstn_skipn (Z.to_nat n2) oth) at 1. unfold zlen in Hi.
      assert (LF : length (firstn (Z.to_nat n2) oth) = Z.to_nat n2) by (rewrite firstn_length; unfold zlen in *; lia).
      rewrite app_nth2 by (rewrite LF; lia). apply nth_In. rewrite skipn_length, LF. lia.
  Qed.
  Lemma tgt_dropped x q r t : tgt x q r t -> reg n dropped t = 0.
  Proof.
    intros (R & A1 & A2 & A3 & A4). apply reg_zero. intros p Hp. apply dropped_in in Hp.
    destruct Hp as (i & Hi & <-). auto.
  Qed.
  Lemma tgt_complete t : 0 <= t < 2 ^ n -> reg n dropped t = 0 ->
    exists q, 0 <= q < 2 ^ n2 /\ tgt (reg n reg1 t) (Z.lxor (f (reg n reg1 t)) q) (reg n oth t) t.
  Proof.
    intros Ht HD. assert (P2 : 0 <= n2) by apply zlen_nonneg.
    exists (Z.lxor (reg n reg2 t) (f (reg n reg1 t) mod 2 ^ n2)).
    assert (R2 := reg_range n reg2 t). fold n2 in R2.
    assert (M2 : 0 <= f (reg n reg1 t) mod 2 ^ n2 < 2 ^ n2) by (apply Z.mod_pos_bound; lia).
    split.
    { split; [apply Z.lxor_nonneg; lia|]. apply bits_bound; auto; [apply Z.lxor_nonneg; lia|].
      intros i Hi. rewrite Z.lxor_spec, !(testbit_high _ n2) by lia. reflexivity. }
    split; auto. split; [|split; [|split]].
    - intros i Hi. symmetry. apply reg_testbit. auto.
    - intros i Hi. rewrite !Z.lxor_spec. rewrite Z.mod_pow2_bits_low by lia.
      pose proof (reg_testbit n reg2 t i Hi) as T. fold n2 in T. rewrite T.
      destruct (Z.testbit (f _) _), (qbit n t _); reflexivity.
    - intros i Hi. symmetry. apply reg_testbit. unfold n2 in Hi. lia.
    - intros i Hi. apply (proj1 (reg_zero dropped t) HD). apply dropped_in. eauto.
  Qed.

  (** ** the loops *)
  (** entries already copied *)
  Definition copied (P : Z -> Prop) (out : list C) : Prop :=
    zlen out = 2 ^ n /\
    forall t, 0 <= t < 2 ^ n ->
      (P t -> znth 0%r out t = znth 0%r vec (g t)) /\ (~ P t -> znth 0%r out t = 0%r).

  Lemma copied_ext P Q out : (forall t, 0 <= t < 2 ^ n -> (P t <-> Q t)) -> copied P out -> copied Q out.
  Proof. intros H [L A]. split; auto. intros t Ht. destruct (A t Ht). rewrite <- (H t Ht). auto. Qed.

  Lemma loops_inv {I} (stp : list C -> I -> res (list C)) (T : I -> Z -> Prop) (l : list I) P out :
    (forall i P out, In i l -> copied P out -> exists out', stp out i = Ok out' /\ copied (fun t => P t \/ T i t) out') ->
    copied P out -> exists out', mfold stp l out = Ok out' /\ copied (fun t => P t \/ exists i, In i l /\ T i t) out'.
  Proof.
    intros HS. revert P out. induction l as [|i l IH]; intros P out HC; cbn [mfold].
    - exists out. split; auto. revert HC. apply copied_ext. intros t _. split; auto. intros [H|(i & [] & _)]; auto.
    - destruct (HS i P out (or_introl eq_refl) HC) as (o1 & E & HC1). rewrite E. cbn [bind].
      destruct (IH (fun j P o Hj => HS j P o (or_intror Hj)) _ _ HC1) as (o2 & E2 & HC2). exists o2. split; auto.
      revert HC2. apply copied_ext. intros t _. split.
      + intros [[H|H]|(j & Hj & H)]; auto; right; [exists i|exists j]; cbn; auto.
      + intros [H|(j & [<-|Hj] & H)]; auto. right. exists j. auto.
  Qed.

  Lemma x_ok x P out : 0 <= x < 2 ^ n1 -> copied P out ->
    exists out', func_apply_x m reg1 reg2 oth n vec x (f x) out = Ok out' /\
      copied (fun t => P t \/ exists q, In q (zrange 0 (2 ^ n2)) /\ exists r, In r (zrange 0 (2 ^ zlen oth)) /\
                                        tgt x (Z.lxor (f x) q) r t) out'.
  Proof.
    intros Hx HC. unfold func_apply_x. pose proof (reg1_ok n reg1 reg2 HI) as O1. pose proof (reg2_ok n reg1 reg2 HI) as O2.
    pose proof (others_ok n reg1 reg2) as O3. rewrite <- (others_len n reg1 reg2 Hn HI).
    assert (P1 : 0 <= n1) by apply zlen_nonneg. assert (P2 : 0 <= n2) by apply zlen_nonneg.
    destruct (scatter_ok n reg1 n1 x n1) as (zx & Ex & Sx); auto; try (unfold n1; lia).
    fold n1 n2. rewrite Ex. cbn [bind].
    apply loops_inv with (T := fun q t => exists r, In r (zrange 0 (2 ^ zlen oth)) /\ tgt x (Z.lxor (f x) q) r t); auto.
    clear P out HC. intros q P out Hq HC. apply in_zrange in Hq. cbv zeta.
    destruct (scatter_ok n reg2 n2 (Z.lxor (f x) q) n2) as (zf & Ef & Sf); auto; try (unfold n2; lia).
    destruct (scatter_ok n reg2 n2 q n2) as (zq & Eq & Sq); auto; try (unfold n2; lia).
    rewrite Ef, Eq. cbn [bind].
    apply loops_inv with (T := fun r t => tgt x (Z.lxor (f x) q) r t); auto.
    clear P out HC. intros r P out Hr HC. apply in_zrange in Hr.
    assert (X : exists zr, scatter_other m oth n (zlen oth) r n2 = Ok zr /\ scattered n oth (zlen oth) r n3 zr).
    { destruct (Z_le_dec n2 (zlen oth)) as [Hle|Hgt].
      - rewrite scatter_other_in by (auto; lia). unfold n3. rewrite Z.min_l by lia. apply scatter_ok; auto.
      - unfold n3. rewrite Z.min_r by lia. destruct HL as [HL'|HL']; [unfold n2 in Hgt; lia|]. apply scatter_other_tail; auto; lia. }
    destruct X as (zr & Er & Sr). rewrite Er. cbn [bind].
    pose proof (lor_tgt _ _ _ _ _ _ Sx Sf Sr) as Tt. pose proof (lor_tgt _ _ _ _ _ _ Sx Sq Sr) as Ts.
    set (t := Z.lor (Z.lor zx zf) zr) in *. set (s := Z.lor (Z.lor zx zq) zr) in *.
    pose proof (tgt_source x q r t s Hx Hq Tt Ts) as Es.
    assert (Rt : 0 <= t < 2 ^ n) by apply Tt. assert (Rs : 0 <= s < 2 ^ n) by apply Ts.
    destruct HC as [L A].
    rewrite (cget_ok 0%r) by lia. cbn [bind]. rewrite cset_ok by lia. eexists. split; [reflexivity|].
    split; [rewrite zlen_upd; auto|]. intros t' Ht'. rewrite znth_upd by lia. destruct (A t' Ht') as [A1 A2].
    destruct (Z.eqb_spec t' t) as [->|Hne].
    - rewrite Es. split; auto. intros H. exfalso. apply H. right. exact Tt.
    - split.
      + intros [H|H]; auto. exfalso. apply Hne. apply (tgt_unique _ _ _ _ _ H Tt).
      + intros H. apply A2. tauto.
  Qed.

  Lemma func_apply_ok sched func out pregen :
    zlen out = 2 ^ n -> Permutation sched (zrange 0 (2 ^ n1)) ->
    (forall x, 0 <= x < 2 ^ n1 -> func x = Ok (f x)) ->
    func_apply m sched reg1 reg2 func vec n out 0 0 pregen
    = Ok (map (fun t => if (reg n dropped t =? 0) then znth 0%r vec (g t) else 0%r) (zrange 0 (2 ^ n))).
  Proof.
    intros HO HP HF. unfold func_apply. rewrite HO, HV, !Z.eqb_refl, !Z.add_0_r. cbn [negb orb].
    destruct (Z.ltb_spec (2 ^ n) (2 ^ n)); [lia|]. rewrite other_indices_spec.
    assert (P1 : 0 <= n1) by apply zlen_nonneg. assert (P2 : 0 <= n2) by apply zlen_nonneg.
    assert (E0 : exists F, (if pregen then mmap func (zrange 0 (2 ^ zlen reg1)) else Ok [0]) = Ok F /\
       forall x, 0 <= x < 2 ^ n1 -> (if pregen then cget F x else func x) = Ok (f x)).
    { destruct pregen.
      - exists (map f (zrange 0 (2 ^ n1))). fold n1. split.
        + apply mmap_ok. intros x Hx. apply in_zrange in Hx. auto.
        + intros x Hx. assert (0 <= 2 ^ n1) by lia. rewrite (cget_ok 0) by (rewrite zlen_map, zlen_zrange; lia).
          f_equal. rewrite znth_map_zrange by lia. f_equal.
      - exists [0]. split; auto. }
    destruct E0 as (F & -> & HFx). cbn [bind].
    destruct (loops_inv (fun output x => do y <- (if pregen then cget F x else func x);
        func_apply_x m reg1 reg2 oth n vec x y output)
      (fun x t => exists q, In q (zrange 0 (2 ^ n2)) /\ exists r, In r (zrange 0 (2 ^ zlen oth)) /\
                                        tgt x (Z.lxor (f x) q) r t) sched (fun _ => False) (map (fun _ => 0%r) out))
      as (o & E & L & A).
    - intros x P o Hx HC. apply (Permutation_in x HP) in Hx. apply in_zrange in Hx. rewrite HFx by lia. cbn [bind].
      apply x_ok; auto.
    - split; [rewrite zlen_map; auto|]. intros t Ht. split; [tauto|]. intros _.
      rewrite (znth_map _ 0%r) by lia. reflexivity.
    - rewrite E. f_equal. apply list_eq_znth with (d := 0%r).
      + rewrite zlen_map, zlen_zrange; lia.
      + rewrite L. intros t Ht. rewrite znth_map_zrange by lia. rewrite Z.add_0_l. destruct (A t Ht) as [A1 A2].
        destruct (Z.eqb_spec (reg n dropped t) 0) as [Hd|Hd].
        * apply A1. right. destruct (tgt_complete t Ht Hd) as (q & Hq & T). exists (reg n reg1 t). split.
          -- apply (Permutation_in _ (Permutation_sym HP)). apply in_zrange. apply reg_range.
          -- exists q. split; [apply in_zrange; auto|]. exists (reg n oth t). split; auto. apply in_zrange. apply reg_range.
        * apply A2. intros [[]|(x & _ & q & _ & r & _ & T)]. apply Hd. apply (tgt_dropped _ _ _ _ T).
  Qed.
End FA.
