(** Finding the period: quantum. *)
From Verif Require Import Base M_Shor S_Shor L_Shor L_Shor2.

Lemma cf_fun c q l : cf_of c q l -> forall l', cf_of c q l' -> l = l'.
Proof.
  induction 1 as [c|c q l Hq H IH]; intros l' H'; inversion H'; subst; auto; try lia. f_equal. auto.
Qed.

(** the list of convergents *)
Lemma convergents c q : 0 < c < 2 ^ 53 -> 0 < q < 2 ^ 53 ->
  exists l, cf_of c q l /\ gen_continued_fractions (Z.to_nat (c + 2 * q)) c q = Ok (fractions_loop l 0 1 1 0) /\
    (forall d r, In (d, r) (fractions_loop l 0 1 1 0) <-> convergent c q d r) /\
    (forall d r, In (d, r) (fractions_loop l 0 1 1 0) -> Z.gcd d r = 1) /\
    exists fs, fractions_loop l 0 1 1 0 = (c / q, 1) :: fs.
Proof.
  intros Hc Hq. destruct (coefs_ok (Z.to_nat (c + 2 * q)) c q Hc Hq) as (l & E & Hl); auto. exists l. split; auto.
  assert (G : gen_continued_fractions (Z.to_nat (c + 2 * q)) c q = Ok (fractions_loop l 0 1 1 0)) by (unfold gen_continued_fractions; rewrite E; auto).
  split; auto. split.
  { intros d r. split.
    - intros Hin. apply In_nth_error in Hin. destruct Hin as [i Hi]. assert (Hlt : (i < length l)%nat).
      { rewrite <- (loop_length l 0 1 1 0). apply nth_error_Some. congruence. }
      exists l, i. split; auto. split; auto. rewrite loop_values in Hi by auto. destruct (cf_value (firstn (S i) l)) as [a b].
      assert (Hi' : (1 * a + 0 * b, 0 * a + 1 * b) = (d, r)) by congruence. rewrite <- Hi'. f_equal; ring.
    - intros (l' & i & Hl' & Hi & Ev). rewrite <- (cf_fun _ _ _ Hl _ Hl') in *. apply (nth_error_In _ i). rewrite loop_values by auto. rewrite Ev. f_equal. f_equal; ring. }
  split; [apply (det_ok _ _ _ _ G)|].
  inversion Hl; subst; [lia|]. cbn [fractions_loop]. eexists. f_equal. f_equal; ring.
Qed.

Lemma near_convergent c q d r : 0 < c < 2 ^ 53 -> 0 < q < 2 ^ 53 -> 0 < r -> Z.gcd d r = 1 -> r * r < q -> near q c d r -> convergent c q d r.
Proof.
  intros Hc Hq Hr Hg Hrr Hn. destruct (convergents c q Hc Hq) as (l & Hl & _ & Hin & _). apply Hin.
  apply (cf_close c q d r); auto; try lia. unfold near in Hn. replace (r * c - d * q) with (c * r - d * q) by ring. nia.
Qed.

(** distinct convergents have distinct denominators, except for the first two *)
Lemma convergent_det c q d r : convergent c q d r -> 0 < c < 2 ^ 53 -> 0 < q < 2 ^ 53 -> Z.gcd d r = 1.
Proof. intros H Hc Hq. destruct (convergents c q Hc Hq) as (l & Hl & _ & Hin & Hg & _). apply Hg, Hin, H. Qed.

Definition acceptb (q : Z) (p : Z * Z) : bool := let (d, r) := p in (1 <? d) && (d <? r) && (r <? q) && (r mod 2 =? 0) && (Z.gcd d r =? 1).
Lemma acceptb_iff q d r : Z.gcd d r = 1 -> acceptb q (d, r) = true <-> accepted q d r.
Proof.
  intros Hg. unfold acceptb, accepted. rewrite !Bool.andb_true_iff, !Z.ltb_lt, !Z.eqb_eq. rewrite <- (Z.mod_divide r 2) by lia. intuition lia.
Qed.
Lemma pick_split q : forall fs r0, (exists l1 d r l2, fs = l1 ++ (d, r) :: l2 /\ pick_fraction fs q r0 = r /\ acceptb q (d, r) = true /\ forall p, In p l1 -> acceptb q p = false) \/
  ((forall p, In p fs -> acceptb q p = false) /\ pick_fraction fs q r0 = last (map snd fs) r0).
Proof.
  induction fs as [|[d r] fs IH]; intros r0; [right; split; auto; intros p []|]. cbn [pick_fraction]. change (_ && _ && _ && _ && _) with (acceptb q (d, r)).
  destruct (acceptb q (d, r)) eqn:E.
  - left. exists [], d, r, fs. split; auto. split; auto. split; auto. intros p [].
  - destruct (IH r) as [(l1 & d' & r' & l2 & -> & E1 & E2 & E3)|[E1 E2]].
    + left. exists ((d, r) :: l1), d', r', l2. split; auto. split; auto. split; auto. intros p [<-|Hp]; auto.
    + right. split; [intros p [<-|Hp]; auto|]. rewrite E2. cbn [map snd]. destruct fs as [|p fs]; [reflexivity|]. clear. cbn [map].
      generalize (snd p) (map snd fs). intros z l. revert z. induction l as [|y l IHl]; intros z; [reflexivity|]. specialize (IHl y). cbn [last] in *. exact IHl.
Qed.

Lemma loop_sorted l : forall d2 d1 r2 r1, 0 <= r2 -> 0 < r1 -> (forall a, In a l -> 1 <= a) -> forall l1 d r l2 d' r',
  fractions_loop l d2 d1 r2 r1 = l1 ++ (d, r) :: l2 -> In (d', r') l1 -> r' <= r.
Proof.
  induction l as [|a l IH]; intros d2 d1 r2 r1 H2 H1 Ha l1 d r l2 d' r' E Hin; [destruct l1; discriminate|].
  assert (1 <= a) by (apply Ha; left; auto). assert (0 < a * r1) by (apply Z.mul_pos_pos; lia).
  cbn [fractions_loop] in E. destruct l1 as [|p l1]; [destruct Hin|]. cbn [app] in E. injection E as <- E. destruct Hin as [Hin|Hin].
  - injection Hin as <- <-. apply (loop_mono l d1 (a * d1 + d2) r1 (a * r1 + r2)) with (d := d); try lia; [intros; apply Ha; right; auto|]. rewrite E. apply in_app_iff. right; left; auto.
  - eapply (IH d1 (a * d1 + d2) r1 (a * r1 + r2)); eauto; try lia. intros; apply Ha; right; auto.
Qed.

(** one run *)
Lemma pick_ok c q r0 : 0 < c < 2 ^ 53 -> 0 < q < 2 ^ 53 -> exists fs, gen_continued_fractions (Z.to_nat (c + 2 * q)) c q = Ok fs /\
  let r := pick_fraction (rev fs) q r0 in
  (exists d, convergent c q d r /\ accepted q d r /\ forall d' r', convergent c q d' r' -> accepted q d' r' -> r' <= r) \/
  ((forall d' r', convergent c q d' r' -> ~ accepted q d' r') /\ r = 1).
Proof.
  intros Hc Hq. destruct (convergents c q Hc Hq) as (l & Hl & E & Hin & Hg & fs & Ef). exists (fractions_loop l 0 1 1 0). split; auto. cbv zeta.
  destruct (pick_split q (rev (fractions_loop l 0 1 1 0)) r0) as [(l1 & d & r & l2 & E1 & -> & E2 & E3)|[E1 ->]].
  - left. assert (E1' : fractions_loop l 0 1 1 0 = rev l2 ++ (d, r) :: rev l1).
    { rewrite <- (rev_involutive (fractions_loop l 0 1 1 0)), E1, rev_app_distr. cbn [rev]. rewrite <- app_assoc. reflexivity. }
    assert (Hdr : In (d, r) (fractions_loop l 0 1 1 0)) by (rewrite E1'; apply in_app_iff; right; left; auto).
    exists d. split; [apply Hin; auto|]. split; [apply acceptb_iff; auto|]. intros d' r' Hc' Ha'. apply Hin in Hc'. pose proof (Hg _ _ Hc') as Hg'.
    rewrite E1' in Hc'. apply in_app_iff in Hc'. destruct Hc' as [Hc'|[Hc'|Hc']].
    2: injection Hc'; lia.
    2:{ apply in_rev in Hc'. apply E3 in Hc'. apply acceptb_iff in Ha'; auto. congruence. }
    (* later in the list: larger *)
    inversion Hl; subst; [lia|]. cbn [fractions_loop] in E1'. destruct (rev l2) as [|p l2'] eqn:El2; [destruct Hc'|]. cbn [app] in E1'. injection E1' as <- E1'.
    destruct Hc' as [Hc'|Hc'].
    + injection Hc' as <- <-. unfold accepted in Ha'. lia.
    + eapply (loop_sorted l0 1 (c / q * 1 + 0) 0 (c / q * 0 + 1)); eauto; try lia. intros a Ha. apply In_nth_error in Ha. destruct Ha as [i Hi].
      apply (cf_coefs c q (c / q :: l0) Hl ltac:(lia) (S i)); auto. lia.
  - right. split.
    + intros d' r' Hc' Ha'. apply Hin in Hc'. pose proof (Hg _ _ Hc'). apply in_rev in Hc'. apply E1 in Hc'. apply acceptb_iff in Ha'; auto. congruence.
    + rewrite Ef. cbn [rev]. rewrite map_app. cbn [map snd]. apply last_last.
Qed.

Lemma fourier_size_bound N : 2 < N <= 2 ^ 14 -> N * N <= fourier_size N < 2 ^ 53 /\ 0 < fourier_size N.
Proof.
  intros HN. unfold fourier_size. rewrite Z.pow_2_r. assert (1 < N * N) by nia. destruct (Z.log2_up_spec (N * N)) as [_ H1]; auto.
  assert (Z.log2_up (N * N) <= 28). { apply Z.log2_up_le_pow2; [lia|]. change (2 ^ 28) with (2 ^ 14 * 2 ^ 14). nia. }
  pose proof (Z.log2_up_nonneg (N * N)). assert (2 ^ Z.log2_up (N * N) <= 2 ^ 28) by (apply Z.pow_le_mono_r; lia).
  assert (2 ^ 28 < 2 ^ 53) by reflexivity. lia.
Qed.

Section Loop.
  Variables (q : Z) (peaks : nat -> Z).
  Hypothesis Hq : 0 < q < 2 ^ 53.
  Hypothesis Hp : forall j, 0 <= peaks j < q.

  Lemma quantum_result fuel : forall j r0 it r, (r0 = 1 \/ exists i d, (i < j)%nat /\ peaks i <> 0 /\ convergent (peaks i) q d r0 /\ accepted q d r0 /\
        forall d' r', convergent (peaks i) q d' r' -> accepted q d' r' -> r' <= r0) ->
    quantum_loop fuel q peaks j r0 it = Ok r ->
    r = 1 \/ exists i d, (i < j + fuel)%nat /\ peaks i <> 0 /\ convergent (peaks i) q d r /\ accepted q d r /\
        forall d' r', convergent (peaks i) q d' r' -> accepted q d' r' -> r' <= r.
  Proof.
    induction fuel as [|fuel IH]; intros j r0 it r H0 E; cbn [quantum_loop] in E.
    - destruct ((r0 =? 1) && (0 <? it)); [discriminate|]. injection E as <-. destruct H0 as [|(i & d & H)]; auto. right. exists i, d. intuition lia.
    - destruct ((r0 =? 1) && (0 <? it)).
      2:{ injection E as <-. destruct H0 as [|(i & d & H)]; auto. right. exists i, d. intuition lia. }
      rewrite Nat.add_succ_r. rewrite <- Nat.add_succ_l. destruct (Z.eqb_spec (peaks j) 0) as [Z0|Z0].
      + eapply IH; [|exact E]. destruct H0 as [|(i & d & H)]; auto. right. exists i, d. intuition lia.
      + pose proof (Hp j). destruct (pick_ok (peaks j) q r0) as (fs & Ef & HP); try lia. rewrite Ef in E. cbn [bind] in E.
        eapply IH; [|exact E]. cbv zeta in HP. destruct HP as [(d & A)|[_ A]]; [right; exists j, d; intuition lia|left; auto].
  Qed.
  Lemma quantum_raise fuel : forall j r0 it e, quantum_loop fuel q peaks j r0 it = Raise e -> e = OutOfFuel.
  Proof.
    induction fuel as [|fuel IH]; intros j r0 it e E; cbn [quantum_loop] in E; destruct ((r0 =? 1) && (0 <? it)); try discriminate; [congruence|].
    destruct (Z.eqb_spec (peaks j) 0) as [Z0|Z0]; [eapply IH; eauto|].
    pose proof (Hp j). destruct (pick_ok (peaks j) q r0) as (fs & Ef & _); try lia. rewrite Ef in E. cbn in E. eapply IH; eauto.
  Qed.
  (** it returns after ten values that are not 0 *)
  Lemma quantum_ends fuel : forall j r0 it, 0 <= it <= Z.of_nat (length (filter (fun i => negb (peaks i =? 0)) (seq j fuel))) ->
    exists r, quantum_loop fuel q peaks j r0 it = Ok r.
  Proof.
    induction fuel as [|fuel IH]; intros j r0 it H; cbn [quantum_loop].
    - cbn in H. assert (it = 0) by lia. subst. rewrite Bool.andb_false_r. eauto.
    - destruct ((r0 =? 1) && (0 <? it)) eqn:E; [|eauto]. cbn [seq filter] in H. destruct (Z.eqb_spec (peaks j) 0) as [Z0|Z0].
      + apply IH. auto.
      + cbn [negb] in H. pose proof (Hp j). destruct (pick_ok (peaks j) q r0) as (fs & Ef & _); try lia. rewrite Ef. cbn. apply IH. cbn [length] in H. apply Bool.andb_true_iff in E. lia.
  Qed.
  (** only zeros: it does not return *)
  Lemma quantum_zeros fuel : forall j it, 0 < it -> (forall i, (j <= i < j + fuel)%nat -> peaks i = 0) -> quantum_loop fuel q peaks j 1 it = Raise OutOfFuel.
  Proof.
    induction fuel as [|fuel IH]; intros j it Hi H; cbn [quantum_loop]; replace ((1 =? 1) && (0 <? it)) with true by lia; auto.
    rewrite H by lia. cbn [Z.eqb]. apply IH; auto. intros i Hi'. apply H. lia.
  Qed.
  (** the first value that is not 0 decides if it gives a fraction *)
  Lemma quantum_first fuel : forall j it i d r, 0 < it -> (j <= i < j + fuel)%nat -> (forall k, (j <= k < i)%nat -> peaks k = 0) -> peaks i <> 0 ->
    convergent (peaks i) q d r -> accepted q d r -> (forall d' r', convergent (peaks i) q d' r' -> accepted q d' r' -> r' <= r) ->
    quantum_loop fuel q peaks j 1 it = Ok r.
  Proof.
    induction fuel as [|fuel IH]; intros j it i d r Hit Hi Hz Hnz Hc Ha Hmax; [lia|]. cbn [quantum_loop]. replace ((1 =? 1) && (0 <? it)) with true by lia.
    destruct (Nat.eq_dec i j) as [->|Hne].
    - destruct (Z.eqb_spec (peaks j) 0); [congruence|]. pose proof (Hp j). destruct (pick_ok (peaks j) q 1) as (fs & Ef & HP); try lia. rewrite Ef. cbn [bind].
      cbv zeta in HP. destruct HP as [(d' & A1 & A2 & A3)|[A _]]; [|exfalso; eapply A; eauto].
      assert (pick_fraction (rev fs) q 1 = r) as ->. { apply Z.le_antisymm; [eapply Hmax; eauto|eapply A3; eauto]. }
      unfold accepted in Ha. destruct fuel; cbn [quantum_loop]; replace (r =? 1) with false by lia; reflexivity.
    - rewrite Hz by lia. cbn [Z.eqb]. eapply IH; eauto; try lia. intros k Hk. apply Hz. lia.
  Qed.
End Loop.

(** the order is less than N *)
Lemma order_lt N a r : 1 < N -> order N a r -> r < N.
Proof.
  intros HN [[Hr E] Hmin].
  assert (Hinv : forall i, 0 <= i <= r -> (a ^ i * a ^ (r - i)) mod N = 1) by (intros i Hi; rewrite <- Z.pow_add_r by lia; replace (i + (r - i)) with r by lia; auto).
  assert (Hinj : forall i j, 0 <= i < j -> j < r -> (a ^ i) mod N <> (a ^ j) mod N).
  { intros i j Hij Hj Eq. assert (P : period N a (r - j + i)).
    { split; [lia|]. rewrite Z.pow_add_r, Z.mul_mod, Eq, <- Z.mul_mod, Z.mul_comm by lia. apply Hinv. lia. }
    apply Hmin in P. lia. }
  set (l := map (fun i => (a ^ i) mod N) (zrange 0 r)).
  assert (ND : NoDup l).
  { unfold l. apply NoDup_map_inj; [apply zrange_nodup|]. intros i j Hi Hj Eq. apply in_zrange in Hi, Hj.
    destruct (Z.lt_trichotomy i j) as [L|[L|L]]; auto; exfalso; [apply (Hinj i j)|apply (Hinj j i)]; auto; lia. }
  assert (IN : incl l (zrange 1 N)).
  { intros x Hx. apply in_map_iff in Hx. destruct Hx as (i & <- & Hi). apply in_zrange in Hi. apply in_zrange. pose proof (Z.mod_pos_bound (a ^ i) N ltac:(lia)).
    assert ((a ^ i) mod N <> 0); [|lia]. intros Z0. specialize (Hinv i ltac:(lia)). rewrite Z.mul_mod, Z0, Z.mul_0_l, Z.mod_0_l in Hinv by lia. lia. }
  pose proof (NoDup_incl_length ND IN) as HL. unfold l in HL. rewrite map_length in HL.
  pose proof (zlen_zrange 0 r ltac:(lia)) as L1. pose proof (zlen_zrange 1 N ltac:(lia)) as L2. unfold zlen in *. lia.
Qed.
