(** All probabilities, and the top-k list. *)
From Coq Require Import Permutation.
From Verif Require Import Base S_Bits M_Bits L_Bits M_Kron L_Kron L_Feed M_Feed M_Measure S_Measure L_Measure1 L_Measure2 L_Measure3 L_Measure4.

Section Probs.
  Context {K : Type} {OK : OrdRing K}.
  Notation C := (Cx K).
  Add Ring KRingM5 : (@rth K _).

  (** ** measure_probabilities *)
  Lemma p_index_ok n indices x : 0 <= n -> qubits_ok n indices ->
    mfold (fun p_index j => do q <- cget indices j; do b <- cget_bit x ((n - 1) - q); cset_bit p_index j b)
      (zrange 0 (zlen indices)) 0 = Ok (reg n (rev indices) x).
  Proof.
    intros Hn [ND Hr].
    destruct (mfold_zrange_inv (fun j p => 0 <= p < 2 ^ zlen indices /\
        forall b, 0 <= b -> Z.testbit p b = (b <? j) && qbit n x (znth 0 indices b))
      (fun p_index j => do q <- cget indices j; do b <- cget_bit x ((n - 1) - q); cset_bit p_index j b)
      0 (zlen indices) 0) as (p & E & Hp & Hb).
    - apply zlen_nonneg.
    - split; [split; [lia|apply Z.pow_pos_nonneg; [lia|apply zlen_nonneg]]|]. intros b Hb. rewrite Z.bits_0.
      destruct (Z.ltb_spec b 0); [lia|]. reflexivity.
    - intros j p Hj [Hp Hb]. rewrite (cget_ok 0) by auto. cbn [bind].
      assert (Hq := Hr _ (znth_in 0 indices j Hj)). unfold cget_bit, cset_bit.
      destruct (Z.ltb_spec (n - 1 - znth 0 indices j) 0); [lia|]. cbn [bind].
      destruct (Z.ltb_spec j 0); [lia|]. eexists. split; [reflexivity|].
      split; [apply set_bit_range; auto|]. intros b Hb0. rewrite set_bit_spec by lia.
      rewrite get_bit_spec by lia. rewrite b2z_truth. destruct (Z.eqb_spec b j) as [->|].
      + destruct (Z.ltb_spec j (j + 1)); [|lia]. cbn [andb]. unfold qbit. f_equal.
      + rewrite Hb by auto. destruct (Z.ltb_spec b j), (Z.ltb_spec b (j + 1)); auto; lia.
    - rewrite E. f_equal. apply Z.bits_inj'. intros b Hb0. rewrite Hb by auto.
      destruct (Z.ltb_spec b (zlen indices)).
      + cbn [andb]. pose proof (reg_testbit n (rev indices) x (zlen indices - 1 - b)) as R.
        rewrite zlen_rev in R. rewrite znth_rev in R by lia.
        replace (zlen indices - 1 - (zlen indices - 1 - b)) with b in R by lia. rewrite R by lia. reflexivity.
      + cbn [andb]. pose proof (zlen_nonneg indices). pose proof (reg_range n (rev indices) x) as R.
        rewrite zlen_rev in R. symmetry. apply (testbit_high _ (zlen indices)); auto.
  Qed.

  Lemma sum_zrange_succ {A} {RA : CRing A} lo hi (f : Z -> A) : lo <= hi ->
    sum (zrange lo (hi + 1)) f = (sum (zrange lo hi) f + f hi)%r.
  Proof.
    intros. rewrite zrange_snoc by lia. replace (hi + 1 - 1) with hi by lia. rewrite sum_app. cbn [sum].
    f_equal. rewrite (Radd_comm (@rth A _)). apply (Radd_0_l (@rth A _)).
  Qed.

  Lemma measure_probabilities_ok n indices (vec : list C) :
    0 <= n -> qubits_ok n indices -> zlen vec = 2 ^ n ->
    measure_probabilities indices n vec
    = Ok (map (marginal n (rev indices) (amp_at 0 vec)) (zrange 0 (2 ^ zlen indices))).
  Proof.
    intros Hn HI HV. unfold measure_probabilities. set (k := zlen indices).
    assert (Pk : 0 < 2 ^ k) by (apply Z.pow_pos_nonneg; [lia|apply zlen_nonneg]).
    destruct (mfold_zrange_inv (fun i p => p = map (fun v => sum (zrange 0 i)
        (fun x => if (reg n (rev indices) x =? v) then cnorm2 (amp_at 0 vec x) else 0%r)) (zrange 0 (2 ^ k)))
      (fun p i =>
        do vec_val <- cget vec i;
        if cx_is0 vec_val then Ok p else
        do p_index <- mfold (fun p_index j =>
            do q <- cget indices j;
            do b <- cget_bit i ((n - 1) - q);
            cset_bit p_index j b) (zrange 0 k) 0;
        do old <- cget p p_index;
        cset p p_index (old + cnorm2 vec_val)%r) 0 (2 ^ n)
      (map (fun _ => 0%r) (zrange 0 (2 ^ k)))) as (p & E & Hp).
    - apply Z.pow_nonneg; lia.
    - apply map_ext. reflexivity.
    - intros i p Hi ->. rewrite (cget_ok 0%r) by lia. cbn [bind].
      assert (EA : amp_at 0 vec i = znth 0%r vec i) by (unfold amp_at; rewrite Z.sub_0_r; reflexivity).
      destruct (cx_is0 (znth 0%r vec i)) eqn:Z0.
      + eexists. split; [reflexivity|]. apply map_ext. intros v. rewrite sum_zrange_succ by lia.
        apply cx_is0_spec in Z0. rewrite EA, Z0, cnorm2_0. destruct (_ =? v); ring.
      + unfold k. rewrite p_index_ok by auto. fold k. cbn [bind].
        pose proof (reg_range n (rev indices) i) as Rr. rewrite zlen_rev in Rr. fold k in Rr.
        rewrite (cget_ok 0%r) by (rewrite zlen_map, zlen_zrange; lia). cbn [bind].
        rewrite cset_ok by (rewrite zlen_map, zlen_zrange; lia). eexists. split; [reflexivity|].
        apply list_eq_znth with (d := 0%r).
        * rewrite zlen_upd, !zlen_map. reflexivity.
        * rewrite zlen_upd, zlen_map, zlen_zrange by lia. intros v Hv.
          rewrite znth_upd by (rewrite zlen_map, zlen_zrange; lia). rewrite !znth_map_zrange by lia.
          rewrite !Z.add_0_l. rewrite sum_zrange_succ by lia. rewrite <- EA.
          rewrite (Z.eqb_sym v). destruct (Z.eqb_spec (reg n (rev indices) i) v) as [->|]; [reflexivity|ring].
    - fold k. rewrite E, Hp. reflexivity.
  Qed.

  Lemma marginal_perm n g g' (f : Z -> C) x : (forall q, In q g <-> In q g') ->
    marginal n g f (reg n g x) = marginal n g' f (reg n g' x).
  Proof.
    intros H. apply sum_ext. intros y _.
    assert (E : (reg n g y =? reg n g x) = (reg n g' y =? reg n g' x)).
    { destruct (Z.eqb_spec (reg n g y) (reg n g x)) as [E|E], (Z.eqb_spec (reg n g' y) (reg n g' x)) as [E'|E']; auto; exfalso.
      - apply E'. apply reg_ext. intros q Hq. apply (reg_inj n g); auto. apply H. auto.
      - apply E. apply reg_ext. intros q Hq. apply (reg_inj n g'); auto. apply H. auto. }
    rewrite E. reflexivity.
  Qed.

  (** ** permutations of updated lists *)
  Lemma upd_perm {A} (d : A) (l : list A) i y : (i < length l)%nat -> Permutation (nth i l d :: upd l i y) (y :: l).
  Proof.
    revert i. induction l as [|a l IH]; intros i Hi; cbn [length] in Hi; [lia|]. destruct i as [|i]; cbn [nth upd].
    - apply perm_swap.
    - rewrite perm_swap. rewrite (IH i) by lia. apply perm_swap.
  Qed.
  Lemma swap_perm {A} (d : A) (l : list A) i j : (i < length l)%nat -> (j < length l)%nat -> i <> j ->
    Permutation (upd (upd l i (nth j l d)) j (nth i l d)) l.
  Proof.
    intros Hi Hj Hne. set (l1 := upd l i (nth j l d)).
    apply (Permutation_cons_inv (a := nth j l d)).
    assert (E : nth j l1 d = nth j l d).
    { unfold l1. rewrite nth_upd. destruct (Nat.eqb_spec i j); [lia|]. reflexivity. }
    rewrite <- E at 1. rewrite (upd_perm d l1) by (unfold l1; rewrite upd_length; auto).
    unfold l1. apply upd_perm. auto.
  Qed.
  Lemma combine_upd {A B} (l : list A) (l' : list B) i a b :
    combine (upd l i a) (upd l' i b) = upd (combine l l') i (a, b).
  Proof.
    revert l' i. induction l as [|x l IH]; intros [|y l'] [|i]; cbn [upd combine]; auto.
    f_equal. apply IH.
  Qed.
  Lemma znth_combine {A B} (da : A) (db : B) l l' i : zlen l = zlen l' -> 0 <= i < zlen l ->
    znth (da, db) (combine l l') i = (znth da l i, znth db l' i).
  Proof.
    intros E Hi. unfold znth. destruct (i <? 0); auto. apply combine_nth. unfold zlen in E. lia.
  Qed.
  Lemma zlen_combine {A B} (l : list A) (l' : list B) : zlen l = zlen l' -> zlen (combine l l') = zlen l.
  Proof. unfold zlen. rewrite combine_length. lia. Qed.

  (** ** bubble *)
  Lemma bubble_ok fuel : forall (ms : list Z) (ps : list K) pos,
    zlen ms = zlen ps -> 0 <= pos < zlen ms -> pos <= Z.of_nat fuel ->
    exists ms' ps', bubble fuel ms ps pos = Ok (ms', ps') /\ zlen ms' = zlen ms /\ zlen ps' = zlen ps /\
      Permutation (combine ms' ps') (combine ms ps) /\
      (forall j, pos < j -> znth 0 ms' j = znth 0 ms j /\ znth 0%r ps' j = znth 0%r ps j).
  Proof.
    induction fuel as [|fuel IH]; intros ms ps pos HL Hpos Hf.
    - cbn [bubble]. destruct (Z.leb_spec pos 0); [|lia]. exists ms, ps. auto 10.
    - cbn [bubble]. destruct (Z.leb_spec pos 0). { exists ms, ps. auto 10. }
      set (par := Z.shiftr (pos - 1) 1).
      assert (Hpar : 0 <= par < pos).
      { unfold par. rewrite Z.shiftr_div_pow2 by lia. change (2 ^ 1) with 2. split; [apply Z.div_pos; lia|].
        apply Z.div_lt_upper_bound; lia. }
      rewrite !(cget_ok 0%r ps) by lia. cbn [bind].
      destruct (rleb _ _). { exists ms, ps. auto 10. }
      rewrite !(cget_ok 0 ms) by lia. cbn [bind].
      repeat (rewrite cset_ok by (rewrite ?zlen_upd; lia); cbn [bind]).
      destruct (IH (upd (upd ms (Z.to_nat pos) (znth 0 ms par)) (Z.to_nat par) (znth 0 ms pos))
                   (upd (upd ps (Z.to_nat pos) (znth 0%r ps par)) (Z.to_nat par) (znth 0%r ps pos)) par)
        as (ms' & ps' & E & L1 & L2 & PP & U); try (rewrite ?zlen_upd; lia).
      exists ms', ps'. split; [exact E|]. rewrite !zlen_upd in L1. rewrite !zlen_upd in L2. split; auto. split; auto. split.
      + rewrite PP. rewrite !combine_upd.
        rewrite <- !(znth_combine 0 0%r) by lia.
        assert (N1 : forall i, 0 <= i -> znth (0, 0%r) (combine ms ps) i = nth (Z.to_nat i) (combine ms ps) (0, 0%r)).
        { intros i Hi. unfold znth. destruct (Z.ltb_spec i 0); auto; lia. }
        rewrite !N1 by lia. pose proof (zlen_combine ms ps HL) as LC. unfold zlen in LC, Hpos, HL.
        apply swap_perm; lia.
      + intros j Hj. destruct (U j ltac:(lia)) as [U1 U2]. rewrite U1, U2.
        rewrite !znth_upd by (rewrite ?zlen_upd; lia). destruct (Z.eqb_spec j par), (Z.eqb_spec j pos); auto; lia.
  Qed.

  (** ** sorting *)
  Lemma insert_desc_perm x (l : list (Z * K)) : Permutation (insert_desc x l) (x :: l).
  Proof.
    induction l as [|y l IH]; cbn [insert_desc]; auto. destruct (rleb _ _); auto. rewrite IH. apply perm_swap.
  Qed.
  Lemma sort_desc_perm (l : list (Z * K)) : Permutation (sort_desc l) l.
  Proof.
    unfold sort_desc. rewrite <- (app_nil_r l) at 2. generalize (@nil (Z * K)) as acc.
    induction l as [|x l IH]; intros acc; cbn [fold_left app]; auto. rewrite IH, insert_desc_perm.
    symmetry. apply Permutation_middle.
  Qed.
  Lemma insert_desc_sorted x (l : list (Z * K)) :
    decreasing (map snd l) -> decreasing (map snd (insert_desc x l)).
  Proof.
    induction l as [|y l IH]; cbn [insert_desc map decreasing].
    - intros _. split; auto. intros b [].
    - intros [H1 H2]. destruct (rleb (snd x) (snd y)) eqn:E; cbn [map decreasing].
      + split; auto. intros b Hb. apply (Permutation_in b (Permutation_map snd (insert_desc_perm x l))) in Hb.
        cbn [map] in Hb. destruct Hb as [<-|Hb]; auto.
      + split; auto. intros b [<-|Hb].
        * destruct (rle_lt_dec (snd x) (snd y)) as [T|T]; [unfold rle in T; congruence|apply rlt_le; auto].
        * apply rle_trans with (snd y); auto.
          destruct (rle_lt_dec (snd x) (snd y)) as [T|T]; [unfold rle in T; congruence|apply rlt_le; auto].
  Qed.
  Lemma sort_desc_sorted (l : list (Z * K)) : decreasing (map snd (sort_desc l)).
  Proof.
    unfold sort_desc. assert (H : decreasing (map snd (@nil (Z * K)))) by exact I. revert H.
    generalize (@nil (Z * K)) as acc. induction l as [|x l IH]; intros acc H; cbn [fold_left]; auto.
    apply IH. apply insert_desc_sorted. auto.
  Qed.

  (** ** top k *)
  Section Top.
    Variables (n : Z) (indices : list Z) (vec : list C).
    Hypotheses (Hn : 0 <= n) (HI : qubits_ok n indices) (HV : zlen vec = 2 ^ n).
    Let k := zlen indices.
    Let P m := marginal n (measured_order n indices) (amp_at 0 vec) m.

    Lemma vec_prob_ok mask m : masked n indices mask -> 0 <= m < 2 ^ k ->
      mfold (fun vec_prob j =>
              do x <- cget vec (entwine_bit k (n - k) m j mask);
              Ok (vec_prob + cnorm2 x)%r) (zrange 0 (2 ^ (n - k))) 0%r = Ok (P m).
    Proof.
      intros HM Hm. unfold P. rewrite <- (outcome_prob_ok n indices mask 0 vec m); auto; [|split; lia].
      unfold outcome_prob. fold k. apply mfold_ext. intros acc i _.
      pose proof (ent_range n indices mask Hn HI HM m i) as R. fold k in R.
      destruct (Z.leb_spec 0 (entwine_bit k (n - k) m i mask)); [|lia].
      destruct (Z.ltb_spec (entwine_bit k (n - k) m i mask) (zlen vec + 0)); [|lia]. cbn [andb].
      rewrite Z.sub_0_r. reflexivity.
    Qed.

    Definition top_step top_k : list Z * list K * Z -> Z -> res (list Z * list K * Z) :=
      fun '(ms, ps, heap_end) m =>
        do row_mask <- make_row_mask indices n;
        do vec_prob <- mfold (fun vec_prob j =>
              do x <- cget vec (entwine_bit k (n - k) m j row_mask);
              Ok (vec_prob + cnorm2 x)%r) (zrange 0 (2 ^ (n - k))) 0%r;
        do old <- cget ps heap_end;
        do mps <- (if rleb old vec_prob then
                     do ms <- cset ms heap_end m;
                     do ps <- cset ps heap_end vec_prob;
                     bubble (Z.to_nat heap_end) ms ps heap_end
                   else Ok (ms, ps));
        Ok (fst mps, snd mps, if heap_end <? top_k then heap_end + 1 else heap_end).

    Lemma top_unfold top_k :
      measure_top_probabilities indices n top_k vec =
      let top_k := Z.min top_k (2 ^ k) in
      if top_k <? 0 then Raise ValueError else
      do st <- mfold (top_step top_k) (zrange 0 (2 ^ k))
        (map (fun _ => 0) (zrange 0 top_k), map (fun _ => 0%r) (zrange 0 top_k), 0);
      let l := sort_desc (combine (fst (fst st)) (snd (fst st))) in
      if top_k =? 0 then Raise ValueError else Ok (map fst l, map snd l).
    Proof.
      unfold measure_top_probabilities. fold k. cbv zeta. destruct (_ <? 0); auto.
      match goal with |- context [mfold ?ff (zrange 0 (2 ^ k)) ?ss] =>
        replace (mfold ff (zrange 0 (2 ^ k)) ss) with (mfold (top_step (Z.min top_k (2 ^ k))) (zrange 0 (2 ^ k)) ss) end.
      - destruct (mfold _ _ _) as [[[ms ps] he]|]; reflexivity.
      - apply mfold_ext. intros [[ms ps] he] m _. reflexivity.
    Qed.

    Definition top_inv (L m : Z) (st : list Z * list K * Z) : Prop :=
      let '(ms, ps, he) := st in
      he = m /\ zlen ms = L /\ zlen ps = L /\
      (forall j, m <= j < L -> znth 0 ms j = 0 /\ znth 0%r ps j = 0%r) /\
      Permutation (combine ms ps) (map (fun j => (j, P j)) (zrange 0 m) ++ repeat (0, 0%r) (Z.to_nat (L - m))).

    Lemma top_loop L : 0 <= L <= 2 ^ k ->
      exists ms ps, mfold (top_step L) (zrange 0 L) (map (fun _ => 0) (zrange 0 L), map (fun _ => 0%r) (zrange 0 L), 0)
        = Ok (ms, ps, L) /\ zlen ps = L /\
        Permutation (combine ms ps) (map (fun j => (j, P j)) (zrange 0 L)).
    Proof.
      intros HL. destruct (make_row_mask_ok n indices Hn HI) as (mask & Em & HM).
      destruct (mfold_zrange_inv (top_inv L) (top_step L) 0 L
        (map (fun _ => 0) (zrange 0 L), map (fun _ => 0%r) (zrange 0 L), 0)) as ([[ms ps] he] & E & He & L1 & L2 & _ & PP).
      - lia.
      - cbn [top_inv]. split; auto. rewrite !zlen_map, !zlen_zrange by lia. split; [lia|]. split; [lia|]. split.
        + intros j Hj. rewrite !znth_map_zrange by lia. auto.
        + rewrite combine_map_same. rewrite zrange_empty with (hi := 0) by lia. cbn [map app].
          assert (X : map (fun _ : Z => (0, 0%r : K)) (zrange 0 L) = repeat (0, 0%r) (Z.to_nat (L - 0))).
          { unfold zrange. rewrite map_map. generalize (Z.to_nat (L - 0)) as c. intros c. generalize 0%nat as s.
            induction c as [|c IH]; intros s; cbn [seq map repeat]; auto. f_equal. apply IH. }
          rewrite X. reflexivity.
      - intros m [[ms ps] he] Hm (-> & L1 & L2 & Z0 & PP). cbn [top_step]. rewrite Em. cbn [bind].
        rewrite (vec_prob_ok mask m HM) by lia. cbn [bind].
        rewrite (cget_ok 0%r) by lia. cbn [bind]. rewrite (proj2 (Z0 m ltac:(lia))).
        assert (G : rleb 0%r (P m) = true) by apply marginal_nonneg. rewrite G.
        repeat (rewrite cset_ok by lia; cbn [bind]).
        destruct (bubble_ok (Z.to_nat m) (upd ms (Z.to_nat m) m) (upd ps (Z.to_nat m) (P m)) m) as
          (ms' & ps' & E & L1' & L2' & PP' & U); try (rewrite ?zlen_upd; lia).
        rewrite E. cbn [bind fst snd]. destruct (Z.ltb_spec m L); [|lia]. eexists. split; [reflexivity|].
        cbn [top_inv]. rewrite zlen_upd in L1'. rewrite zlen_upd in L2'. split; auto. split; [lia|]. split; [lia|]. split.
        + intros j Hj. destruct (U j ltac:(lia)) as [U1 U2]. rewrite U1, U2.
          rewrite !znth_upd by lia. destruct (Z.eqb_spec j m); [lia|]. apply Z0. lia.
        + rewrite PP', combine_upd.
          assert (LC : zlen (combine ms ps) = L) by (rewrite zlen_combine; lia).
          pose proof (upd_perm (0, 0%r) (combine ms ps) (Z.to_nat m) (m, P m)) as UP.
          assert (N0 : nth (Z.to_nat m) (combine ms ps) (0, 0%r) = (0, 0%r)).
          { pose proof (znth_combine 0 (0%r : K) ms ps m ltac:(lia) ltac:(lia)) as ZC.
            unfold znth at 1 in ZC. destruct (Z.ltb_spec m 0); [lia|]. rewrite ZC.
            destruct (Z0 m ltac:(lia)) as [-> ->]. reflexivity. }
          rewrite N0 in UP. specialize (UP ltac:(unfold zlen in LC; lia)).
          apply (Permutation_cons_inv (a := (0, 0%r))). rewrite UP, PP.
          rewrite zrange_snoc with (hi := m + 1) by lia. replace (m + 1 - 1) with m by lia.
          rewrite map_app. cbn [map].
          replace (Z.to_nat (L - m)) with (S (Z.to_nat (L - (m + 1)))) by lia. cbn [repeat].
          rewrite <- app_assoc. cbn [app].
          set (A := map (fun j => (j, P j)) (zrange 0 m)). set (R := repeat _ _).
          rewrite <- (Permutation_middle A R (0, 0%r)).
          rewrite <- (Permutation_middle A R (m, P m)). apply perm_swap.
      - subst he. exists ms, ps. split; auto. split; auto.
        replace (Z.to_nat (L - L)) with O in PP by lia. cbn [repeat] in PP. rewrite app_nil_r in PP. exact PP.
    Qed.

    Lemma top_all top_k : 2 ^ k <= top_k ->
      exists l, measure_top_probabilities indices n top_k vec = Ok (map fst l, map snd l) /\
        Permutation l (map (fun m => (m, P m)) (zrange 0 (2 ^ k))) /\ decreasing (map snd l).
    Proof.
      intros Hk. assert (Pk : 0 < 2 ^ k) by (apply Z.pow_pos_nonneg; [lia|apply zlen_nonneg]).
      destruct (top_loop (2 ^ k) ltac:(lia)) as (ms & ps & E & _ & PP).
      exists (sort_desc (combine ms ps)). split; [|split].
      - rewrite top_unfold. cbv zeta. rewrite Z.min_r by lia. destruct (Z.ltb_spec (2 ^ k) 0); [lia|].
        rewrite E. cbn [bind fst snd]. destruct (Z.eqb_spec (2 ^ k) 0); [lia|]. reflexivity.
      - rewrite sort_desc_perm. exact PP.
      - apply sort_desc_sorted.
    Qed.
    Lemma top_some top_k : 1 <= top_k < 2 ^ k -> measure_top_probabilities indices n top_k vec = Raise OOB.
    Proof.
      intros Hk. destruct (top_loop top_k ltac:(lia)) as (ms & ps & E & HL & PP).
      destruct (make_row_mask_ok n indices Hn HI) as (mask & Em & HM).
      rewrite top_unfold. cbv zeta. rewrite Z.min_l by lia. destruct (Z.ltb_spec top_k 0); [lia|].
      rewrite (zrange_app 0 top_k (2 ^ k)) by lia. rewrite mfold_app, E. cbn [bind].
      rewrite zrange_cons by lia. cbn [mfold top_step]. rewrite Em. cbn [bind].
      rewrite (vec_prob_ok mask) by (auto; lia). cbn [bind].
      rewrite cget_oob by lia. reflexivity.
    Qed.
  End Top.
End Probs.
