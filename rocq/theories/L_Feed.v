(** Proofs about make_state. *)
From Verif Require Import Base S_Bits M_Bits L_Bits M_Kron S_Kron L_Kron L_Alg M_Feed S_Feed.

Lemma firstn_snoc {A} (d : A) (l : list A) j : 0 <= j < zlen l ->
  firstn (Z.to_nat (j + 1)) l = firstn (Z.to_nat j) l ++ [znth d l j].
Proof.
  intros H. replace (Z.to_nat (j + 1)) with (S (Z.to_nat j)) by lia. rewrite znth_nth by lia.
  assert (Hn : (Z.to_nat j < length l)%nat) by (unfold zlen in H; lia). clear H.
  revert Hn. generalize (Z.to_nat j). clear j. intros k. revert k.
  induction l as [|a l IH]; intros [|k] Hn; cbn in *; try lia; auto. f_equal. apply IH. lia.
Qed.
Lemma split_at {A} (d : A) (l : list A) j : 0 <= j < zlen l ->
  l = firstn (Z.to_nat j) l ++ znth d l j :: skipn (Z.to_nat (j + 1)) l.
Proof.
  intros H. rewrite <- (firstn_skipn (Z.to_nat (j + 1)) l) at 1. rewrite (firstn_snoc d) by auto.
  rewrite <- app_assoc. reflexivity.
Qed.
Lemma zlen_firstn {A} (l : list A) j : 0 <= j <= zlen l -> zlen (firstn (Z.to_nat j) l) = j.
Proof. intros. unfold zlen in *. rewrite firstn_length. lia. Qed.
Lemma pyslice_mid {A} (a b c : list A) : pyslice (a ++ b ++ c) (zlen a) (zlen a + zlen b) = b.
Proof.
  unfold pyslice. replace (Z.to_nat (zlen a)) with (length a) by (unfold zlen; lia).
  rewrite skipn_app, skipn_all, Nat.sub_diag. cbn [skipn app].
  replace (Z.to_nat (zlen a + zlen b - zlen a)) with (length b) by (unfold zlen; lia).
  rewrite firstn_app, firstn_all, Nat.sub_diag. cbn [firstn]. apply app_nil_r.
Qed.

Section FeedProofs.
  Context {K : Type} {OK : OrdRing K}.
  Notation C := (Cx K).
  Add Ring KRingF : (@rth (Cx K) _).

  Lemma flips_eq n F i : 0 <= n -> qubits_ok n F ->
    uint_to_bitarray i (zlen F) = map Z.b2z (map (qbit n (setreg n F 0 i)) F).
  Proof.
    intros Hn HF. pose proof (zlen_nonneg F). apply list_eq_znth with (d := 0).
    - rewrite uint_bitlist by auto. rewrite zlen_bitlist, !zlen_map; auto.
    - rewrite uint_bitlist, zlen_bitlist by auto. intros j Hj. rewrite znth_bitlist by auto.
      rewrite (znth_map Z.b2z false 0) by (rewrite zlen_map; auto).
      rewrite (znth_map (qbit n (setreg n F 0 i)) 0 false) by auto.
      rewrite qbit_setreg_in by auto. reflexivity.
  Qed.

  Lemma edit_bits n F i x : 0 <= n -> qubits_ok n F -> agree_off n F 0 x = true ->
    mfold (fun bits '(j, bit) =>
        do q <- pyget F j; do b <- pyget (uint_to_bitarray i (zlen F)) j; pyset bits q b)
      (enumerate (uint_to_bitarray i (zlen F))) (bitlist n x)
    = Ok (bitlist n (setreg n F 0 i)).
  Proof.
    intros Hn HF Ha. pose proof (zlen_nonneg F).
    rewrite <- (set_columns n F 0 x i) by auto.
    rewrite (enumerate_map 0), (enumerate_map 0 F), !mfold_map.
    rewrite (uint_bitlist (zlen F)), zlen_bitlist by auto.
    apply mfold_ext. intros s j Hj. apply in_zrange in Hj. rewrite (pyget_ok 0 F) by auto. reflexivity.
  Qed.

  Lemma edit_regs n gs X : 0 <= n ->
    let F := concat gs in let flips := map Z.b2z (map (qbit n X) F) in
    exists indx, mfold (fun '(qbit_state_indices, indx) '(j, index_group) =>
        let subflips := pyslice flips indx (indx + zlen index_group) in
        do v <- bitarray_to_uint subflips;
        do qbit_state_indices <- pyset qbit_state_indices j v;
        Ok (qbit_state_indices, indx + zlen index_group))
      (enumerate gs) (map (fun _ => 0) (zrange 0 (zlen gs)), 0)
    = Ok (map (fun g => reg n g X) gs, indx).
  Proof.
    intros Hn F flips. pose proof (zlen_nonneg gs).
    rewrite (enumerate_map []), mfold_map.
    destruct (mfold_zrange_inv
      (fun j (st : list Z * Z) => zlen (fst st) = zlen gs /\ snd st = zlen (concat (firstn (Z.to_nat j) gs)) /\
         forall k, 0 <= k < j -> znth 0 (fst st) k = reg n (znth [] gs k) X)
      (fun '(acc, indx) j =>
        do v <- bitarray_to_uint (pyslice flips indx (indx + zlen (znth [] gs j)));
        do acc <- pyset acc j v; Ok (acc, indx + zlen (znth [] gs j)))
      0 (zlen gs) (map (fun _ => 0) (zrange 0 (zlen gs)), 0)) as ([acc indx] & E & H1 & H2 & H3).
    - auto.
    - cbn [fst snd]. rewrite zlen_map, zlen_zrange by auto. repeat split; [lia|]. intros; lia.
    - intros j [acc indx] Hj (H1 & H2 & H3). cbn [fst snd] in *.
      assert (EF : F = concat (firstn (Z.to_nat j) gs) ++ znth [] gs j ++ concat (skipn (Z.to_nat (j + 1)) gs)).
      { unfold F. rewrite (split_at [] gs j) at 1 by auto. rewrite concat_app. reflexivity. }
      assert (ES : pyslice flips indx (indx + zlen (znth [] gs j)) = map Z.b2z (map (qbit n X) (znth [] gs j))).
      { unfold flips. rewrite EF, !map_app. rewrite H2.
        rewrite <- (pyslice_mid (map Z.b2z (map (qbit n X) (concat (firstn (Z.to_nat j) gs))))
          (map Z.b2z (map (qbit n X) (znth [] gs j)))
          (map Z.b2z (map (qbit n X) (concat (skipn (Z.to_nat (j + 1)) gs))))) at 2.
        rewrite !zlen_map. reflexivity. }
      rewrite ES, bitarray_to_uint_spec, map_b2z_truth. cbn [bind]. change (val (map (qbit n X) (znth [] gs j))) with (reg n (znth [] gs j) X).
      rewrite pyset_ok by lia. cbn [bind]. eexists; split; [reflexivity|]. cbn [fst snd]. rewrite zlen_upd.
      split; [auto|]. split.
      + rewrite (firstn_snoc []) by auto. rewrite concat_app, zlen_app. cbn [concat]. rewrite app_nil_r. lia.
      + intros k Hk. rewrite znth_upd by lia. destruct (Z.eqb_spec k j) as [->|]; auto. apply H3. lia.
    - exists indx. cbn [fst snd] in *. etransitivity; [|etransitivity; [exact E|]].
      + apply mfold_ext. intros [a b] j _. reflexivity.
      + f_equal. f_equal. apply list_eq_znth with (d := 0).
        * rewrite zlen_map. auto.
        * intros k Hk. rewrite H3 by lia. rewrite (znth_map (fun g => reg n g X) [] 0); auto; lia.
  Qed.

  Lemma gen_edit_ok n gs : 0 <= n -> qubits_ok n (concat gs) -> gs <> [] ->
    let X i := setreg n (concat gs) 0 i in
    gen_edit_indices gs (n - 1) =
      Ok (map (fun i => (X i, map (fun g => reg n g (X i)) gs)) (zrange 0 (2 ^ zlen (concat gs)))).
  Proof.
    intros Hn HF Hne X. set (F := concat gs) in *. pose proof (zlen_nonneg F).
    unfold gen_edit_indices. fold F.
    assert (Hl : (0 <? zlen gs) = true). { destruct gs; [congruence|]. rewrite zlen_cons. pose proof (zlen_nonneg gs). lia. }
    rewrite Hl.
    replace (map (fun _ : Z => 0) (zrange 0 (n - 1 + 1))) with (bitlist n 0).
    2:{ unfold bitlist. replace (n - 1 + 1) with n by lia. rewrite map_map. apply map_ext. intros q. unfold qbit.
        rewrite Z.bits_0. reflexivity. }
    match goal with |- context [mfold ?f (zrange 0 (2 ^ zlen F)) ?s] =>
      destruct (mfold_zrange_inv (fun i (st : list Z * list (Z * list Z)) =>
         (exists x, fst st = bitlist n x /\ agree_off n F 0 x = true) /\
         snd st = map (fun i => (X i, map (fun g => reg n g (X i)) gs)) (zrange 0 i)) f 0 (2 ^ zlen F) s)
         as ([b acc] & E & _ & H2) end.
    - apply Z.pow_nonneg; lia.
    - cbn [fst snd]. split; [|reflexivity]. exists 0. split; auto. apply agree_off_spec. auto.
    - intros i [b acc] Hi [(x & Hb & Hx) Hacc]. cbn [fst snd] in *. subst b acc.
      rewrite edit_bits by auto. cbn [bind].
      rewrite (flips_eq n F i) by auto. destruct (edit_regs n gs (X i) Hn) as [indx ER]. fold F in ER. fold (X i).
      cbn zeta in ER |- *. rewrite ER. cbn [bind fst].
      rewrite bitlist_uint by (auto; apply setreg_range; auto). cbn [bind].
      eexists; split; [reflexivity|]. cbn [fst snd]. split.
      + exists (X i). split; auto. apply setreg_agree.
      + rewrite (zrange_snoc 0 (i + 1)) by lia. replace (i + 1 - 1) with i by lia. rewrite map_app. reflexivity.
    - rewrite E. cbn [bind snd] in *. rewrite H2. reflexivity.
  Qed.

  (** one edit: cell [p] becomes the product *)
  Lemma edit_cell n (fs : list (list Z * list (Cx K))) x st p :
    (forall g a, In (g, a) fs -> zlen a = 2 ^ zlen g) -> 0 <= p < zlen st ->
    (do state <- pyset st p 1%r;
     mfold (fun state '(qindex, flip) =>
        do s <- pyget state p; do f <- pyget (fed_list fs) qindex; do a <- feed_get f flip;
        pyset state p (s * a)%r) (enumerate (map (fun g => reg n g x) (fed_groups fs))) state)
    = Ok (upd st (Z.to_nat p) (prod fs (fun f => znth 0%r (snd f) (reg n (fst f) x)))).
  Proof.
    intros Hlen Hp. rewrite pyset_ok by auto. cbn [bind]. rewrite (enumerate_map 0), mfold_map.
    unfold fed_groups, fed_list. rewrite !zlen_map. pose proof (zlen_nonneg fs).
    set (f0 := ([], []) : list Z * list (Cx K)).
    match goal with |- mfold ?ff (zrange 0 (zlen fs)) ?s = _ =>
      destruct (mfold_zrange_inv (fun j (S : list C) =>
        S = upd st (Z.to_nat p) (prod (firstn (Z.to_nat j) fs) (fun f => znth 0%r (snd f) (reg n (fst f) x)))) ff 0 (zlen fs) s)
        as (S & E & HS) end.
    - auto.
    - reflexivity.
    - intros j S Hj ->. rewrite (pyget_ok 0%r) by (rewrite zlen_upd; auto). cbn [bind].
      rewrite (pyget_ok (FArr [])) by (rewrite zlen_map; auto). cbn [bind].
      rewrite (znth_map (fun f => FArr (snd f)) f0 (FArr [])) by auto. cbn [feed_get].
      rewrite map_map. rewrite (znth_map (fun f => reg n (fst f) x) f0 0) by auto.
      assert (Hin : In (znth f0 fs j) fs) by (apply znth_in; auto).
      destruct (znth f0 fs j) as [g a] eqn:Ef. cbn [fst snd]. pose proof (reg_range n g x).
      pose proof (Hlen g a Hin).  rewrite (pyget_ok 0%r) by lia. cbn [bind].
      rewrite pyset_ok by (rewrite zlen_upd; auto). eexists; split; [reflexivity|].
      rewrite (firstn_snoc f0), Ef by auto. rewrite prod_app. cbn [prod fst snd].
      rewrite znth_upd, Z.eqb_refl by auto.
      assert (UU : forall a b, upd (upd st (Z.to_nat p) a) (Z.to_nat p) b = upd st (Z.to_nat p) b).
      { intros u w. apply list_eq_znth with (d := 0%r); [rewrite !zlen_upd; auto|]. rewrite !zlen_upd.
        intros i Hi. rewrite !znth_upd by (rewrite ?zlen_upd; auto). destruct (i =? p); auto. }
      rewrite UU. f_equal. ring.
    - rewrite E, HS. rewrite firstn_all2; auto. unfold zlen. lia.
  Qed.

  Lemma fed_cond n F x : 0 <= n -> 0 <= x < 2 ^ n -> qubits_ok n F ->
    forallb (fun q => existsb (Z.eqb q) F || negb (qbit n x q)) (zrange 0 n) = true <->
    setreg n F 0 (reg n F x) = x.
  Proof.
    intros Hn Hx HF. rewrite forallb_forall. split.
    - intros H. rewrite <- (setreg_reg n F x x) at 2 by auto. apply setreg_ext_base. intros q Hq Hnin.
      assert (Hz : In q (zrange 0 n)) by (apply in_zrange; auto). specialize (H q Hz).
      apply orb_true_iff in H as [H|H].
      + apply existsb_exists in H as (q' & H & E). apply Z.eqb_eq in E. subst. tauto.
      + unfold qbit at 1. rewrite Z.bits_0. apply negb_true_iff in H. congruence.
    - intros H q Hq. apply in_zrange in Hq. destruct (existsb (Z.eqb q) F) eqn:E; auto. cbn [orb].
      assert (~ In q F). { intros Hin. rewrite <- not_true_iff_false, existsb_exists in E. apply E. exists q.
        split; auto. apply Z.eqb_refl. }
      rewrite <- H. rewrite qbit_setreg_out by auto. unfold qbit. rewrite Z.bits_0. reflexivity.
  Qed.

  Lemma make_state_fed junk n (fs : list (list Z * list (Cx K))) s e :
    0 <= n -> fs <> [] -> feeds_ok n fs -> 0 <= s <= e -> e <= 2 ^ n ->
    make_state junk n (fed_groups fs) (fed_list fs) (Some s) (Some e) None None
    = Ok (mkBackend n (map (fed_amp n fs) (zrange s e)) (map junk (zrange 0 (2 ^ n)))).
  Proof.
    intros Hn Hne [HF Hlen] Hse He. unfold make_state. cbn [default].
    destruct (Z.ltb_spec (e - s) 0); [lia|].
    destruct (Z.eqb_spec (zlen (fed_list fs)) 0) as [E|_].
    { exfalso. destruct fs; [congruence|]. unfold fed_list in E. rewrite zlen_map, zlen_cons in E.
      pose proof (zlen_nonneg fs). lia. }
    cbn [bind]. unfold fed_groups at 1. rewrite gen_edit_ok by (auto; destruct fs; cbn; congruence). cbn [bind].
    set (F := concat (map fst fs)) in *. pose proof (zlen_nonneg F) as HFl.
    rewrite mfold_map. rewrite Z.sub_0_r.
    match goal with |- context [mfold ?f (zrange 0 (2 ^ zlen F)) ?st] =>
      destruct (mfold_zrange_inv (fun i (S : list C) => zlen S = e - s /\ forall x, s <= x < e ->
         znth 0%r S (x - s) = if (reg n F x <? i) then fed_amp n fs x else 0%r) f 0 (2 ^ zlen F) st)
         as (S & E & HS1 & HS2) end.
    - apply Z.pow_nonneg; lia.
    - rewrite zlen_map, zlen_zrange by lia. split; [lia|]. intros x Hx.
      rewrite (znth_map_zrange 0%r (fun _ => 0%r)) by lia. destruct (Z.ltb_spec (reg n F x) 0); auto.
      pose proof (reg_range n F x). lia.
    - intros i S Hi [HS1 HS2]. cbv beta.
      set (y := setreg n F 0 i) in *.
      assert (Hy : 0 <= y < 2 ^ n) by (apply setreg_range; auto).
      assert (Hry : reg n F y = i) by (apply reg_setreg; auto).
      assert (Hoff : forall x, s <= x < e -> x <> y -> (if reg n F x <? i then fed_amp n fs x else 0%r)
         = (if reg n F x <? i + 1 then fed_amp n fs x else 0%r)).
      { intros x Hx Hxy. destruct (Z.ltb_spec (reg n F x) i), (Z.ltb_spec (reg n F x) (i + 1)); auto; try lia.
        unfold fed_amp. fold F. destruct (forallb _ _) eqn:Ec; auto. apply fed_cond in Ec; auto; [|lia].
        replace (reg n F x) with i in Ec by lia. exfalso. apply Hxy. unfold y. auto. }
      destruct (Z.ltb_spec y s), (Z.leb_spec e y); cbn [orb].
      1-3: exists S; split; [reflexivity|split; auto]; intros x Hx; rewrite HS2 by auto; apply Hoff; auto; lia.
      change (map (fun g => reg n g y) (map fst fs)) with (map (fun g => reg n g y) (fed_groups fs)).
      rewrite edit_cell by (auto; lia). eexists; split; [reflexivity|]. rewrite zlen_upd. split; auto.
      intros x Hx. rewrite znth_upd by lia. destruct (Z.eqb_spec (x - s) (y - s)) as [Exy|Exy].
      + assert (x = y) by lia. subst x. rewrite Hry. destruct (Z.ltb_spec i (i + 1)); [|lia].
        unfold fed_amp. fold F. replace (forallb _ _) with true; auto. symmetry. apply fed_cond; auto.
        rewrite Hry. reflexivity.
      + rewrite HS2 by auto. apply Hoff; auto. lia.
    - cbn zeta in E. rewrite E. cbn [bind].
      destruct (Z.ltb_spec (2 ^ n) 0); [lia|]. f_equal. f_equal.
      apply list_eq_znth with (d := 0%r).
      + rewrite zlen_map, zlen_zrange; lia.
      + intros j Hj. rewrite znth_map_zrange by lia. replace j with ((s + j) - s) at 1 by lia.
        rewrite HS2 by lia. pose proof (reg_range n F (s + j)). destruct (Z.ltb_spec (reg n F (s + j)) (2 ^ zlen F)); auto; lia.
  Qed.

  Lemma make_state_empty junk n s e :
    0 <= n -> 0 <= s < e -> e <= 2 ^ n ->
    make_state junk n [] [] (Some s) (Some e) None None
    = Ok (mkBackend n (map (fun x => if x =? s then 1%r else 0%r) (zrange s e)) (map junk (zrange 0 (2 ^ n)))).
  Proof.
    intros Hn Hse He. unfold make_state. cbn [default].
    destruct (Z.ltb_spec (e - s) 0); [lia|]. change (zlen (@nil (feed_t K)) =? 0) with true. cbn iota.
    rewrite pyset_ok by (rewrite zlen_map, zlen_zrange; lia). cbn [bind].
    change (gen_edit_indices [] (n - 1)) with (Ok (@nil (Z * list Z))). cbn [bind mfold].
    rewrite Z.sub_0_r. destruct (Z.ltb_spec (2 ^ n) 0); [lia|]. f_equal. f_equal.
    apply list_eq_znth with (d := 0%r).
    - rewrite zlen_upd, !zlen_map, !zlen_zrange; lia.
    - rewrite zlen_upd, zlen_map, zlen_zrange by lia. intros j Hj.
      rewrite znth_upd by (rewrite zlen_map, zlen_zrange; lia). rewrite !znth_map_zrange by lia.
      destruct (Z.eqb_spec j 0), (Z.eqb_spec (s + j) s); auto; lia.
  Qed.

  (** total probability *)
  Lemma sum_prod_range {A} {RA : CRing A} (a b : Z) (f : Z -> A) : 0 <= a -> 0 <= b ->
    sum (zrange 0 (a * b)) f = sum (zrange 0 a) (fun v => sum (zrange 0 b) (fun w => f (v * b + w))).
  Proof.
    intros Ha Hb. revert a Ha. apply natlike_ind.
    - rewrite Z.mul_0_l. reflexivity.
    - intros a Ha IH. rewrite (zrange_app 0 (a * b) (Z.succ a * b)) by nia. rewrite sum_app, IH.
      rewrite (zrange_snoc 0 (Z.succ a)) by lia. replace (Z.succ a - 1) with a by lia. rewrite sum_app. f_equal.
      cbn [sum]. replace (a * b) with (0 + a * b) at 1 by lia. replace (Z.succ a * b) with (b + a * b) by nia.
      rewrite zrange_shift, sum_map.
      rewrite (Radd_comm (@rth A _)), (Radd_0_l (@rth A _)). apply sum_ext. intros. f_equal. lia.
  Qed.
  Lemma cnorm2_prod {I} (l : list I) (f : I -> C) : cnorm2 (prod l f) = prod l (fun i => cnorm2 (f i)).
  Proof. induction l; cbn [prod]; [apply cnorm2_1|]. rewrite cnorm2_mul. congruence. Qed.
  Lemma sum_as_range (a : list C) k (f : C -> K) : zlen a = k -> sum a f = sum (zrange 0 k) (fun i => f (znth 0%r a i)).
  Proof. intros <-. rewrite (list_as_map 0%r a) at 1. apply sum_map. Qed.

  Lemma fed_sum n (fs : list (list Z * list (Cx K))) : 0 <= n -> feeds_ok n fs ->
    sum (zrange 0 (2 ^ zlen (concat (map fst fs)))) (fun i =>
      prod fs (fun f => cnorm2 (znth 0%r (snd f) (reg n (fst f) (setreg n (concat (map fst fs)) 0 i)))))
    = prod fs (fun f => total (snd f)).
  Proof.
    intros Hn. induction fs as [|[g a] fs IH]; intros [HF Hlen].
    - cbn [map concat prod]. change (2 ^ zlen (@nil Z)) with 1. change (zrange 0 1) with [0]. cbn [sum].
      apply (rth.(Radd_comm)) || idtac. rewrite (Radd_comm (@rth K _)), (Radd_0_l (@rth K _)). reflexivity.
    - cbn [map fst snd concat prod]. set (F := concat (map fst fs)) in *.
      assert (HF' : qubits_ok n F /\ qubits_ok n g /\ forall q, In q g -> ~ In q F).
      { destruct HF as [ND Hr]. cbn [map fst concat] in ND, Hr. fold F in ND, Hr.
        apply NoDup_app_inv in ND as (N1 & N2 & N3).
        split; [split; auto; intros; apply Hr, in_or_app; auto|].
        split; [split; auto; intros; apply Hr, in_or_app; auto|auto]. }
      destruct HF' as (HF' & Hg & Hd). 
      assert (IH' : feeds_ok n fs) by (split; auto; intros; apply Hlen; right; auto).
      specialize (IH IH'). rewrite <- IH. clear IH.
      unfold total. rewrite (sum_as_range a (2 ^ zlen g)) by (apply Hlen; left; auto).
      pose proof (zlen_nonneg g). pose proof (zlen_nonneg F).
      rewrite zlen_app, Z.pow_add_r by auto. rewrite sum_prod_range by (apply Z.pow_nonneg; lia).
      rewrite <- sum_mul_r. apply sum_ext. intros v Hv. apply in_zrange in Hv. rewrite <- sum_mul_l. apply sum_ext.
      intros w Hw. apply in_zrange in Hw.
      set (X := setreg n (g ++ F) 0 (v * 2 ^ zlen F + w)).
      assert (HX : reg n (g ++ F) X = v * 2 ^ zlen F + w).
      { apply reg_setreg; [cbn [map fst concat] in HF; auto|]. rewrite zlen_app, Z.pow_add_r by auto. nia. }
      rewrite reg_app in HX. pose proof (reg_range n F X).
      assert (E1 : reg n g X = v) by nia. assert (E2 : reg n F X = w) by nia.
      rewrite E1. f_equal. apply prod_ext. intros [g' a'] Hin. cbn [fst snd]. f_equal. f_equal.
      apply reg_ext. intros q Hq. apply (reg_inj n F).
      + rewrite E2, reg_setreg; auto.
      + unfold F. apply in_concat. exists g'. split; auto. apply in_map_iff. exists (g', a'). auto.
  Qed.

  Lemma fed_total n (fs : list (list Z * list (Cx K))) : 0 <= n -> feeds_ok n fs ->
    total (map (fed_amp n fs) (zrange 0 (2 ^ n))) = prod fs (fun f => total (snd f)).
  Proof.
    intros Hn HF. rewrite <- (fed_sum n fs) by auto. set (F := concat (map fst fs)).
    assert (HF' : qubits_ok n F) by apply HF.
    unfold total. rewrite sum_map.
    rewrite (sum_reindex_supp _ (fun x => forallb (fun q => existsb (Z.eqb q) F || negb (qbit n x q)) (zrange 0 n))
      (zrange 0 (2 ^ zlen F)) (fun i => setreg n F 0 i)).
    - apply sum_ext. intros i Hi. apply in_zrange in Hi. unfold fed_amp. fold F.
      replace (forallb _ _) with true. { apply cnorm2_prod. }
      symmetry. apply fed_cond; auto; [apply setreg_range; auto|]. rewrite reg_setreg; auto.
    - apply zrange_nodup.
    - apply zrange_nodup.
    - intros i Hi. apply in_zrange in Hi. split; [apply in_zrange, setreg_range; auto|].
      apply fed_cond; auto; [apply setreg_range; auto|]. rewrite reg_setreg; auto.
    - intros i j Hi Hj E. apply in_zrange in Hi. apply in_zrange in Hj.
      rewrite <- (reg_setreg n F 0 i), <- (reg_setreg n F 0 j) by auto. congruence.
    - intros x Hx Hc. apply in_zrange in Hx. apply fed_cond in Hc; auto. exists (reg n F x). split; auto.
      apply in_zrange, reg_range.
    - intros x Hx Hc. unfold fed_amp. fold F. rewrite Hc. apply cnorm2_0.
  Qed.

  Lemma make_state_fed_full junk n (fs : list (list Z * list (Cx K))) :
    0 <= n -> fs <> [] -> feeds_ok n fs ->
    make_state junk n (fed_groups fs) (fed_list fs) None None None None
    = Ok (mkBackend n (map (fed_amp n fs) (zrange 0 (2 ^ n))) (map junk (zrange 0 (2 ^ n)))).
  Proof.
    intros. assert (0 < 2 ^ n) by (apply Z.pow_pos_nonneg; lia). rewrite <- (make_state_fed junk n fs 0 (2 ^ n)); auto; lia.
  Qed.
  Lemma make_state_empty_full junk n : 0 <= n ->
    make_state junk n [] [] None None None None
    = Ok (mkBackend n (map (fun x => if x =? 0 then 1%r else 0%r) (zrange 0 (2 ^ n))) (map junk (zrange 0 (2 ^ n)))).
  Proof.
    intros. assert (0 < 2 ^ n) by (apply Z.pow_pos_nonneg; lia). rewrite <- (make_state_empty junk n 0 (2 ^ n)); auto; lia.
  Qed.
  Lemma make_state_slice junk n (fs : list (list Z * list (Cx K))) s e :
    0 <= n -> fs <> [] -> feeds_ok n fs -> 0 <= s <= e -> e <= 2 ^ n ->
    exists full part,
      make_state junk n (fed_groups fs) (fed_list fs) None None None None = Ok full /\
      make_state junk n (fed_groups fs) (fed_list fs) (Some s) (Some e) None None = Ok part /\
      bk_state part = pyslice (bk_state full) s e.
  Proof.
    intros Hn Hne HF Hs He. eexists _, _. split; [apply make_state_fed_full; auto|].
    split; [apply make_state_fed; auto|]. cbn [bk_state].
    rewrite pyslice_map. unfold pyslice. rewrite firstn_skipn_zrange by lia. reflexivity.
  Qed.
  Lemma make_state_total junk n (fs : list (list Z * list (Cx K))) :
    0 <= n -> fs <> [] -> feeds_ok n fs -> exists b,
    make_state junk n (fed_groups fs) (fed_list fs) None None None None = Ok b /\
    total (bk_state b) = prod fs (fun f => total (snd f)).
  Proof.
    intros. eexists. split; [apply make_state_fed_full; auto|]. apply fed_total; auto.
  Qed.
  Lemma make_state_empty_slice junk n s e :
    0 <= n -> 0 <= s < e -> e <= 2 ^ n -> exists full part,
      make_state junk n [] [] None None None None = Ok full /\
      make_state junk n [] [] (Some s) (Some e) None None = Ok part /\
      (bk_state part = pyslice (bk_state full) s e <-> s = 0).
  Proof.
    intros Hn Hs He. eexists _, _. split; [apply make_state_empty_full; auto|].
    split; [apply make_state_empty; auto|]. cbn [bk_state].
    rewrite pyslice_map. unfold pyslice. rewrite firstn_skipn_zrange by lia. split.
    - intros E. assert (E' := f_equal (fun l => znth 0%r l 0) E). cbn beta in E'.
      rewrite !znth_map_zrange in E' by lia. rewrite Z.add_0_r, Z.eqb_refl in E'.
      destruct (Z.eqb_spec s 0); auto. exfalso.
      assert (E2 : fst (1%r : C) = fst (0%r : C)) by congruence. symmetry in E2. exact (rO_neq_rI E2).
    - intros ->. reflexivity.
  Qed.
End FeedProofs.
