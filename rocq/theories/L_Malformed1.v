(** make_state with lists of any length and qubits that are fed more than once. *)
From Coq Require Import ZifyBool.
From Verif Require Import Base S_Bits M_Bits L_Bits M_Kron S_Kron L_Kron L_Alg M_Feed S_Feed L_Feed L_Feed2 M_Graph S_Graph S_Malformed.

Lemma mfold_raises {S I} (Inv : S -> Prop) e (f : S -> I -> res S) l :
  (forall s i, In i l -> Inv s -> (exists s', f s i = Ok s' /\ Inv s') \/ f s i = Raise e) ->
  (exists i, In i l /\ forall s, Inv s -> f s i = Raise e) -> forall s, Inv s -> mfold f l s = Raise e.
Proof.
  induction l as [|a l IH]; intros H (i & Hi & Hr) s Hs; [destruct Hi|]. cbn [mfold].
  destruct Hi as [->|Hi]; [rewrite Hr by auto; auto|].
  destruct (H s a (or_introl eq_refl) Hs) as [(s' & -> & Hs')| ->]; auto. cbn [bind]. apply IH; auto.
  - intros t j Hj. apply H. right; auto.
  - eauto.
Qed.
Lemma pyget_past {A} (l : list A) i : zlen l <= i -> pyget l i = Raise IndexError.
Proof.
  intros H. pose proof (zlen_nonneg l). unfold pyget. destruct (Z.ltb_spec i 0); [lia|]. destruct (Z.ltb_spec i 0); [lia|].
  rewrite (proj2 (nth_error_None l (Z.to_nat i))); auto. unfold zlen in *. lia.
Qed.

(** ** digits *)
(** the last value written to [q] when the digits [bs] are written to the qubits [F] one after the other *)
Fixpoint lastval (F : list Z) (bs : list bool) (d : bool) (q : Z) : bool :=
  match F, bs with
  | q' :: F, b :: bs => lastval F bs (if q' =? q then b else d) q
  | _, _ => d
  end.
Lemma lastval_snoc F : forall bs d q q' b, length bs = length F ->
  lastval (F ++ [q']) (bs ++ [b]) d q = if q' =? q then b else lastval F bs d q.
Proof.
  induction F as [|x F IH]; intros [|y bs] d q q' b E; cbn in *; try discriminate; auto.
Qed.
Lemma lastval_in F : forall bs d d' q, length bs = length F -> In q F -> lastval F bs d q = lastval F bs d' q.
Proof.
  induction F as [|x F IH]; intros [|y bs] d d' q E Hi; cbn in *; try discriminate; [destruct Hi|].
  destruct (in_dec Z.eq_dec q F) as [Hq|Hq]; [apply IH; auto|]. destruct Hi as [->|Hi]; [|tauto].
  rewrite Z.eqb_refl. auto.
Qed.
Lemma lastval_out F : forall bs d q, ~ In q F -> lastval F bs d q = d.
Proof.
  induction F as [|x F IH]; intros [|y bs] d q Hi; cbn in *; auto. rewrite IH by tauto.
  destruct (Z.eqb_spec x q); auto. subst; tauto.
Qed.
Lemma length_digits n x g : forall later, length (digits n x g later) = length g.
Proof. induction g; cbn; auto. Qed.
Lemma digits_app n x g g' later : digits n x (g ++ g') later = digits n x g (g' ++ later) ++ digits n x g' later.
Proof. induction g; cbn; auto. rewrite IHg, app_assoc. auto. Qed.
Lemma existsb_in q F : existsb (Z.eqb q) F = true <-> In q F.
Proof.
  rewrite existsb_exists. split; [intros (y & H & E); apply Z.eqb_eq in E; subst; auto|].
  intros H. exists q. split; auto. apply Z.eqb_refl.
Qed.
Lemma existsb_out q F : existsb (Z.eqb q) F = false <-> ~ In q F.
Proof. rewrite <- existsb_in. destruct (existsb _ _); split; try congruence; intros H; exfalso; apply H; auto. Qed.
Lemma lastval_digits n x F : forall d q, In q F -> lastval F (digits n x F []) d q = qbit n x q.
Proof.
  induction F as [|y F IH]; intros d q Hi; [destruct Hi|]. cbn [digits lastval]. rewrite app_nil_r.
  destruct (in_dec Z.eq_dec q F) as [Hq|Hq]; [apply IH; auto|]. destruct Hi as [->|Hi]; [|tauto].
  rewrite Z.eqb_refl, lastval_out by auto. rewrite (proj2 (existsb_out q F)) by auto. reflexivity.
Qed.
Lemma digits_max n x F : forall bs d, length bs = length F -> (forall q, In q F -> lastval F bs d q = qbit n x q) ->
  Forall2 (fun b c => b = true -> c = true) bs (digits n x F []).
Proof.
  induction F as [|y F IH]; intros [|b bs] d E H; cbn in E; try discriminate; cbn [digits]; constructor.
  - intros ->. rewrite app_nil_r. destruct (existsb (Z.eqb y) F) eqn:Ex; auto. apply existsb_out in Ex.
    specialize (H y (or_introl eq_refl)). cbn [lastval] in H. rewrite Z.eqb_refl, lastval_out in H by auto. auto.
  - apply (IH bs d); auto. intros q Hq. rewrite <- (H q) by (right; auto). cbn [lastval]. apply lastval_in; auto.
Qed.
Lemma val_mono bs cs : Forall2 (fun b c => b = true -> c = true) bs cs -> val bs <= val cs.
Proof.
  induction 1 as [|b c bs cs H HF IH]; [lia|]. rewrite !val_cons.
  assert (El : zlen bs = zlen cs) by (clear - HF; unfold zlen; f_equal; induction HF; cbn; auto). rewrite El.
  pose proof (Z.pow_nonneg 2 (zlen cs) ltac:(lia)). destruct b, c; cbn [Z.b2z]; try lia; discriminate H; auto.
Qed.

(** the values of the registers when the digits are [bs] *)
Fixpoint chunks (gs : list (list Z)) (bs : list bool) : list Z :=
  match gs with [] => [] | g :: gs => val (firstn (length g) bs) :: chunks gs (skipn (length g) bs) end.
Lemma length_chunks gs : forall bs, length (chunks gs bs) = length gs.
Proof. induction gs; cbn; auto. Qed.
Lemma chunks_snoc gs : forall g bs,
  chunks (gs ++ [g]) bs = chunks gs bs ++ [val (firstn (length g) (skipn (length (concat gs)) bs))].
Proof.
  induction gs as [|g' gs IH]; intros g bs; cbn [app chunks concat]; [reflexivity|]. rewrite IH. cbn [app]. f_equal. f_equal. f_equal. f_equal.
  f_equal. rewrite app_length. revert bs. clear. generalize (length (concat gs)) as b, (length g') as a. intros b a. revert b.
  induction a as [|a IHa]; intros b bs; [reflexivity|]. destruct bs; [cbn; destruct b; reflexivity|]. cbn [skipn Nat.add]. apply IHa.
Qed.
Lemma chunks_digits {A} n x (fs : list (list Z * A)) :
  chunks (map fst fs) (digits n x (concat (map fst fs)) [])
  = match fs with [] => [] | (g, _) :: fs => val (digits n x g (concat (map fst fs))) ::
      chunks (map fst fs) (digits n x (concat (map fst fs)) []) end.
Proof.
  destruct fs as [|[g a] fs]; auto. cbn [map fst concat chunks]. rewrite digits_app, app_nil_r.
  assert (El := length_digits n x g (concat (map fst fs))). rewrite <- El.
  rewrite firstn_app, Nat.sub_diag, firstn_all, skipn_app, Nat.sub_diag, skipn_all. cbn [firstn skipn app]. rewrite app_nil_r. auto.
Qed.

Section MalformedProofs.
  Context {K : Type} {OK : OrdRing K}.
  Notation C := (Cx K).
  Add Ring KRingMal : (@rth (Cx K) _).

  Definition value (fs : list (list Z * list C)) (vs : list Z) : C :=
    prod (combine (map snd fs) vs) (fun '(a, v) => znth 0%r a v).
  Lemma value_digits n x fs : value fs (chunks (map fst fs) (digits n x (concat (map fst fs)) [])) = factors n fs x.
  Proof.
    unfold value. induction fs as [|[g a] fs IH]; auto. rewrite chunks_digits. cbn [map snd combine prod factors]. rewrite IH. auto.
  Qed.

  (** ** gen_edit_indices *)
  Lemma edit_bits_any n F bs (g : Z -> bool) : length bs = length F -> (forall q, In q F -> 0 <= q < n) ->
    mfold (fun bits '(j, bit) => do q <- pyget F j; do b <- pyget (map Z.b2z bs) j; pyset bits q b)
      (enumerate (map Z.b2z bs)) (map Z.b2z (map g (zrange 0 n)))
    = Ok (map Z.b2z (map (fun q => lastval F bs (g q) q) (zrange 0 n))).
  Proof.
    intros El HF. assert (Ez : zlen bs = zlen F) by (unfold zlen; f_equal; auto).
    rewrite (enumerate_map 0), mfold_map, zlen_map, Ez.
    match goal with |- mfold ?f _ ?s = _ => destruct (mfold_zrange_inv (fun j (L : list Z) =>
      L = map Z.b2z (map (fun q => lastval (firstn (Z.to_nat j) F) (firstn (Z.to_nat j) bs) (g q) q) (zrange 0 n))) f 0 (zlen F) s)
      as (L & E & HL) end.
    - apply zlen_nonneg.
    - reflexivity.
    - intros j L Hj ->. rewrite (pyget_ok 0 F) by auto. cbn [bind]. rewrite (pyget_ok 0) by (rewrite zlen_map; lia). cbn [bind].
      assert (Hq : 0 <= znth 0 F j < n) by (apply HF, znth_in; auto).
      rewrite pyset_ok by (rewrite !zlen_map, zlen_zrange; lia). eexists; split; [reflexivity|].
      rewrite (firstn_snoc 0 F), (firstn_snoc false bs) by lia.
      rewrite (znth_map Z.b2z false 0) by lia.
      apply list_eq_znth with (d := 0); [rewrite zlen_upd, !zlen_map; auto|].
      rewrite zlen_upd, !zlen_map, zlen_zrange by lia. intros i Hi. rewrite Z.sub_0_r in Hi.
      rewrite znth_upd by (rewrite !zlen_map, zlen_zrange; lia). rewrite !map_map, !znth_map_zrange by lia. rewrite Z.add_0_l.
      rewrite lastval_snoc by (rewrite !firstn_length; lia). rewrite (Z.eqb_sym i). destruct (_ =? i); auto.
    - etransitivity; [exact E|]. rewrite HL. unfold zlen. rewrite Nat2Z.id, firstn_all, <- El, firstn_all. reflexivity.
  Qed.
  Lemma upd_app {A} (a r : list A) z v : upd (a ++ z :: r) (length a) v = a ++ v :: r.
  Proof. induction a; cbn; auto. rewrite IHa. auto. Qed.
  Lemma edit_regs_any gs bs : length bs = length (concat gs) ->
    exists indx, mfold (fun '(qbit_state_indices, indx) '(j, index_group) =>
        let subflips := pyslice (map Z.b2z bs) indx (indx + zlen index_group) in
        do v <- bitarray_to_uint subflips;
        do qbit_state_indices <- pyset qbit_state_indices j v;
        Ok (qbit_state_indices, indx + zlen index_group))
      (enumerate gs) (map (fun _ => 0) (zrange 0 (zlen gs)), 0)
    = Ok (chunks gs bs, indx).
  Proof.
    intros El. pose proof (zlen_nonneg gs). rewrite (enumerate_map []), mfold_map.
    match goal with |- exists _, mfold ?f _ ?s = _ => destruct (mfold_zrange_inv (fun j (st : list Z * Z) =>
       st = (chunks (firstn (Z.to_nat j) gs) bs ++ repeat 0 (Z.to_nat (zlen gs - j)), zlen (concat (firstn (Z.to_nat j) gs)))) f 0 (zlen gs) s)
      as (st & E & ->) end.
    - auto.
    - cbn [Z.to_nat firstn chunks app concat]. f_equal. rewrite Z.sub_0_r. unfold zlen, zrange. rewrite map_map, Nat2Z.id, Z.sub_0_r, Nat2Z.id.
      generalize (length gs) as k, O as s. induction k as [|k IH]; intros s; cbn; auto. f_equal. apply IH.
    - intros j st Hj ->. cbv zeta.
      assert (ES : pyslice (map Z.b2z bs) (zlen (concat (firstn (Z.to_nat j) gs))) (zlen (concat (firstn (Z.to_nat j) gs)) + zlen (znth [] gs j))
         = map Z.b2z (firstn (length (znth [] gs j)) (skipn (length (concat (firstn (Z.to_nat j) gs))) bs))).
      { unfold pyslice. rewrite <- firstn_map, <- skipn_map. f_equal; [unfold zlen; lia|f_equal; unfold zlen; lia]. }
      rewrite ES, bitarray_to_uint_spec, map_b2z_truth. cbn [bind].
      assert (Er : repeat 0 (Z.to_nat (zlen gs - j)) = 0 :: repeat 0 (Z.to_nat (zlen gs - (j + 1)))).
      { replace (Z.to_nat (zlen gs - j)) with (S (Z.to_nat (zlen gs - (j + 1)))) by lia. reflexivity. }
      rewrite Er. assert (Lc : length (chunks (firstn (Z.to_nat j) gs) bs) = Z.to_nat j)
        by (rewrite length_chunks, firstn_length; unfold zlen in *; lia).
      rewrite pyset_ok by (unfold zlen at 1; rewrite app_length, Lc; cbn [length]; lia). cbn [bind].
      match goal with |- context [upd (?a ++ ?z :: ?r) _ ?v] => pose proof (upd_app a r z v) as U end.
      rewrite Lc in U. rewrite U. clear U. eexists; split; [reflexivity|].
      rewrite (firstn_snoc []) by auto. rewrite chunks_snoc, concat_app, zlen_app, <- app_assoc. cbn [concat app]. rewrite app_nil_r. reflexivity.
    - eexists. etransitivity; [exact E|]. rewrite Z.sub_diag. cbn [Z.to_nat repeat]. rewrite app_nil_r.
      unfold zlen at 1. rewrite Nat2Z.id, firstn_all. reflexivity.
  Qed.

  Definition place (n : Z) (F : list Z) (i : Z) : Z := mkstate n (fun q => lastval F (bits_of (zlen F) i) false q).
  Lemma gen_edit_any n gs : 0 <= n -> (forall q, In q (concat gs) -> 0 <= q < n) -> gs <> [] ->
    gen_edit_indices gs (n - 1) = Ok (map (fun i => (place n (concat gs) i, chunks gs (bits_of (zlen (concat gs)) i)))
                                          (zrange 0 (2 ^ zlen (concat gs)))).
  Proof.
    intros Hn HF Hne. set (F := concat gs) in *. pose proof (zlen_nonneg F). unfold gen_edit_indices. fold F.
    assert (Hl : (0 <? zlen gs) = true). { destruct gs; [congruence|]. rewrite zlen_cons. pose proof (zlen_nonneg gs). lia. }
    rewrite Hl. replace (n - 1 + 1) with n by lia.
    match goal with |- context [mfold ?f (zrange 0 (2 ^ zlen F)) ?s] =>
      destruct (mfold_zrange_inv (fun i (st : list Z * list (Z * list Z)) =>
         (exists g, fst st = map Z.b2z (map g (zrange 0 n)) /\ forall q, ~ In q F -> g q = false) /\
         snd st = map (fun i => (place n F i, chunks gs (bits_of (zlen F) i))) (zrange 0 i)) f 0 (2 ^ zlen F) s)
         as ([b acc] & E & _ & H2) end.
    - apply Z.pow_nonneg; lia.
    - cbn [fst snd]. split; [|reflexivity]. exists (fun _ => false). split; auto. rewrite map_map. reflexivity.
    - intros i [b acc] Hi [(g & Hb & Hg) Hacc]. cbn [fst snd] in *. subst b acc.
      assert (El : length (bits_of (zlen F) i) = length F).
      { pose proof (zlen_bits_of (zlen F) i H) as X. unfold zlen in X at 1 3. lia. }
      cbv zeta. rewrite uint_to_bitarray_spec by auto. rewrite edit_bits_any by auto. cbn [bind].
      destruct (edit_regs_any gs (bits_of (zlen F) i) El) as [indx ER]. cbn zeta in ER. rewrite ER. cbn [bind fst].
      rewrite bitarray_to_uint_spec, map_b2z_truth. cbn [bind]. eexists; split; [reflexivity|]. cbn [fst snd]. split.
      + eexists. split; [reflexivity|]. intros q Hq. cbv beta. rewrite lastval_out; auto.
      + rewrite (zrange_snoc 0 (i + 1)) by lia. replace (i + 1 - 1) with i by lia. rewrite map_app. cbn [map]. f_equal. f_equal. f_equal.
        unfold place, mkstate. f_equal. apply map_ext. intros q. destruct (in_dec Z.eq_dec q F) as [Hq|Hq].
        * apply lastval_in; auto.
        * rewrite !lastval_out by auto. auto.
    - rewrite E. cbn [bind snd] in *. rewrite H2. reflexivity.
  Qed.

  (** ** one edit *)
  Lemma edit_cell_any (fs : list (list Z * list C)) vs st p : length vs = length fs ->
    Forall2 (fun f v => 0 <= v < zlen (snd f)) fs vs -> 0 <= p < zlen st ->
    (do state <- pyset st p 1%r;
     mfold (fun state '(qindex, flip) =>
        do s <- pyget state p; do f <- pyget (fed_list fs) qindex; do a <- feed_get f flip;
        pyset state p (s * a)%r) (enumerate vs) state)
    = Ok (upd st (Z.to_nat p) (value fs vs)).
  Proof.
    intros El Hv Hp. rewrite pyset_ok by auto. cbn [bind]. rewrite (enumerate_map 0), mfold_map.
    pose proof (zlen_nonneg fs). assert (Ez : zlen vs = zlen fs) by (unfold zlen; f_equal; auto). rewrite Ez.
    set (f0 := ([], []) : list Z * list C).
    assert (Hj : forall j, 0 <= j < zlen fs -> 0 <= znth 0 vs j < zlen (snd (znth f0 fs j))).
    { clear - Hv. induction Hv as [|f v fs vs H Hv IH]; intros j Hj; [unfold zlen in Hj; cbn in Hj; lia|].
      rewrite zlen_cons in Hj. destruct (Z.eq_dec j 0) as [->|Hne]; [exact H|].
      assert (Hn : (Z.to_nat j = S (Z.to_nat (j - 1)))%nat) by lia. specialize (IH (j - 1) ltac:(lia)).
      unfold znth in *. destruct (Z.ltb_spec j 0); [lia|]. destruct (Z.ltb_spec (j - 1) 0); [lia|]. rewrite Hn. exact IH. }
    match goal with |- mfold ?ff (zrange 0 (zlen fs)) ?s = _ =>
      destruct (mfold_zrange_inv (fun j (S : list C) =>
        S = upd st (Z.to_nat p) (value (firstn (Z.to_nat j) fs) (firstn (Z.to_nat j) vs))) ff 0 (zlen fs) s)
        as (S & E & HS) end.
    - auto.
    - reflexivity.
    - intros j S Hjj ->. specialize (Hj j Hjj). rewrite (pyget_ok 0%r) by (rewrite zlen_upd; auto). cbn [bind].
      rewrite (pyget_ok (FArr [])) by (unfold fed_list; rewrite zlen_map; auto). cbn [bind]. unfold fed_list.
      rewrite (znth_map (fun f => FArr (snd f)) f0 (FArr [])) by auto. cbn [feed_get].
      rewrite (pyget_ok 0%r) by auto. cbn [bind].
      rewrite pyset_ok by (rewrite zlen_upd; auto). eexists; split; [reflexivity|].
      rewrite (firstn_snoc f0), (firstn_snoc 0) by lia. unfold value. rewrite map_app.
      assert (CA : forall (x : list C) (y : Z) a b, length a = length b -> combine (a ++ [x]) (b ++ [y]) = combine a b ++ [(x, y)]).
      { clear. intros x y a. induction a as [|u a IH]; intros [|w b] E; cbn in *; try discriminate; auto. rewrite IH; auto. }
      cbn [map]. rewrite CA by (rewrite map_length, !firstn_length; lia). rewrite prod_app. cbn [prod].
      rewrite znth_upd, Z.eqb_refl by auto.
      assert (UU : forall a b, upd (upd st (Z.to_nat p) a) (Z.to_nat p) b = upd st (Z.to_nat p) b).
      { intros u w. apply list_eq_znth with (d := 0%r); [rewrite !zlen_upd; auto|]. rewrite !zlen_upd.
        intros i Hi. rewrite !znth_upd by (rewrite ?zlen_upd; auto). destruct (i =? p); auto. }
      rewrite UU. f_equal. ring.
    - rewrite E, HS. rewrite !firstn_all2; auto; unfold zlen in *; lia.
  Qed.
  (** one of the lists is too short *)
  Lemma edit_cell_short (fs : list (list Z * list C)) vs st p : length vs = length fs -> (forall v, In v vs -> 0 <= v) ->
    0 <= p < zlen st -> Exists (fun fv => zlen (snd (fst fv)) <= snd fv) (combine fs vs) ->
    (do state <- pyset st p 1%r;
     mfold (fun state '(qindex, flip) =>
        do s <- pyget state p; do f <- pyget (fed_list fs) qindex; do a <- feed_get f flip;
        pyset state p (s * a)%r) (enumerate vs) state) = Raise IndexError.
  Proof.
    intros El H0 Hp H.
      rewrite pyset_ok by auto. cbn [bind]. rewrite (enumerate_map 0), mfold_map.
      assert (Ez : zlen vs = zlen fs) by (unfold zlen; f_equal; auto). rewrite Ez. set (f0 := ([], []) : list Z * list C).
      apply (mfold_raises (fun S => zlen S = zlen st)).
      + intros S j Hj HS. apply in_zrange in Hj. rewrite (pyget_ok 0%r) by lia. cbn [bind].
        rewrite (pyget_ok (FArr [])) by (unfold fed_list; rewrite zlen_map; auto). cbn [bind]. unfold fed_list.
        rewrite (znth_map (fun f => FArr (snd f)) f0 (FArr [])) by auto. cbn [feed_get].
        assert (0 <= znth 0 vs j) by (apply H0, znth_in; lia).
        destruct (Z_lt_dec (znth 0 vs j) (zlen (snd (znth f0 fs j)))).
        * left. rewrite (pyget_ok 0%r) by auto. cbn [bind]. rewrite pyset_ok by lia. eexists; split; [reflexivity|]. rewrite zlen_upd. auto.
        * right. rewrite pyget_past by lia. reflexivity.
      + assert (Hj : exists j, 0 <= j < zlen fs /\ zlen (snd (znth f0 fs j)) <= znth 0 vs j).
        { clear - H El. revert vs El H. induction fs as [|f fs IH]; intros [|v vs] El H; cbn in *; try discriminate; [inversion H|].
          inversion H as [x l Hx|x l Hx]; subst; cbn in *.
          - exists 0. rewrite zlen_cons. pose proof (zlen_nonneg fs). unfold znth. cbn. lia.
          - destruct (IH vs) as (j & Hj & Hl); auto. exists (j + 1). rewrite zlen_cons. split; [lia|].
            unfold znth in *. destruct (Z.ltb_spec j 0); [lia|]. destruct (Z.ltb_spec (j + 1) 0); [lia|].
            replace (Z.to_nat (j + 1)) with (S (Z.to_nat j)) by lia. exact Hl. }
        destruct Hj as (j & Hj & Hl). exists j. split; [apply in_zrange; auto|]. intros S HS.
        rewrite (pyget_ok 0%r) by lia. cbn [bind].
        rewrite (pyget_ok (FArr [])) by (unfold fed_list; rewrite zlen_map; auto). cbn [bind]. unfold fed_list.
        rewrite (znth_map (fun f => FArr (snd f)) f0 (FArr [])) by auto. cbn [feed_get]. rewrite pyget_past by lia. reflexivity.
      + rewrite zlen_upd. auto.
  Qed.
  Lemma edit_cell_cases (fs : list (list Z * list C)) vs st p : length vs = length fs -> (forall v, In v vs -> 0 <= v) ->
    0 <= p < zlen st ->
    let r := do state <- pyset st p 1%r;
     mfold (fun state '(qindex, flip) =>
        do s <- pyget state p; do f <- pyget (fed_list fs) qindex; do a <- feed_get f flip;
        pyset state p (s * a)%r) (enumerate vs) state in
    r = Ok (upd st (Z.to_nat p) (value fs vs)) \/ r = Raise IndexError.
  Proof.
    intros El H0 Hp.
    destruct (Forall_Exists_dec (fun fv : (list Z * list C) * Z => snd fv < zlen (snd (fst fv)))
      (fun fv => Z_lt_dec (snd fv) (zlen (snd (fst fv)))) (combine fs vs)) as [H|H].
    - left. apply edit_cell_any; auto. clear Hp st. revert vs El H0 H. induction fs as [|f fs IH]; intros [|v vs] El H0 H; cbn in *; try discriminate; constructor.
      + inversion H; subst. cbn in *. split; auto.
      + apply IH; auto. inversion H; auto.
    - right. apply edit_cell_short; auto. eapply Exists_impl; [|exact H]. cbn. intros; lia.
  Qed.

  (** ** make_state *)
  Lemma chunks_range gs : forall bs, length bs = length (concat gs) -> Forall2 (fun g v => 0 <= v < 2 ^ zlen g) gs (chunks gs bs).
  Proof.
    induction gs as [|g gs IH]; intros bs El; cbn [chunks concat] in *; constructor.
    - pose proof (val_range (firstn (length g) bs)) as R. rewrite app_length in El.
      replace (zlen (firstn (length g) bs)) with (zlen g) in R; auto. unfold zlen. rewrite firstn_length. f_equal. lia.
    - apply IH. rewrite app_length in El. rewrite skipn_length. lia.
  Qed.
  Lemma length_bits m i : length (bits_of (Z.of_nat m) i) = m.
  Proof. pose proof (zlen_bits_of (Z.of_nat m) i ltac:(lia)) as X. unfold zlen in X. lia. Qed.

  Lemma make_state_loose junk n (fs : list (list Z * list C)) : 0 <= n -> fs <> [] ->
    (forall q, In q (concat (map fst fs)) -> 0 <= q < n) -> ~ too_short fs ->
    make_state junk n (fed_groups fs) (fed_list fs) None None None None
    = Ok (mkBackend n (map (loose_amp n fs) (zrange 0 (2 ^ n))) (map junk (zrange 0 (2 ^ n)))).
  Proof.
    intros Hn Hne HF Hs. unfold make_state. cbn [default]. pose proof (Z.pow_pos_nonneg 2 n ltac:(lia) Hn) as Hp.
    destruct (Z.ltb_spec (2 ^ n - 0) 0); [lia|].
    destruct (Z.eqb_spec (zlen (fed_list fs)) 0) as [E|_].
    { exfalso. destruct fs; [congruence|]. unfold fed_list in E. rewrite zlen_map, zlen_cons in E.
      pose proof (zlen_nonneg fs). lia. }
    cbn [bind]. unfold fed_groups at 1. rewrite gen_edit_any by (auto; destruct fs; cbn; congruence). cbn [bind].
    set (F := concat (map fst fs)) in *. pose proof (zlen_nonneg F) as HFl. rewrite mfold_map, Z.sub_0_r.
    assert (Lb : forall i, length (bits_of (zlen F) i) = length F) by (intros; apply length_bits).
    set (top := fun x => val (digits n x F [])).
    assert (Ht : forall x, bits_of (zlen F) (top x) = digits n x F []).
    { intros x. unfold top. replace (zlen F) with (zlen (digits n x F [])); [apply bits_of_val|].
      unfold zlen. f_equal. apply length_digits. }
    assert (Htr : forall x, 0 <= top x < 2 ^ zlen F).
    { intros x. pose proof (val_range (digits n x F [])) as R. replace (zlen (digits n x F [])) with (zlen F) in R; auto.
      unfold zlen. f_equal. symmetry. apply length_digits. }
    set (cond := fun x => forallb (fun q => existsb (Z.eqb q) F || negb (qbit n x q)) (zrange 0 n)).
    assert (Hc : forall x, 0 <= x < 2 ^ n -> cond x = true -> place n F (top x) = x).
    { intros x Hx Hc. unfold cond in Hc. rewrite forallb_forall in Hc. unfold place. rewrite Ht.
      apply (qbit_ext n); auto; [apply mkstate_range; auto|]. intros q Hq. rewrite qbit_mkstate by auto.
      destruct (in_dec Z.eq_dec q F) as [Hi|Hi]; [apply lastval_digits; auto|]. rewrite lastval_out by auto.
      specialize (Hc q (proj2 (in_zrange _ _ _) Hq)). rewrite (proj2 (existsb_out q F)) in Hc by auto. cbn [orb] in Hc.
      destruct (qbit n x q); auto; discriminate. }
    assert (Hy : forall i, cond (place n F i) = true).
    { intros i. apply forallb_forall. intros q Hq. apply in_zrange in Hq. unfold place. rewrite qbit_mkstate by auto.
      destruct (existsb (Z.eqb q) F) eqn:E; auto. apply existsb_out in E. rewrite lastval_out by auto. reflexivity. }
    assert (Hm : forall i, 0 <= i < 2 ^ zlen F -> i <= top (place n F i)).
    { intros i Hi. rewrite <- (Z.mod_small i (2 ^ zlen F)) at 1 by auto. rewrite <- val_bits_of by auto. apply val_mono.
      apply (digits_max n (place n F i) F (bits_of (zlen F) i) false); auto. intros q Hq. unfold place. rewrite qbit_mkstate; auto. }
    match goal with |- context [mfold ?f (zrange 0 (2 ^ zlen F)) ?st] =>
      destruct (mfold_zrange_inv (fun i (S : list C) => zlen S = 2 ^ n /\ forall x, 0 <= x < 2 ^ n ->
         (cond x = true -> top x < i -> znth 0%r S x = factors n fs x) /\ (cond x = false -> znth 0%r S x = 0%r)) f 0 (2 ^ zlen F) st)
         as (S & E & HS1 & HS2) end.
    - apply Z.pow_nonneg; lia.
    - rewrite zlen_map, zlen_zrange by lia. split; [lia|]. intros x Hx.
      rewrite (znth_map_zrange 0%r (fun _ => 0%r)) by lia. split; auto. intros _ Hlt. pose proof (Htr x). lia.
    - intros i S Hi [HS1 HS2]. cbv beta.
      set (y := place n F i) in *.
      assert (Hyr : 0 <= y < 2 ^ n) by (apply mkstate_range; auto).
      destruct (Z.ltb_spec y 0); [lia|]. destruct (Z.leb_spec (2 ^ n) y); [lia|]. cbn [orb]. rewrite Z.sub_0_r.
      rewrite edit_cell_any; [|rewrite length_chunks, map_length; auto| |lia].
      + eexists; split; [reflexivity|]. rewrite zlen_upd. split; auto. intros x Hx. rewrite znth_upd by lia.
        destruct (HS2 x Hx) as [H2 H3]. destruct (Z.eqb_spec x y) as [->|Hxy].
        * split.
          -- intros _ Hlt. specialize (Hm i Hi). fold y in Hm. assert (Et : top y = i) by lia. rewrite <- Et, Ht. apply value_digits.
          -- intros Hcf. unfold y in Hcf. rewrite Hy in Hcf. discriminate.
        * split; auto. intros Hcx Hlt. apply H2; auto. assert (top x <> i); [|lia]. intros Et. apply Hxy. unfold y. rewrite <- Et.
          symmetry. apply Hc; auto.
      + assert (R := chunks_range (map fst fs) (bits_of (zlen F) i) (Lb i)). revert R.
        generalize (chunks (map fst fs) (bits_of (zlen F) i)). clear - Hs. induction fs as [|[g a] fs IH]; intros vs R; inversion R; subst; constructor.
        * cbn [fst snd] in *. assert (~ zlen a < 2 ^ zlen g); [|lia]. intros Hx. apply Hs. exists g, a. split; [left|]; auto.
        * apply IH; auto. intros (g' & a' & Hi & Hx). apply Hs. exists g', a'. split; [right|]; auto.
    - cbn zeta in E. rewrite E. cbn [bind].
      destruct (Z.ltb_spec (2 ^ n - 0) 0); [lia|]. f_equal. f_equal.
      apply list_eq_znth with (d := 0%r).
      + rewrite zlen_map, zlen_zrange; lia.
      + intros x Hx. rewrite znth_map_zrange by lia. rewrite Z.add_0_l. destruct (HS2 x ltac:(lia)) as [H2 H3].
        unfold loose_amp. fold F. change (forallb _ _) with (cond x). destruct (cond x) eqn:Ec; auto. apply H2; auto. apply Htr.
  Qed.
  Lemma make_state_short junk n (fs : list (list Z * list C)) : 0 <= n ->
    (forall q, In q (concat (map fst fs)) -> 0 <= q < n) -> too_short fs ->
    make_state junk n (fed_groups fs) (fed_list fs) None None None None = Raise IndexError.
  Proof.
    intros Hn HF Hs. assert (Hne : fs <> []) by (destruct Hs as (g & a & Hi & _); intros ->; destruct Hi).
    unfold make_state. cbn [default]. pose proof (Z.pow_pos_nonneg 2 n ltac:(lia) Hn) as Hp.
    destruct (Z.ltb_spec (2 ^ n - 0) 0); [lia|].
    destruct (Z.eqb_spec (zlen (fed_list fs)) 0) as [E|_].
    { exfalso. destruct fs; [congruence|]. unfold fed_list in E. rewrite zlen_map, zlen_cons in E.
      pose proof (zlen_nonneg fs). lia. }
    cbn [bind]. unfold fed_groups at 1. rewrite gen_edit_any by (auto; destruct fs; cbn; congruence). cbn [bind].
    set (F := concat (map fst fs)) in *. pose proof (zlen_nonneg F) as HFl. rewrite mfold_map, Z.sub_0_r.
    assert (Lb : forall i, length (bits_of (zlen F) i) = length F) by (intros; apply length_bits).
    pose proof (Z.pow_pos_nonneg 2 (zlen F) ltac:(lia) HFl) as HpF.
    rewrite (mfold_raises (fun S : list C => zlen S = 2 ^ n) IndexError); [reflexivity| | |].
    - intros S i Hi HS. apply in_zrange in Hi. cbv beta.
      assert (Hyr : 0 <= place n F i < 2 ^ n) by (apply mkstate_range; auto).
      destruct (Z.ltb_spec (place n F i) 0); [lia|]. destruct (Z.leb_spec (2 ^ n) (place n F i)); [lia|]. cbn [orb]. rewrite Z.sub_0_r.
      destruct (edit_cell_cases fs (chunks (map fst fs) (bits_of (zlen F) i)) S (place n F i)) as [-> | ->].
      + rewrite length_chunks, map_length. auto.
      + intros v Hv. assert (R := chunks_range (map fst fs) (bits_of (zlen F) i) (Lb i)). revert Hv R.
        generalize (chunks (map fst fs) (bits_of (zlen F) i)) as vs. clear. generalize (map fst fs) as gs. intros gs vs Hv R.
        induction R as [|g w gs vs Hw R IH]; [destruct Hv|]. destruct Hv as [->|Hv]; auto. lia.
      + lia.
      + left. eexists; split; [reflexivity|]. rewrite zlen_upd. auto.
      + right. reflexivity.
    - exists (2 ^ zlen F - 1). split; [apply in_zrange; lia|]. intros S HS. cbv beta. set (i := 2 ^ zlen F - 1).
      assert (Hyr : 0 <= place n F i < 2 ^ n) by (apply mkstate_range; auto).
      destruct (Z.ltb_spec (place n F i) 0); [lia|]. destruct (Z.leb_spec (2 ^ n) (place n F i)); [lia|]. cbn [orb]. rewrite Z.sub_0_r.
      assert (Eb : bits_of (zlen F) i = map (fun _ => true) F).
      { unfold i. apply list_eq_znth with (d := false).
        - rewrite zlen_bits_of, zlen_map; auto.
        - rewrite zlen_bits_of by auto. intros j Hj. rewrite znth_bits_of by auto. rewrite (znth_map _ 0 false) by auto.
          replace (2 ^ zlen F - 1) with (Z.ones (zlen F)) by (rewrite Z.ones_equiv; lia).
          apply Z.ones_spec_low. lia. }
      assert (Ev : chunks (map fst fs) (bits_of (zlen F) i) = map (fun f => 2 ^ zlen (fst f) - 1) fs).
      { rewrite Eb. unfold F. clear. induction fs as [|[g a] fs IH]; auto. cbn [map fst concat chunks]. rewrite map_app.
        assert (El : length g = length (map (fun _ : Z => true) g)) by (rewrite map_length; auto). rewrite El.
        rewrite firstn_app, skipn_app, Nat.sub_diag, firstn_all, skipn_all. cbn [firstn skipn]. rewrite app_nil_r. cbn [app]. rewrite IH. f_equal.
        clear El.
        induction g as [|q g IHg]; auto. cbn [map]. rewrite val_cons, IHg, zlen_cons, zlen_map. cbn [Z.b2z].
        pose proof (zlen_nonneg g). rewrite Z.pow_add_r by lia. lia. }
      rewrite Ev.
      apply edit_cell_short.
      + rewrite map_length; auto.
      + intros v Hv. apply in_map_iff in Hv. destruct Hv as (f & <- & _). pose proof (Z.pow_pos_nonneg 2 (zlen (fst f)) ltac:(lia) (zlen_nonneg _)). lia.
      + lia.
      + destruct Hs as (g & a & Hi & Hlt). apply Exists_exists. exists ((g, a), 2 ^ zlen g - 1). cbn [fst snd]. split; [|lia].
        clear - Hi. induction fs as [|f fs IH]; [destruct Hi|]. cbn [map combine]. destruct Hi as [->|Hi]; [left; auto|right; auto].
    - rewrite zlen_map, zlen_zrange; lia.
  Qed.
End MalformedProofs.
