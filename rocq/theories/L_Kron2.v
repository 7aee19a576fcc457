(** The Cython loop and kronselect_dot as a whole. *)
From Coq Require Import ZifyBool.
From Verif Require Import Base S_Bits M_Bits L_Bits M_Kron S_Kron L_Kron.

(** writing a computed value at every index of a list of indices, in any order *)
Lemma mfold_writes {A} (d : A) (body : list A -> Z -> res (list A)) (f : Z -> A) len sched out :
  zlen out = len ->
  (forall L r, zlen L = len -> In r sched -> body L r = Ok (upd L (Z.to_nat r) (f r))) ->
  (forall r, In r sched -> 0 <= r < len) ->
  exists L, mfold body sched out = Ok L /\ zlen L = len /\
    forall r, 0 <= r < len -> znth d L r = if in_dec Z.eq_dec r sched then f r else znth d out r.
Proof.
  revert out. induction sched as [|x sched IH]; intros out Hout Hb Hr.
  - exists out. repeat split; auto.
  - cbn [mfold]. rewrite Hb by (auto; left; auto). cbn [bind].
    assert (Hx : 0 <= x < len) by (apply Hr; left; auto).
    destruct (IH (upd out (Z.to_nat x) (f x))) as (L & E & HL & HLr).
    + rewrite zlen_upd; auto.
    + intros; apply Hb; auto. right; auto.
    + intros; apply Hr; right; auto.
    + exists L. split; auto. split; auto. intros r Hr'. rewrite HLr by auto.
      destruct (in_dec Z.eq_dec r sched) as [Hi|Hi], (in_dec Z.eq_dec r (x :: sched)) as [Hj|Hj]; auto.
      * exfalso. apply Hj. right; auto.
      * rewrite znth_upd by lia. destruct Hj as [->|Hj]; [|tauto]. rewrite Z.eqb_refl. auto.
      * rewrite znth_upd by lia. destruct (Z.eqb_spec r x); auto. subst. exfalso. apply Hj. left; auto.
Qed.
Lemma mfold_writes_all {A} (d : A) (body : list A -> Z -> res (list A)) (f : Z -> A) sched out :
  (forall L r, zlen L = zlen out -> 0 <= r < zlen out -> body L r = Ok (upd L (Z.to_nat r) (f r))) ->
  Permutation sched (zrange 0 (zlen out)) ->
  mfold body sched out = Ok (map f (zrange 0 (zlen out))).
Proof.
  intros Hb HP.
  assert (HI : forall r, In r sched <-> 0 <= r < zlen out).
  { intros. rewrite <- in_zrange. split; apply Permutation_in; auto. apply Permutation_sym; auto. }
  destruct (mfold_writes d body f (zlen out) sched out) as (L & E & HL & Hr); auto.
  - intros. apply Hb; auto. apply HI; auto.
  - intros r H. apply HI; auto.
  - rewrite E. f_equal. apply list_eq_znth with (d:=d).
    + rewrite HL, zlen_map, zlen_zrange; [lia|apply zlen_nonneg].
    + rewrite HL. intros r H. rewrite Hr by auto. rewrite znth_map_zrange by lia.
      destruct (in_dec Z.eq_dec r sched) as [_|N]; [auto|]. exfalso. apply N, HI; auto.
Qed.

Section LK2.
  Context {K : Type} {OK : OrdRing K}.
  Notation C := (Cx K).
  Add Ring CRingLK2 : (@rth C _).

  (** ** one sub-matrix index *)
  Lemma c_submat_ok n row col g :
    (forall q, In q g -> 0 <= q < n) -> c_submat n row col g = Ok (reg n g row, reg n g col).
  Proof.
    intros Hg. unfold c_submat. pose proof (zlen_nonneg g) as HL. set (len := zlen g) in *.
    pose (P := fun t (w : Z) x => 0 <= x < 2 ^ len /\
           forall b, 0 <= b -> Z.testbit x b = (len - t <=? b) && Z.testbit (reg n g w) b).
    destruct (mfold_zrange_inv (fun t st => P t row (fst st) /\ P t col (snd st))
      (fun '(submati, submatj) matindexindex =>
      do matindex <- cget g matindexindex;
      do bi <- cget_bit row ((n - 1) - matindex);
      do submati <- cset_bit submati ((len - 1) - matindexindex) bi;
      do bj <- cget_bit col ((n - 1) - matindex);
      do submatj <- cset_bit submatj ((len - 1) - matindexindex) bj;
      Ok (submati, submatj)) 0 len (0, 0)) as ([x y] & E & Hx & Hy); auto.
    - assert (HP0 : forall w, P 0 w 0).
      { intros w. split; [lia|]. intros b Hb. rewrite Z.testbit_0_l.
        destruct (Z.leb_spec (len - 0) b); auto. cbn [andb]. symmetry.
        apply (testbit_high _ len); auto; [apply reg_range|lia]. }
      split; apply HP0.
    - intros t [x y] Ht [Hx Hy]. cbn [fst snd] in *.
      rewrite (cget_ok 0) by auto. cbn [bind].
      assert (Hq : 0 <= znth 0 g t < n) by (apply Hg, znth_in; auto).
      unfold cget_bit, cset_bit.
      destruct (Z.ltb_spec (n - 1 - znth 0 g t) 0); [lia|].
      destruct (Z.ltb_spec (len - 1 - t) 0); [lia|]. cbn [bind].
      eexists; split; [reflexivity|]. cbn [fst snd].
      rewrite !get_bit_spec by lia.
      assert (HPS : forall w x, P t w x ->
         P (t + 1) w (set_bit x (len - 1 - t) (Z.b2z (Z.testbit w (n - 1 - znth 0 g t))))).
      { intros w z [Hz1 Hz2]. split; [apply set_bit_range; auto; lia|].
        intros b Hb. rewrite set_bit_spec by lia. rewrite b2z_truth.
        destruct (Z.eqb_spec b (len - 1 - t)) as [->|Hne].
        - destruct (Z.leb_spec (len - (t + 1)) (len - 1 - t)); [|lia]. cbn [andb].
          unfold len. rewrite reg_testbit by auto. reflexivity.
        - rewrite Hz2 by auto.
          destruct (Z.leb_spec (len - t) b), (Z.leb_spec (len - (t + 1)) b); auto; lia. }
      split; apply HPS; auto.
    - rewrite E. cbn [fst snd] in *.
      assert (HF : forall w x, P len w x -> x = reg n g w).
      { intros w z [Hz1 Hz2]. apply (bits_ext_below len); auto; [apply reg_range|].
        intros i Hi. rewrite Hz2 by lia. destruct (Z.leb_spec (len - len) i); auto; lia. }
      rewrite (HF _ _ Hx), (HF _ _ Hy). reflexivity.
  Qed.

  (** groups with their structs *)
  Definition structs_of (gs : list (list Z * mat K)) (ss : list (mstruct K)) : Prop :=
    mmap build_struct (map snd gs) = Ok ss.

  Lemma c_prod_ok n row col gs ss p :
    groups_ok n gs -> structs_of gs ss ->
    c_prod n row col (combine (map fst gs) ss) p = Ok (p * prod gs (group_entry n row col))%r.
  Proof.
    revert ss p. induction gs as [|[g m] gs IH]; intros ss p Hgs Hss.
    - cbn in Hss. inversion Hss; subst. cbn. f_equal. ring.
    - unfold structs_of in Hss. cbn [map snd mmap] in Hss.
      destruct (Hgs g m (or_introl eq_refl)) as [Hq Hm].
      destruct (build_struct_ok m (zlen g) Hm) as (s & Es & Hs). rewrite Es in Hss. cbn [bind] in Hss.
      destruct (mmap build_struct (map snd gs)) as [ss'|] eqn:Ess; [|discriminate].
      cbn [bind] in Hss. inversion Hss; subst ss.
      cbn [map fst combine c_prod]. rewrite c_submat_ok by auto. cbn [bind fst snd].
      rewrite Hs by apply reg_range. cbn [bind].
      assert (Hgs' : groups_ok n gs) by (intros g' m' Hin; apply Hgs; right; auto).
      cbn [prod]. unfold group_entry at 1. cbn [fst snd].
      destruct (cx_is0 _) eqn:E0.
      + apply cx_is0_spec in E0. rewrite E0. f_equal.
        replace (p * (mentry (zlen g) m (reg n g row) (reg n g col) * prod gs (group_entry n row col)))%r
          with ((p * mentry (zlen g) m (reg n g row) (reg n g col)) * prod gs (group_entry n row col))%r by ring.
        rewrite E0. ring.
      + rewrite IH; auto. f_equal. ring.
  Qed.

  Lemma c_set_columns n F row x i :
    0 <= n -> qubits_ok n F -> 0 <= row < 2 ^ n -> 0 <= x < 2 ^ n -> agree_off n F row x = true ->
    mfold (fun colbits j =>
              do indx <- cget F j;
              do b <- cget_bit i ((zlen F - 1) - j);
              cset_bit colbits ((n - 1) - indx) b) (zrange 0 (zlen F)) x
    = Ok (setreg n F row i).
  Proof.
    intros Hn HF Hrow Hx Ha. pose proof (zlen_nonneg F) as HL.
    destruct (mfold_zrange_inv
      (fun j y => 0 <= y < 2 ^ n /\ forall q, 0 <= q < n -> qbit n y q =
         match idx q F with
         | Some k => if (k <? j) then Z.testbit i (zlen F - 1 - k) else qbit n x q
         | None => qbit n x q end)
      (fun colbits j => do indx <- cget F j;
              do b <- cget_bit i ((zlen F - 1) - j);
              cset_bit colbits ((n - 1) - indx) b)
      0 (zlen F) x) as (y & E & Hy & Hyq); auto.
    - split; auto. intros q Hq. destruct (idx q F) as [k|] eqn:Ek; auto. apply idx_some in Ek as [Hk _].
      destruct (Z.ltb_spec k 0); auto; lia.
    - intros j y Hj [Hy Hyq]. rewrite (cget_ok 0) by auto. cbn [bind].
      assert (Hq : 0 <= znth 0 F j < n) by (apply HF, znth_in; auto).
      unfold cget_bit, cset_bit.
      destruct (Z.ltb_spec (zlen F - 1 - j) 0); [lia|]. cbn [bind].
      destruct (Z.ltb_spec (n - 1 - znth 0 F j) 0); [lia|].
      eexists; split; [reflexivity|]. rewrite get_bit_spec by lia. split.
      + apply set_bit_range; auto. lia.
      + intros q Hq'. unfold qbit at 1. rewrite set_bit_spec by lia. rewrite b2z_truth.
        destruct (Z.eqb_spec (n - 1 - q) (n - 1 - znth 0 F j)) as [Eq|Hne].
        * assert (q = znth 0 F j) by lia. subst q.
          rewrite idx_znth by (auto; apply HF). destruct (Z.ltb_spec j (j+1)); [|lia]. reflexivity.
        * change (Z.testbit y (n - 1 - q)) with (qbit n y q). rewrite Hyq by auto.
          destruct (idx q F) as [k|] eqn:Ek; auto.
          assert (k <> j). { intros ->. apply idx_some in Ek as [_ Ek]. congruence. }
          destruct (Z.ltb_spec k j), (Z.ltb_spec k (j+1)); auto; lia.
    - rewrite E. f_equal. apply (qbit_ext n); auto using setreg_range.
      intros q Hq. rewrite Hyq by auto. unfold setreg. rewrite qbit_mkstate by auto.
      destruct (idx q F) as [k|] eqn:Ek.
      + apply idx_some in Ek as [Hk _]. destruct (Z.ltb_spec k (zlen F)); auto; lia.
      + symmetry. apply (proj1 (agree_off_spec n F row x) Ha); auto. apply idx_none; auto.
  Qed.

  Lemma c_row_ok n (gs : list (list Z * mat K)) ss vec ioff row :
    0 <= n -> 0 <= row < 2 ^ n -> groups_ok n gs -> structs_of gs ss ->
    c_row n (combine (map fst gs) ss) (flat_of gs) vec ioff row
    = Ok (kron_apply n gs (slice_at ioff vec) row).
  Proof.
    intros Hn Hrow Hgs Hss. pose proof (flat_ok n gs Hgs) as HF. set (F := flat_of gs) in *.
    unfold c_row. set (body := fun '(s, colbits) i => _).
    destruct (mfold_zrange_inv
      (fun t st => 0 <= snd st < 2 ^ n /\ agree_off n F row (snd st) = true /\
         fst st = sum (zrange 0 t) (fun i => (prod gs (group_entry n row (setreg n F row i)) *
                                               slice_at ioff vec (setreg n F row i))%r))
      body 0 (2 ^ zlen F) (0%r, row)) as ([s x] & E & _ & _ & Hs).
    - lia.
    - cbn [fst snd]. repeat split; try lia. apply agree_off_spec; auto.
    - intros i [s x] Hi (Hx & Ha & Hs). cbn [fst snd] in *. unfold body.
      rewrite (c_set_columns n F row) by auto. cbn [bind].
      set (c := setreg n F row i).
      assert (Hsum : forall v, v = (prod gs (group_entry n row c) * slice_at ioff vec c)%r ->
        (s + v)%r = sum (zrange 0 (i + 1)) (fun i => (prod gs (group_entry n row (setreg n F row i)) *
                                               slice_at ioff vec (setreg n F row i))%r)).
      { intros v ->. rewrite (zrange_snoc 0 (i + 1)), sum_app by lia. replace (i + 1 - 1) with i by lia.
        cbn [sum]. fold c. rewrite Hs. ring. }
      assert (Hc : 0 <= c < 2 ^ n) by (apply setreg_range; auto).
      assert (Hca : agree_off n F row c = true) by apply setreg_agree.
      destruct (Z.ltb_spec (c - ioff) 0) as [H1|H1]; [|destruct (Z.leb_spec (zlen vec) (c - ioff)) as [H2|H2]]; cbn [orb].
      + eexists; split; [reflexivity|]. cbn [fst snd]. split; auto. split; auto.
        rewrite <- (Hsum 0%r); [ring|]. unfold slice_at. rewrite znth_out by lia. ring.
      + eexists; split; [reflexivity|]. cbn [fst snd]. split; auto. split; auto.
        rewrite <- (Hsum 0%r); [ring|]. unfold slice_at. rewrite znth_out by lia. ring.
      + rewrite c_prod_ok by auto. cbn [bind]. rewrite (cget_ok 0%r) by lia. cbn [bind].
        eexists; split; [reflexivity|]. cbn [fst snd]. split; auto. split; auto.
        apply Hsum. unfold slice_at. ring.
    - rewrite E. cbn [bind]. f_equal. rewrite Hs.
      unfold kron_apply. rewrite (sum_columns n F row); auto.
      + apply sum_ext. intros i _. unfold kron_entry.
        rewrite (agree_off_ext n _ F) by (intros; unfold F, flat_of; symmetry; apply in_sorted_set).
        rewrite setreg_agree. reflexivity.
      + intros c Hc Ha. unfold kron_entry.
        rewrite (agree_off_ext n _ F) by (intros; unfold F, flat_of; symmetry; apply in_sorted_set).
        rewrite Ha. ring.
  Qed.

  Lemma structs_ex n (gs : list (list Z * mat K)) : groups_ok n gs -> exists ss, structs_of gs ss.
  Proof.
    induction gs as [|[g m] gs IH]; intros H.
    - exists []. reflexivity.
    - destruct IH as [ss Hss]; [intros g' m' Hin; apply H; right; auto|].
      destruct (H g m (or_introl eq_refl)) as [_ Hm].
      destruct (build_struct_ok m _ Hm) as (s & Es & _). exists (s :: ss).
      unfold structs_of in *. cbn [map snd mmap]. rewrite Es. cbn [bind]. rewrite Hss. reflexivity.
  Qed.

  Lemma cdot_loop_ok sched (gs : mats_t K) vec n out ioff ooff :
    0 <= n -> 0 <= ooff -> zlen out + ooff <= 2 ^ n ->
    groups_ok n gs -> Permutation sched (zrange 0 (zlen out)) ->
    rectangular (map fst gs) = true ->
    cdot_loop sched (map fst gs) (map snd gs) vec n out ioff ooff
    = Ok (map (fun r => kron_apply n gs (slice_at ioff vec) (r + ooff)) (zrange 0 (zlen out))).
  Proof.
    intros Hn Hoo Hlo Hgs HP Hrect. unfold cdot_loop.
    destruct (structs_ex n gs Hgs) as [ss Hss].
    unfold rectangular in Hrect.
    destruct (map fst gs) as [|g0 gs'] eqn:Eg; [discriminate|].
    rewrite Hrect. cbn [negb]. rewrite <- Eg in *. clear Hrect Eg g0 gs'.
    unfold structs_of in Hss. rewrite Hss. cbn [bind]. fold (flat_of gs).
    apply (mfold_writes_all 0%r); auto.
    intros L r HL Hr. rewrite c_row_ok; auto; [|lia]. cbn [bind]. apply cset_ok. lia.
  Qed.
  Lemma cdot_loop_ragged sched (gs : mats_t K) vec n out ioff ooff :
    rectangular (map fst gs) = false ->
    cdot_loop sched (map fst gs) (map snd gs) vec n out ioff ooff = Raise ValueError.
  Proof.
    unfold cdot_loop, rectangular. destruct gs as [|[g0 m0] gs]; auto. cbn [map fst].
    intros ->. reflexivity.
  Qed.

  (** ** normalisation of the dictionary *)
  Lemma dict_set_new (d : mats_t K) g m : ~ In g (map fst d) -> dict_set d g m = d ++ [(g, m)].
  Proof.
    induction d as [|[g' m'] d IH]; cbn; auto. intros H.
    destruct (zlist_eqb g' g) eqn:E; [apply zlist_eqb_eq in E; tauto|]. rewrite IH; auto.
  Qed.
  Lemma norm_mats_ok (mats : mats_arg K) :
    keys_ok mats -> (forall km, In km mats -> shape_ok km) -> norm_mats mats = Ok (mats_groups mats).
  Proof.
    intros [HK ND] HS. unfold norm_mats.
    assert (G : forall (l : mats_arg K) (acc : mats_t K), NoDup (map fst acc ++ map (fun km => key_group (fst km)) l) ->
      (forall km, In km l -> shape_ok km) -> (forall k m, In (k, m) l -> k <> KOther) ->
      mfold (fun newmats '(indices, m) =>
      match indices with
      | KOther => Raise GenericException
      | KTuple l =>
          let (r, c) := mat_shape m in
          if negb (2 ^ zlen l =? r) || negb (2 ^ zlen l =? c) then Raise GenericException
          else Ok (dict_set newmats l m)
      | KInt i =>
          let (r, c) := mat_shape m in
          if negb (2 ^ 1 =? r) || negb (2 ^ 1 =? c) then Raise GenericException
          else Ok (dict_set newmats [i] m)
      end) l acc = Ok (acc ++ mats_groups l)).
    { clear. induction l as [|[k m] l IH]; intros acc ND HS HK.
      - cbn. rewrite app_nil_r. auto.
      - cbn [mfold]. pose proof (HS (k, m) (or_introl eq_refl)) as Hs. unfold shape_ok in Hs. cbn [fst snd] in Hs.
        assert (Hnew : ~ In (key_group k) (map fst acc)).
        { cbn [map fst] in ND. intros Hin. apply NoDup_remove_2 in ND. apply ND. apply in_or_app. auto. }
        assert (Hnext : mfold (fun newmats '(indices, m) =>
            match indices with
            | KOther => Raise GenericException
            | KTuple l =>
                let (r, c) := mat_shape m in
                if negb (2 ^ zlen l =? r) || negb (2 ^ zlen l =? c) then Raise GenericException
                else Ok (dict_set newmats l m)
            | KInt i =>
                let (r, c) := mat_shape m in
                if negb (2 ^ 1 =? r) || negb (2 ^ 1 =? c) then Raise GenericException
                else Ok (dict_set newmats [i] m)
            end) l (acc ++ [(key_group k, m)]) = Ok (acc ++ mats_groups ((k, m) :: l))).
        { rewrite IH.
          - rewrite <- app_assoc. reflexivity.
          - rewrite map_app. cbn [map fst]. rewrite <- app_assoc. exact ND.
          - intros; apply HS; right; auto.
          - intros k' m' Hin; apply (HK k' m'); right; auto. }
        destruct k as [i|g|]; cbn [key_group] in *.
        + rewrite Hs. change (zlen [i]) with 1. rewrite !Z.eqb_refl. cbn [negb orb bind].
          rewrite dict_set_new by auto. exact Hnext.
        + rewrite Hs. rewrite !Z.eqb_refl. cbn [negb orb bind].
          rewrite dict_set_new by auto. exact Hnext.
        + exfalso. apply (HK KOther m (or_introl eq_refl)). reflexivity. }
    rewrite G; auto.
  Qed.
  Lemma keys_nodup (mats : mats_arg K) : keys_ok mats -> NoDup (map fst (mats_groups mats)).
  Proof.
    intros [_ ND]. unfold mats_groups. rewrite map_map.
    erewrite map_ext; [exact ND|]. intros [k m]; reflexivity.
  Qed.
  Lemma groups_shape n (mats : mats_arg K) :
    groups_ok n (mats_groups mats) -> forall km, In km mats -> shape_ok km.
  Proof.
    intros H [k m] Hin. unfold shape_ok. cbn [fst snd].
    apply mat_ok_shape. apply (H (key_group k) m). unfold mats_groups. apply in_map_iff.
    exists (k, m). auto.
  Qed.

  Lemma kronselect_dot_ok mats vec n out ioff ooff i :
    0 <= n -> 0 <= ioff -> 0 <= ooff -> zlen vec + ioff <= 2 ^ n -> zlen out + ooff <= 2 ^ n ->
    keys_ok mats -> groups_ok n (mats_groups mats) ->
    impl_ok i (map fst (mats_groups mats)) (zlen out) ->
    kronselect_dot mats vec n out ioff ooff i
    = Ok (map (fun r => kron_apply n (mats_groups mats) (slice_at ioff vec) (r + ooff)) (zrange 0 (zlen out))).
  Proof.
    intros Hn Hi Ho Hv Hl HK HG HI. unfold kronselect_dot.
    destruct (Z.ltb_spec (2 ^ n) (zlen vec + ioff)); [lia|].
    destruct (Z.ltb_spec (2 ^ n) (zlen out + ooff)); [lia|].
    rewrite norm_mats_ok by (auto; eapply groups_shape; eauto). cbn [bind].
    destruct i as [|sched]; cbn in HI.
    - apply dot_loop_ok; auto. apply keys_nodup; auto.
    - destruct HI. apply cdot_loop_ok; auto.
  Qed.
End LK2.
