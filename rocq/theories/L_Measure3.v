(** Collapse. *)
From Verif Require Import Base S_Bits M_Bits L_Bits M_Kron L_Kron M_Feed M_Measure S_Measure L_Measure1 L_Measure2.

Section Coll.
  Context {K : Type} {OK : OrdRing K}.
  Notation C := (Cx K).
  Add Ring KRingM3 : (@rth K _).
  Add Ring CRingM3 : (@rth (Cx K) _).

  Variables (n : Z) (indices : list Z).
  Hypotheses (Hn : 0 <= n) (HI : qubits_ok n indices).
  Notation mo := (measured_order n indices).
  Notation uo := (unmeasured_order n indices).
  Let k := zlen indices.

  (** the content of out after measure *)
  Definition measure_out (io oo : Z) (vec out : list C) (m : Z) (s : K) : list C :=
    map (fun i => let x := i + oo in
           if (io <=? x) && (x <? io + zlen vec) then collapsed n indices m s (amp_at io vec) x else znth 0%r out i)
        (zrange 0 (zlen out)).

  Lemma measure_loop mask io oo vec out m s :
    masked n indices mask -> slice_ok n io vec -> slice_ok n oo out -> 0 <= m < 2 ^ k ->
    mfold (fun out i =>
        if negb (Z.lxor (Z.land i mask) (entwine_bit k (n - k) m 0 mask) =? 0) then cset out (i - oo) 0%r
        else do x <- cget vec (i - io); cset out (i - oo) (x * creal s)%r)
      (zrange (Z.max io oo) (Z.min (io + zlen vec) (oo + zlen out))) out
    = Ok (measure_out io oo vec out m s).
  Proof.
    intros HM [Hio Hv] [Hoo Ho] Hm. pose proof (zlen_nonneg vec) as LV. pose proof (zlen_nonneg out) as LO.
    set (lo := Z.max io oo). set (hi := Z.min _ _).
    assert (G : forall h, lo <= h <= Z.max lo hi -> exists o,
      mfold (fun out i =>
        if negb (Z.lxor (Z.land i mask) (entwine_bit k (n - k) m 0 mask) =? 0) then cset out (i - oo) 0%r
        else do x <- cget vec (i - io); cset out (i - oo) (x * creal s)%r) (zrange lo h) out = Ok o /\
      zlen o = zlen out /\ forall i, 0 <= i < zlen out -> znth 0%r o i =
        if (io <=? i + oo) && (i + oo <? h) then collapsed n indices m s (amp_at io vec) (i + oo) else znth 0%r out i).
    { intros h Hh.
      destruct (mfold_zrange_inv (fun h (o : list C) => zlen o = zlen out /\ forall i, 0 <= i < zlen out -> znth 0%r o i =
        if (io <=? i + oo) && (i + oo <? h) then collapsed n indices m s (amp_at io vec) (i + oo) else znth 0%r out i)
        (fun out i =>
        if negb (Z.lxor (Z.land i mask) (entwine_bit k (n - k) m 0 mask) =? 0) then cset out (i - oo) 0%r
        else do x <- cget vec (i - io); cset out (i - oo) (x * creal s)%r) lo h out) as (o & E & HO); [lia| | |eauto].
      - split; auto. intros i Hi. destruct (Z.leb_spec io (i + oo)), (Z.ltb_spec (i + oo) lo); cbn [andb]; auto. lia.
      - intros x o Hx [HL HO].
        assert (HX : 0 <= x < 2 ^ n) by lia. unfold k. rewrite mask_test by auto.
        assert (Step : forall val, val = collapsed n indices m s (amp_at io vec) x ->
          exists s', cset o (x - oo) val = Ok s' /\ zlen s' = zlen out /\ (forall i, 0 <= i < zlen out ->
            znth 0%r s' i = if (io <=? i + oo) && (i + oo <? x + 1) then collapsed n indices m s (amp_at io vec) (i + oo)
            else znth 0%r out i)).
        { intros val Ev. rewrite cset_ok by lia. eexists; split; [reflexivity|]. rewrite zlen_upd. split; auto.
          intros i Hi. rewrite znth_upd by lia. destruct (Z.eqb_spec i (x - oo)) as [Ei|Ei].
          - assert (i + oo = x) as -> by lia. subst val.
            destruct (Z.leb_spec io x), (Z.ltb_spec x (x + 1)); cbn [andb]; auto; lia.
          - rewrite HO by auto. destruct (Z.ltb_spec (i + oo) x), (Z.ltb_spec (i + oo) (x + 1)); auto; lia. }
        destruct (reg n mo x =? m) eqn:Er; cbn [negb].
        + rewrite (cget_ok 0%r) by lia. cbn [bind]. apply Step. unfold collapsed. rewrite Er. reflexivity.
        + apply Step. unfold collapsed. rewrite Er. reflexivity. }
    destruct (Z.leb_spec lo hi).
    - destruct (G hi) as (o & E & HL & HO); [lia|]. rewrite E. f_equal.
      apply list_eq_znth with (d := 0%r).
      + unfold measure_out. rewrite zlen_map, zlen_zrange; lia.
      + intros i Hi. rewrite HO by lia. unfold measure_out. rewrite znth_map_zrange by lia. rewrite Z.add_0_l.
        cbv zeta. destruct (Z.leb_spec io (i + oo)), (Z.ltb_spec (i + oo) hi), (Z.ltb_spec (i + oo) (io + zlen vec));
          cbn [andb]; auto; lia.
    - rewrite (zrange_empty lo hi) by lia. cbn [mfold]. f_equal. apply list_eq_znth with (d := 0%r).
      + unfold measure_out. rewrite zlen_map, zlen_zrange; lia.
      + intros i Hi. unfold measure_out. rewrite znth_map_zrange by lia. rewrite Z.add_0_l.
        cbv zeta. destruct (Z.leb_spec io (i + oo)), (Z.ltb_spec (i + oo) (io + zlen vec)); cbn [andb]; auto. lia.
  Qed.

  Lemma measure_ok rsqrt u acc0 io oo vec out (meas : option Z) (mprob : option K) m p :
    slice_ok n io vec -> slice_ok n oo out ->
    bad_measured indices meas = false -> bad_prob mprob = false ->
    choose u acc0 indices n vec meas mprob io = Ok (m, p) -> 0 <= m < 2 ^ k -> p <> 0%r ->
    measure rsqrt u acc0 indices n vec out io oo meas mprob = Ok ((m, p), measure_out io oo vec out m (rsqrt p)).
  Proof.
    intros HV HO B1 B2 E Hm Hp. unfold measure. rewrite B1, B2, E. cbn [bind fst snd].
    unfold mult. rewrite (proj2 (reqb_neq p 0%r) Hp). cbn [bind].
    destruct (make_row_mask_ok n indices Hn HI) as (mask & Em & HM). rewrite Em. cbn [bind].
    fold k. rewrite measure_loop by auto. reflexivity.
  Qed.
  Lemma measure_zero rsqrt u acc0 io oo vec out (meas : option Z) (mprob : option K) m :
    bad_measured indices meas = false -> bad_prob mprob = false ->
    choose u acc0 indices n vec meas mprob io = Ok (m, 0%r) ->
    measure rsqrt u acc0 indices n vec out io oo meas mprob = Raise ZeroDivisionError /\
    reduce_measure rsqrt u acc0 indices n vec out io oo meas mprob = Raise ZeroDivisionError.
  Proof.
    intros B1 B2 E. unfold measure, reduce_measure. rewrite B1, B2, E. cbn [bind fst snd].
    unfold mult. rewrite (proj2 (reqb_eq 0%r 0%r) eq_refl). auto.
  Qed.

  (** ** reduce_measure on a full input *)
  Definition reduce_out (oo : Z) (vec : list C) (len : Z) (mask m : Z) (s : K) : list C :=
    map (fun i => (znth 0%r vec (entwine_bit k (n - k) m (i + oo) mask) * creal s)%r) (zrange 0 len).
  Lemma reduce_ok rsqrt u acc0 oo vec out (meas : option Z) (mprob : option K) m p mask :
    zlen vec = 2 ^ n -> 0 <= oo -> masked n indices mask -> make_row_mask indices n = Ok mask ->
    bad_measured indices meas = false -> bad_prob mprob = false ->
    choose u acc0 indices n vec meas mprob 0 = Ok (m, p) -> 0 <= m < 2 ^ k -> p <> 0%r ->
    reduce_measure rsqrt u acc0 indices n vec out 0 oo meas mprob
    = Ok ((m, p), reduce_out oo vec (zlen out) mask m (rsqrt p)).
  Proof.
    intros HV Hoo HM Em B1 B2 E Hm Hp. unfold reduce_measure. rewrite B1, B2, E. cbn [bind fst snd].
    unfold mult. rewrite (proj2 (reqb_neq p 0%r) Hp). cbn [bind]. rewrite Em. cbn [bind]. fold k.
    pose proof (zlen_nonneg out) as LO. pose proof (zlen_nonneg indices) as LI. fold k in LI.
    match goal with |- context [mfold ?ff (zrange oo (zlen out + oo)) out] =>
      destruct (mfold_zrange_inv (fun h (o : list C) => zlen o = zlen out /\ forall i, 0 <= i < h - oo ->
        znth 0%r o i = (znth 0%r vec (entwine_bit k (n - k) m (i + oo) mask) * creal (rsqrt p))%r) ff oo (zlen out + oo) out)
        as (o & Eo & HL & HO) end.
    - lia.
    - split; auto. intros; lia.
    - intros x o Hx [HL HO]. pose proof (ent_range n indices mask Hn HI HM m x) as R. fold k in R.
      destruct (Z.ltb_spec (entwine_bit k (n - k) m x mask) 0); [lia|].
      destruct (Z.ltb_spec (k + entwine_bit k (n - k) m x mask) (entwine_bit k (n - k) m x mask)); [lia|].
      cbn [orb]. rewrite (cget_ok 0%r) by lia. cbn [bind]. rewrite cset_ok by lia.
      eexists; split; [reflexivity|]. rewrite zlen_upd. split; auto. intros i Hi. rewrite znth_upd by lia.
      rewrite Z.sub_0_r. destruct (Z.eqb_spec i (x - oo)) as [Ei|Ei].
      + replace (i + oo) with x by lia. reflexivity.
      + apply HO. lia.
    - rewrite Eo. cbn [bind]. f_equal. f_equal. apply list_eq_znth with (d := 0%r).
      + unfold reduce_out. rewrite zlen_map, zlen_zrange; lia.
      + intros i Hi. rewrite HO by lia. unfold reduce_out. rewrite znth_map_zrange by lia. rewrite Z.add_0_l. reflexivity.
  Qed.

  (** total probability of the collapsed state *)
  Lemma cnorm2_scale (x : C) s : cnorm2 (x * creal s)%r = (s * s * cnorm2 x)%r.
  Proof. rewrite cnorm2_mul, cnorm2_creal. ring. Qed.
  Lemma collapsed_marginal m s (f : Z -> C) v :
    marginal n mo (collapsed n indices m s f) v = if (v =? m) then (s * s * marginal n mo f m)%r else 0%r.
  Proof.
    unfold marginal. destruct (Z.eqb_spec v m) as [->|Hne].
    - rewrite <- sum_mul_l. apply sum_ext. intros x _. unfold collapsed. destruct (reg n mo x =? m).
      + apply cnorm2_scale.
      + ring.
    - apply sum_zero. intros x _. destruct (Z.eqb_spec (reg n mo x) v) as [E|]; auto. unfold collapsed.
      destruct (Z.eqb_spec (reg n mo x) m); [congruence|]. apply cnorm2_0.
  Qed.
  Lemma marginal_ext g (f f' : Z -> C) v : (forall x, 0 <= x < 2 ^ n -> f x = f' x) -> marginal n g f v = marginal n g f' v.
  Proof. intros H. apply sum_ext. intros x Hx. apply in_zrange in Hx. rewrite H; auto. Qed.
  Lemma amp_at_map (f : Z -> C) x : 0 <= x < 2 ^ n -> amp_at 0 (map f (zrange 0 (2 ^ n))) x = f x.
  Proof. intros. unfold amp_at. rewrite znth_map_zrange by lia. f_equal. lia. Qed.
  Lemma zlen_map_range {A} (f : Z -> A) N : 0 <= N -> zlen (map f (zrange 0 N)) = N.
  Proof. intros. rewrite zlen_map, zlen_zrange; lia. Qed.

  Lemma measure_out_full vec out m s : zlen vec = 2 ^ n -> zlen out = 2 ^ n ->
    measure_out 0 0 vec out m s = map (collapsed n indices m s (amp_at 0 vec)) (zrange 0 (2 ^ n)).
  Proof.
    intros HV HO. unfold measure_out. rewrite HO. apply map_zrange_ext. intros x Hx. cbv zeta. rewrite Z.add_0_r, HV.
    destruct (Z.leb_spec 0 x), (Z.ltb_spec x (0 + 2 ^ n)); cbn [andb]; auto; lia.
  Qed.
End Coll.
