(** Rounding errors: all rows of a matrix product; the exact result is a possible one. *)
From Coq Require Import Reals Lra.
From Verif Require Import Base BaseR S_Bits M_Bits L_Bits M_Kron S_Kron L_Kron L_Kron2 L_Kron3 M_Ops S_Ops L_Ops1 M_Float S_Float L_Float1 L_Float2.
Local Open Scope Z_scope.

Section Ring.
  Context {A : Type} {CA : CRing A}.
  Add Ring ARing3 : (@rth A _).
  Lemma c_mul0 (x : A) : (0 * x = 0)%r.
  Proof. ring. Qed.
  Lemma r_add0 (x : A) : (x + 0 = x)%r.
  Proof. ring. Qed.
End Ring.
Lemma length_zrange a b : length (zrange a b) = Z.to_nat (b - a).
Proof.
  destruct (Z_le_gt_dec a b).
  - apply Nat2Z.inj. change (zlen (zrange a b) = Z.of_nat (Z.to_nat (b - a))). rewrite zlen_zrange; lia.
  - replace (Z.to_nat (b - a)) with 0%nat by lia. destruct (zrange a b) as [|x l] eqn:E; auto.
    assert (In x (zrange a b)) by (rewrite E; left; auto). apply in_zrange in H. lia.
Qed.
Lemma prod_map {A} {CA : CRing A} {I J} (h : I -> J) l (f : J -> A) : prod (map h l) f = prod l (fun i => f (h i)).
Proof. induction l; cbn; congruence. Qed.
Lemma prod_ext_in {A} {CA : CRing A} {I} (l : list I) (f g : I -> A) : (forall i, In i l -> f i = g i) -> prod l f = prod l g.
Proof. induction l; cbn; intros H; auto. rewrite (H a), IHl by auto. auto. Qed.

(** the pair of [gs] with the group [g] *)
Definition ref_of (gs : list (list Z * mat R)) (g : list Z) : list Z * mat R :=
  match find (fun gm => if list_eq_dec Z.eq_dec (fst gm) g then true else false) gs with Some gm => gm | None => (g, MSwap 0) end.
Lemma ref_of_in gs gm : NoDup (map fst gs) -> In gm gs -> ref_of gs (fst gm) = gm.
Proof.
  intros ND Hin. unfold ref_of. destruct (find _ gs) as [x|] eqn:E.
  - apply find_some in E as [Hx E]. destruct (list_eq_dec Z.eq_dec (fst x) (fst gm)) as [Ef|]; [|discriminate].
    clear E. induction gs as [|a gs IH]; [destruct Hin|]. cbn [map] in ND. inversion ND as [|? ? Ha ND']; subst.
    destruct Hin as [<-|Hin], Hx as [<-|Hx]; auto.
    + exfalso. apply Ha. apply in_map_iff. eauto.
    + exfalso. apply Ha. apply in_map_iff. exists gm. auto.
  - eapply find_none in E; eauto. cbn in E. destruct (list_eq_dec Z.eq_dec (fst gm) (fst gm)); [discriminate|contradiction].
Qed.
Lemma prod_ref {A} {CA : CRing A} (gs gs' : list (list Z * mat R)) (h : list Z * mat R -> A) :
  NoDup (map fst gs) -> map fst gs' = map fst gs -> prod gs' (fun gm => h (ref_of gs (fst gm))) = prod gs h.
Proof.
  intros ND E. rewrite <- (prod_map fst gs' (fun g => h (ref_of gs g))), E, prod_map.
  apply prod_ext_in. intros gm Hin. rewrite ref_of_in; auto.
Qed.

Lemma flat_width n (mats : mats_arg R) : groups_ok n (mats_groups mats) -> zlen (flat_of (mats_groups mats)) = Z.of_nat (width mats).
Proof.
  intros Hg. unfold zlen, width. f_equal. apply Permutation_length. apply NoDup_Permutation.
  - apply (flat_ok n); auto.
  - apply NoDup_nodup.
  - intros q. unfold flat_of. rewrite in_sorted_set, nodup_In. reflexivity.
Qed.
Lemma agree_touched n (mats : mats_arg R) r c : agree_off n (flat_of (mats_groups mats)) r c = agree_off n (touched mats) r c.
Proof. apply agree_off_ext. intros q. unfold flat_of. rewrite in_sorted_set. reflexivity. Qed.
Lemma pow2_nat k : Z.to_nat (2 ^ Z.of_nat k) = (2 ^ k)%nat.
Proof. rewrite <- (Nat2Z.id (2 ^ k)). f_equal. rewrite Nat2Z.inj_pow. reflexivity. Qed.
Lemma columns_count n (mats : mats_arg R) r : 0 <= n -> groups_ok n (mats_groups mats) ->
  length (filter (agree_off n (touched mats) r) (zrange 0 (2 ^ n))) = (2 ^ width mats)%nat.
Proof.
  intros Hn Hg. rewrite <- (filter_ext (agree_off n (flat_of (mats_groups mats)) r)) by (intros; apply agree_touched).
  rewrite <- (Permutation_length (columns_perm n _ r Hn (flat_ok n _ Hg))), map_length, length_zrange, (flat_width n) by auto.
  rewrite Z.sub_0_r. apply pow2_nat.
Qed.
Lemma kron_columns n (mats : mats_arg R) v r :
  kron_apply n (mats_groups mats) v r =
  sum (filter (agree_off n (touched mats) r) (zrange 0 (2 ^ n))) (fun c => prod (mats_groups mats) (group_entry n r c) * v c)%r.
Proof.
  unfold kron_apply. rewrite sum_filter. apply sum_ext. intros c _. unfold kron_entry. fold (touched mats).
  destruct (agree_off n (touched mats) r c); auto. rewrite c_mul0. reflexivity.
Qed.

Section Rows.
  Variables u w : R.
  Hypothesis Hu : (0 <= u)%R.
  Hypothesis Hw : (0 <= w)%R.
  Notation approxC := (approx (A := CR) cabs1).
  Add Ring CRing3 : (@rth CR _).

  Lemma fkron_inv n mats vec len ioff ooff out :
    0 <= n -> mats_wf n mats -> fkron u w mats vec n len ioff ooff out ->
    groups_ok n (mats_groups mats) /\ zlen out = len /\ len + ooff <= 2 ^ n /\
    exists ss, structs_of (mats_groups mats) ss /\
      forall r, 0 <= r < len ->
        frow u w n (combine (map fst (mats_groups mats)) ss) (flat_of (mats_groups mats)) vec ioff (r + ooff) (znth 0%r out r).
  Proof.
    intros Hn HW (H1 & H2 & newmats & En & Hr & ss & Es & HL & Hrows).
    assert (HS := norm_mats_inv _ _ En). rewrite norm_mats_ok in En by (auto; apply HW). injection En as <-.
    split; [apply mats_wf_groups; auto|]. split; auto. split; auto. exists ss. split; auto.
  Qed.

  (** the entries [X] the stored matrices stand for, of size at most [E] *)
  Lemma fkron_rows n mats vec len ioff ooff out H (E : Z -> Z -> list Z * mat R -> R) (X : Z -> Z -> list Z * mat R -> CR) :
    0 <= n -> 0 <= ooff -> mats_wf n mats -> fkron u w mats vec n len ioff ooff out -> (1 <= H)%R ->
    (forall r c gm, 0 <= r < 2 ^ n -> 0 <= c < 2 ^ n -> agree_off n (touched mats) r c = true -> In gm (mats_groups mats) ->
      approxC H (E r c gm) (group_entry n r c gm) (X r c gm)) ->
    forall r, 0 <= r < len ->
    let cols := filter (agree_off n (touched mats) (r + ooff)) (zrange 0 (2 ^ n)) in
    approxC ((H * (1 + u) ^ 2) ^ length mats * (1 + u) ^ (2 + 2 ^ width mats))
      (sum cols (fun c => (grow w (E (r + ooff)%Z c) (mats_groups mats) 1 * cabs1 (slice_at ioff vec c) + 6 * w)%R))
      (znth 0%r out r)
      (sum cols (fun c => prod (mats_groups mats) (X (r + ooff)%Z c) * slice_at ioff vec c)%r).
  Proof.
    intros Hn Ho HW Hk HH HE r Hr cols. destruct (fkron_inv _ _ _ _ _ _ _ Hn HW Hk) as (Hg & HL & H2 & ss & Hss & Hrows).
    pose proof (columns_count n mats (r + ooff) Hn Hg) as HC. fold cols in HC.
    assert (EC : filter (agree_off n (flat_of (mats_groups mats)) (r + ooff)) (zrange 0 (2 ^ n)) = cols)
      by (apply filter_ext; intros; apply agree_touched).
    pose proof (frow_approx u w Hu Hw n (mats_groups mats) ss vec ioff (r + ooff) H (E (r + ooff)) (X (r + ooff)) (znth 0%r out r)
      Hn ltac:(lia) Hg Hss HH) as HF. cbv zeta in HF. rewrite EC, HC in HF.
    replace (length mats) with (length (mats_groups mats)) by apply map_length.
    apply HF; [|apply Hrows; auto].
    intros c gm Hc Hgm. apply filter_In in Hc as [Hc Ha]. apply in_zrange in Hc. apply HE; auto. lia.
  Qed.

  (** C89: every row *)
  Lemma fkron_row n mats vec len ioff ooff out r :
    0 <= n -> 0 <= ooff -> mats_wf n mats -> fkron u w mats vec n len ioff ooff out -> 0 <= r < len ->
    (cabs1 (znth 0%r out r - kron_apply n (mats_groups mats) (slice_at ioff vec) (r + ooff)%Z)%r
     <= ((1 + u) ^ (2 * length mats + 2 + 2 ^ width mats) - 1) * row_size w n mats (slice_at ioff vec) (r + ooff)%Z)%R.
  Proof.
    intros Hn Ho HW Hk Hr.
    pose proof (fkron_rows n mats vec len ioff ooff out 1 (fun r c gm => cabs1 (group_entry n r c gm))
      (fun r c gm => group_entry n r c gm) Hn Ho HW Hk (Rle_refl 1)
      (fun _ _ _ _ _ _ _ => approx_refl cabs1 cabs1_0 _) r Hr) as [_ HF].
    rewrite kron_columns. eapply Rle_trans; [exact HF|]. apply Req_le. f_equal.
    rewrite Rmult_1_l, <- pow_mult, <- pow_add. f_equal. f_equal. lia.
  Qed.

  (** ** the exact result is a possible one *)
  Lemma rounds_refl x : rounds u w x x.
  Proof.
    unfold rounds. rewrite Rminus_eq_0, Rabs_R0. apply Rmult_le_pos; auto. pose proof (Rabs_pos x). lra.
  Qed.
  Lemma fadd_refl a b : fadd u w a b (a + b)%r.
  Proof. split; apply rounds_refl. Qed.
  Lemma fmul_refl a b : fmul u w a b (a * b)%r.
  Proof. do 4 eexists. repeat split; apply rounds_refl. Qed.
  Lemma cx_eq_dec (a b : CR) : {a = b} + {a <> b}.
  Proof.
    destruct a as [a a'], b as [b b']. destruct (Req_EM_T a b) as [->|]; [|right; congruence].
    destruct (Req_EM_T a' b') as [->|]; [left; auto|right; congruence].
  Qed.
  Lemma fprod_exact n row col gs : forall ss p, groups_ok n gs -> structs_of gs ss ->
    fprod u w n row col (combine (map fst gs) ss) p (p * prod gs (group_entry n row col))%r.
  Proof.
    induction gs as [|[g m] gs IH]; intros ss p Hgs Hss.
    - cbn [map combine prod]. replace (p * 1)%r with p by ring. constructor.
    - unfold structs_of in Hss. cbn [map snd mmap] in Hss.
      destruct (Hgs g m (or_introl eq_refl)) as [Hq Hm].
      destruct (build_struct_ok m (zlen g) Hm) as (s & Es & Hs). rewrite Es in Hss. cbn [bind] in Hss.
      destruct (mmap build_struct (map snd gs)) as [ss'|] eqn:Ess; [|discriminate].
      cbn [bind] in Hss. inversion Hss; subst ss. clear Hss. cbn [map fst combine prod].
      assert (Hsub : c_submat n row col g = Ok (reg n g row, reg n g col)) by (apply c_submat_ok; auto).
      assert (Hent : calc_mat_entry s (reg n g row) (reg n g col) = Ok (group_entry n row col (g, m)))
        by (apply Hs; apply reg_range).
      set (e := group_entry n row col (g, m)) in *. destruct (cx_eq_dec (p * e)%r 0%r) as [Z|NZ].
      + replace (p * (e * prod gs (group_entry n row col)))%r with (p * e)%r.
        * eapply fp_zero; [exact Hsub|exact Hent|apply fmul_refl|exact Z].
        * replace (p * (e * prod gs (group_entry n row col)))%r with (p * e * prod gs (group_entry n row col))%r by ring.
          rewrite Z. ring.
      + replace (p * (e * prod gs (group_entry n row col)))%r with (p * e * prod gs (group_entry n row col))%r by ring.
        eapply fp_next; [exact Hsub|exact Hent|apply fmul_refl|exact NZ|].
        apply IH; auto. intros g' m' Hin; apply Hgs; right; auto.
  Qed.
  Lemma fsum_exact {A} {CA : CRing A} (add : A -> A -> A -> Prop) (t : Z -> A) : (forall a b, add a b (a + b)%r) ->
    forall l, fsum 0%r add t l (sum l t).
  Proof.
    intros Hadd. induction l as [|i l IH]; [constructor|]. destruct l as [|j l].
    - cbn [sum]. rewrite r_add0. constructor.
    - change (sum (i :: j :: l) t) with (t i + sum (j :: l) t)%r.
      apply fs_add with [i] (j :: l) (t i) (sum (j :: l) t); [discriminate|discriminate|apply Permutation_refl|constructor|exact IH|].
      apply Hadd.
  Qed.
  Lemma fkron_exact n mats vec len ioff ooff :
    0 <= n -> 0 <= ioff -> 0 <= ooff -> mats_wf n mats -> (forall km, In km mats -> shape_ok km) ->
    rectangular (map fst (mats_groups mats)) = true -> 0 <= len -> zlen vec + ioff <= 2 ^ n -> len + ooff <= 2 ^ n ->
    fkron u w mats vec n len ioff ooff (kron_result n mats vec ioff ooff len).
  Proof.
    intros Hn Hi Ho HW HS HR Hlen H1 H2. split; auto. split; auto. exists (mats_groups mats).
    split; [apply norm_mats_ok; auto; apply HW|]. split.
    { unfold rectangular in HR. destruct (map fst (mats_groups mats)) as [|g0 l]; [discriminate|].
      cbn [forallb] in HR. apply andb_true_iff in HR. tauto. }
    pose proof (mats_wf_groups n mats HW HS) as Hg. destruct (structs_ex n _ Hg) as (ss & Hss).
    exists ss. split; [exact Hss|]. split.
    { unfold kron_result. rewrite zlen_map, zlen_zrange; lia. }
    intros r Hr. pose proof (flat_ok n _ Hg) as HF.
    eexists. exists (fun c => prod (mats_groups mats) (group_entry n (r + ooff) c) * slice_at ioff vec c)%r.
    split; [apply c_columns_ok; auto; lia|]. cbv zeta. set (F := flat_of (mats_groups mats)).
    change (sorted_set (concat (map fst (mats_groups mats)))) with F.
    split.
    - intros c Hc. apply filter_In in Hc as [_ Hp].
      exists (1 * prod (mats_groups mats) (group_entry n (r + ooff) c))%r, (slice_at ioff vec c).
      split; [apply fprod_exact; auto|]. split; [unfold slice_at; apply cget_ok; lia|].
      replace (prod (mats_groups mats) (group_entry n (r + ooff) c) * slice_at ioff vec c)%r
        with (1 * prod (mats_groups mats) (group_entry n (r + ooff) c) * slice_at ioff vec c)%r by ring.
      apply fmul_refl.
    - replace (znth 0%r (kron_result n mats vec ioff ooff len) r) with (kron_apply n (mats_groups mats) (slice_at ioff vec) (r + ooff)).
      2:{ unfold kron_result. rewrite znth_map_zrange by lia. reflexivity. }
      rewrite kron_columns.
      match goal with |- fsum _ _ ?t ?l ?s => replace s with (sum l t); [apply fsum_exact; apply fadd_refl|] end.
      rewrite sum_filter.
      etransitivity; [apply sum_ext with (g := fun c => (prod (mats_groups mats) (group_entry n (r + ooff) c) * slice_at ioff vec c)%r)|].
      + intros c Hc. destruct (negb _) eqn:Ep; auto. unfold slice_at. rewrite znth_out by lia. ring.
      + rewrite (sum_perm _ _ _ (columns_perm n F (r + ooff) Hn HF)). f_equal. apply filter_ext. intros; apply agree_touched.
  Qed.
End Rows.
