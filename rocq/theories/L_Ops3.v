(** Op-level facts: isometries, adjoints, swaps, single-qubit gates. *)
From Coq Require Import ZifyBool.
From Verif Require Import Base S_Bits L_Bits M_Kron S_Kron L_Kron L_Kron2 L_Kron3 L_Alg M_Ops S_Ops L_Ops1 L_Ops2.

Section LOps3.
  Context {K : Type} {OK : OrdRing K}.
  Notation C := (Cx K).
  Add Ring CRing_lo3 : (@rth C _).
  Add Ring KRing_lo3 : (@rth K _).
  Notation F n mats := (fentry n (map ef (mats_groups mats))).

  Ltac cxs :=
    change (@ropp (Cx K) _) with (@cxopp K or_ring); change (@rmul (Cx K) _) with (@cxmul K or_ring);
    change (@radd (Cx K) _) with (@cxadd K or_ring); change (@rI (Cx K) _) with (@cx1 K or_ring);
    change (@rO (Cx K) _) with (@cx0 K or_ring);
    unfold cxopp, cxmul, cxadd, cx1, cx0, cconj, creal, cxi; cbn [fst snd]; f_equal; ring.

  Definition isometry n (X : Z -> Z -> C) : Prop := meq n (mcomp n (econj X) X) delta.

  Lemma isometry_ext n X Y : meq n X Y -> isometry n X -> isometry n Y.
  Proof.
    intros H I. eapply meq_trans; [|exact I]. intros r c Hr Hc. apply sum_ext. intros x Hx. apply in_zrange in Hx.
    unfold econj. rewrite !H; auto.
  Qed.
  Lemma isometry_inner n X v w : isometry n X ->
    inner n (mapply n X v) (mapply n X w) = inner n v w.
  Proof.
    intros I. rewrite inner_adjoint. apply inner_ext; auto. intros r Hr.
    rewrite mapply_mcomp. rewrite <- (mapply_delta n w r) by auto. apply mapply_ext; auto.
  Qed.
  Lemma isometry_undo n X v r : isometry n X -> 0 <= r < 2 ^ n -> mapply n (econj X) (mapply n X v) r = v r.
  Proof.
    intros I Hr. rewrite mapply_mcomp. rewrite <- (mapply_delta n v r) by auto. apply mapply_ext; auto.
  Qed.

  Lemma iso_disjoint n (gs : list (list Z * mat K)) :
    0 <= n -> qubits_ok n (concat (map fst gs)) -> (forall g m, In (g, m) gs -> unitary (zlen g) m) ->
    isometry n (fentry n (map ef gs)).
  Proof.
    intros Hn HQ HU r c Hr Hc.
    set (ts := map (fun ge => (fst ge, (econj (snd ge), snd ge))) (map ef gs) : list (list Z * ((Z -> Z -> C) * (Z -> Z -> C)))).
    assert (Eb : map gB ts = map ef gs).
    { unfold ts. rewrite !map_map. apply map_ext. intros [k m]; reflexivity. }
    assert (Et : map fst ts = map fst gs).
    { unfold ts. rewrite !map_map. apply map_ext. intros [k m]; reflexivity. }
    transitivity (mcomp n (fentry n (map gA ts)) (fentry n (map gB ts)) r c).
    - rewrite Eb. apply sum_ext. intros x Hx. f_equal. unfold econj at 1. rewrite <- fentry_dag.
      f_equal. unfold ts. rewrite !map_map. reflexivity.
    - rewrite fentry_same; auto; [|rewrite Et; auto].
      rewrite <- (fentry_delta n (map fst gs)) by auto.
      apply fentry_ext. unfold ts. rewrite !map_map. clear - HU.
      induction gs as [|[g m] gs IH]; [constructor|]. cbn [map]. constructor.
      + cbn [gAB ef fst snd]. split; auto. intros i j Hi Hj. apply (HU g m); auto. left; auto.
      + apply IH. intros g' m' Hin. apply HU. right; auto.
  Qed.

  Lemma delta_iso n : isometry n delta.
  Proof.
    intros a b Ha Hb. transitivity (mcomp n delta delta a b).
    - apply sum_ext. intros x Hx. f_equal. unfold econj, delta. rewrite Z.eqb_sym.
      destruct (a =? x); [apply cconj_1|apply cconj_0].
    - apply mcomp_delta_l; auto.
  Qed.
  Lemma iso_ctrl n c X :
    isometry n X -> (forall r s, 0 <= r < 2 ^ n -> 0 <= s < 2 ^ n -> qbit n r c <> qbit n s c -> X r s = 0%r) ->
    isometry n (fun r s => if qbit n r c then X r s else delta r s).
  Proof.
    intros I HX a b Ha Hb.
    destruct (qbit n a c) eqn:Ea.
    - rewrite <- (I a b Ha Hb). apply sum_ext. intros r Hr. apply in_zrange in Hr. unfold econj.
      destruct (qbit n r c) eqn:Er; auto.
      rewrite (HX r a) by (auto; congruence). unfold delta. destruct (Z.eqb_spec r a); [congruence|].
      rewrite cconj_0. ring.
    - rewrite <- (delta_iso n a b Ha Hb). apply sum_ext. intros r Hr. apply in_zrange in Hr. unfold econj.
      destruct (qbit n r c) eqn:Er; auto.
      rewrite (HX r a) by (auto; congruence). unfold delta. destruct (Z.eqb_spec r a); [congruence|].
      rewrite cconj_0. ring.
  Qed.

  (** ** swap *)
  Definition sw n (a b : list Z) (r : Z) : Z := setreg n (a ++ b) r (reg n (b ++ a) r).
  Lemma sw_range n a b r : 0 <= n -> 0 <= sw n a b r < 2 ^ n.
  Proof. intros. apply setreg_range; auto. Qed.
  Lemma sw_swapped n a b r :
    0 <= n -> qubits_ok n (a ++ b) -> zlen a = zlen b -> swapped n a b r (sw n a b r).
  Proof.
    intros Hn HQ HL. unfold swapped, sw.
    assert (E : reg n (a ++ b) (setreg n (a ++ b) r (reg n (b ++ a) r)) = reg n (b ++ a) r).
    { apply reg_setreg; auto. pose proof (reg_range n (b ++ a) r) as R. rewrite zlen_app in *.
      replace (zlen a + zlen b) with (zlen b + zlen a) by lia. auto. }
    set (s := setreg _ _ _ _) in *. rewrite !reg_app in E. rewrite HL in E.
    pose proof (reg_range n a s). pose proof (reg_range n b s). pose proof (reg_range n a r). pose proof (reg_range n b r).
    rewrite HL in *. set (h := 2 ^ zlen b) in *.
    assert (reg n a s = reg n b r) by nia. split; [auto|]. split; [nia|].
    intros q Hq Ha Hb. unfold s. apply qbit_setreg_out; auto. rewrite in_app_iff. tauto.
  Qed.
  Lemma swapped_fun n a b r s s' :
    0 <= n -> 0 <= s < 2 ^ n -> 0 <= s' < 2 ^ n -> swapped n a b r s -> swapped n a b r s' -> s = s'.
  Proof.
    intros Hn Hs Hs' (H1 & H2 & H3) (H1' & H2' & H3'). apply (qbit_ext n); auto. intros q Hq.
    destruct (in_dec Z.eq_dec q a) as [Ia|Ia]; [apply (reg_inj n a); auto; congruence|].
    destruct (in_dec Z.eq_dec q b) as [Ib|Ib]; [apply (reg_inj n b); auto; congruence|].
    rewrite H3, H3'; auto.
  Qed.
  Lemma swapped_sym n a b r s : swapped n a b r s -> swapped n a b s r.
  Proof. intros (H1 & H2 & H3). split; [|split]; auto. intros. symmetry; auto. Qed.
  Lemma sw_invol n a b r :
    0 <= n -> qubits_ok n (a ++ b) -> zlen a = zlen b -> 0 <= r < 2 ^ n -> sw n a b (sw n a b r) = r.
  Proof.
    intros Hn HQ HL Hr. apply (swapped_fun n a b (sw n a b r)); auto using sw_range, sw_swapped, swapped_sym.
  Qed.

  Lemma swap_entry n a b k :
    0 <= n -> qubits_ok n (a ++ b) -> zlen a = k -> zlen b = k ->
    meq n (fentry n (map ef [(a ++ b, MSwap k)])) (fun r s => delta (sw n a b r) s).
  Proof.
    intros Hn HQ La Lb r s Hr Hs. change (map ef [(a ++ b, @MSwap K k)]) with [(a ++ b, mentry (zlen (a ++ b)) (@MSwap K k))].
    rewrite fentry_1. cbn [mentry].
    assert (S := sw_swapped n a b r Hn HQ ltac:(lia)).
    rewrite !reg_app. rewrite Lb.
    pose proof (reg_range n a r). pose proof (reg_range n b r). pose proof (reg_range n a s). pose proof (reg_range n b s).
    rewrite La, Lb in *. set (h := 2 ^ k) in *.
    assert (EM : (reg n a s * h + reg n b s) mod h = reg n b s).
    { symmetry. apply Z.mod_unique_pos with (q := reg n a s); auto; lia. }
    assert (ED : (reg n a s * h + reg n b s) / h = reg n a s).
    { symmetry. apply Z.div_unique_pos with (r := reg n b s); auto; lia. }
    rewrite EM, ED. unfold delta. destruct (Z.eqb_spec (sw n a b r) s) as [E|E].
    - rewrite E in S. destruct S as (S1 & S2 & S3).
      rewrite (proj2 (agree_off_spec n (a ++ b) r s)).
      + rewrite S1, S2. rewrite Z.eqb_refl. auto.
      + intros q Hq Hin. rewrite in_app_iff in Hin. symmetry. apply S3; tauto.
    - destruct (agree_off n (a ++ b) r s) eqn:EA; auto.
      destruct (Z.eqb_spec (reg n a r * h + reg n b r) (reg n b s * h + reg n a s)); auto.
      exfalso. apply E. apply (swapped_fun n a b r); auto using sw_range.
      assert (reg n a r = reg n b s) by nia.
      split; [nia|]. split; [auto|]. intros q Hq Ha Hb. symmetry. apply (proj1 (agree_off_spec _ _ _ _) EA); auto.
      rewrite in_app_iff. tauto.
  Qed.
  Lemma iso_swap n a b k :
    0 <= n -> qubits_ok n (a ++ b) -> zlen a = k -> zlen b = k ->
    isometry n (fun r s => delta (sw n a b r) s : C).
  Proof.
    intros Hn HQ La Lb x y Hx Hy. unfold mcomp, econj.
    rewrite (sum_single _ (sw n a b x)).
    - unfold delta. rewrite sw_invol by (auto; lia). rewrite Z.eqb_refl, cconj_1. ring.
    - apply zrange_nodup.
    - apply in_zrange, sw_range; auto.
    - intros r Hr Hne. apply in_zrange in Hr. unfold delta.
      destruct (Z.eqb_spec (sw n a b r) x) as [E|]; [|rewrite cconj_0; ring].
      exfalso. apply Hne. rewrite <- E. symmetry. apply sw_invol; auto; lia.
  Qed.

  (** ** 2x2 matrices *)
  Definition mat2 (g : C * C * C * C) : mat K := let '(a, b, c, d) := g in MNum 2 2 [a; b; c; d].
  Lemma gate_mats (o : op K) g groups : gate_of o = Some g -> makemats o groups = Ok (per_index (mat2 g) groups).
  Proof.
    destruct o; cbn [gate_of makemats]; intros E; inversion E; subst; auto.
    f_equal. f_equal. unfold h_mat, mat2, gate_H. f_equal. cbn [map]. f_equal; [ring|]. f_equal; [ring|].
    f_equal; [ring|]. f_equal. ring.
  Qed.
  Definition ent2 (g : C * C * C * C) (i j : Z) : C :=
    let '(a, b, c, d) := g in if (i =? 0) then (if (j =? 0) then a else b) else (if (j =? 0) then c else d).
  Lemma mentry_mat2 g i j : 0 <= i < 2 -> 0 <= j < 2 -> mentry 1 (mat2 g) i j = ent2 g i j.
  Proof.
    intros Hi Hj. destruct g as [[[a b] c] d].
    assert (i = 0 \/ i = 1) as [->| ->] by lia; assert (j = 0 \/ j = 1) as [->| ->] by lia; reflexivity.
  Qed.
  Definition unitary2 (g : C * C * C * C) : Prop :=
    let '(a, b, c, d) := g in
    (cconj a * a + cconj c * c = 1 /\ cconj b * b + cconj d * d = 1 /\
     cconj a * b + cconj c * d = 0 /\ cconj b * a + cconj d * c = 0)%r.
  Lemma unitary2_ok g : unitary2 g -> unitary 1 (mat2 g).
  Proof.
    intros H i j Hi Hj. change (2 ^ 1) with 2 in *. change (zrange 0 2) with [0; 1]. cbn [sum].
    rewrite !mentry_mat2 by lia. destruct g as [[[a b] c] d]. destruct H as (H1 & H2 & H3 & H4).
    assert (i = 0 \/ i = 1) as [->| ->] by lia; assert (j = 0 \/ j = 1) as [->| ->] by lia; cbn [ent2 Z.eqb Pos.eqb].
    - etransitivity; [|exact H1]; ring.
    - etransitivity; [|exact H3]; ring.
    - etransitivity; [|exact H4]; ring.
    - etransitivity; [|exact H2]; ring.
  Qed.
  Lemma gates_unitary2 (o : op K) g : gate_of o = Some g -> op_scalars_ok o -> unitary2 g.
  Proof.
    destruct o; cbn [gate_of op_scalars_ok]; intros E HS; inversion E; subst; cbn.
    - repeat split; rewrite ?cconj_0, ?cconj_1; ring.
    - assert (cconj cxi = (- cxi)%r :> C) as E1 by cxs.
      assert (cconj (- cxi)%r = cxi :> C) as E2 by cxs.
      assert (cxi * cxi = - (1) :> C)%r as E3 by cxs.
      repeat split; rewrite ?cconj_0, ?E1, ?E2; try ring.
      + transitivity (- (cxi * cxi) : C)%r; [ring|]. rewrite E3. ring.
      + transitivity (- (cxi * cxi) : C)%r; [ring|]. rewrite E3. ring.
    - assert (cconj (- (1))%r = (- (1))%r :> C) as E1 by cxs.
      repeat split; rewrite ?cconj_0, ?cconj_1, ?E1; ring.
    - assert (cconj (creal h) = creal h) as E1 by cxs.
      assert (cconj (- creal h)%r = (- creal h)%r) as E2 by cxs.
      assert (creal h * creal h + creal h * creal h = 1)%r as E3.
      { rewrite <- creal_mul, <- creal_add, <- creal_1. f_equal. rewrite <- HS. ring. }
      repeat split; rewrite ?E1, ?E2; try ring; rewrite <- E3; ring.
    - assert (cconj e * e = 1)%r as E1.
      { rewrite cconj_norm, HS. apply creal_1. }
      repeat split; rewrite ?cconj_0, ?cconj_1; try ring. rewrite E1. ring.
  Qed.

  (** ** well-formedness of the dictionaries built by the ops *)
  Lemma op_mats_ok n (o : op K) groups :
    0 <= n -> op_fits o groups -> qubits_ok n (concat groups) ->
    exists mats, makemats o groups = Ok mats /\ mats_wf n mats /\ (forall km, In km mats -> shape_ok km) /\
      mats <> [] /\ rectangular (map fst (mats_groups mats)) = true /\
      (forall q, In q (touched mats) -> In q (concat groups)) /\
      (op_scalars_ok o -> isometry n (F n mats)).
  Proof.
    intros Hn. revert groups. 
    assert (G : forall g groups, concat groups <> [] -> qubits_ok n (concat groups) ->
      let mats := per_index (mat2 g) groups in
      mats_wf n mats /\ (forall km, In km mats -> shape_ok km) /\ mats <> [] /\
      rectangular (map fst (mats_groups mats)) = true /\ (forall q, In q (touched mats) -> In q (concat groups)) /\
      (unitary2 g -> isometry n (F n mats))).
    { intros g groups Hne [ND HQ]. cbv zeta. rewrite per_index_nodup by auto. set (qs := concat groups) in *.
      assert (EG : mats_groups (map (fun i => (KInt i, mat2 g)) qs) = map (fun q => ([q], mat2 g)) qs).
      { unfold mats_groups. rewrite map_map. reflexivity. }
      assert (EQ : concat (map fst (map (fun q => ([q], mat2 g)) qs)) = qs).
      { rewrite map_map. cbn [fst]. clear. induction qs as [|q qs IH]; cbn; congruence. }
      split; [|split; [|split; [|split; [|split]]]].
      - split; [split|].
        + intros k m Hin. apply in_map_iff in Hin as (i & E & _). inversion E. discriminate.
        + rewrite map_map. cbn [fst key_group]. apply NoDup_map_inj; auto. intros; congruence.
        + intros k m Hin. apply in_map_iff in Hin as (i & E & Hi). inversion E; subst. split.
          * cbn [key_group]. intros q [<-|[]]; auto.
          * destruct g as [[[a b] c] d]. cbn. intuition.
      - intros km Hin. apply in_map_iff in Hin as (i & <- & Hi). unfold shape_ok. cbn [fst snd key_group].
        destruct g as [[[a b] c] d]. reflexivity.
      - destruct qs; [contradiction|discriminate].
      - rewrite EG, map_map. cbn [fst]. destruct qs as [|q0 qs']; [contradiction|]. cbn [map rectangular].
        apply forallb_forall. intros x Hx. change ([q0] :: map (fun q => [q]) qs') with (map (fun q => [q]) (q0 :: qs')) in Hx.
        apply in_map_iff in Hx as (y & <- & _). reflexivity.
      - unfold touched. rewrite EG, EQ. auto.
      - intros HU. rewrite EG. apply iso_disjoint; auto; [rewrite EQ; split; auto|].
        intros g' m Hin. apply in_map_iff in Hin as (q & E & _). inversion E; subst. apply unitary2_ok; auto. }
    assert (G' : forall (o : op K) g groups, gate_of o = Some g -> concat groups <> [] -> qubits_ok n (concat groups) ->
      exists mats, makemats o groups = Ok mats /\ mats_wf n mats /\ (forall km, In km mats -> shape_ok km) /\
      mats <> [] /\ rectangular (map fst (mats_groups mats)) = true /\
      (forall q, In q (touched mats) -> In q (concat groups)) /\ (op_scalars_ok o -> isometry n (F n mats))).
    { intros o' g groups E Hne HQ. destruct (G g groups Hne HQ) as (H1 & H2 & H3 & H4 & H5 & H6).
      exists (per_index (mat2 g) groups). split; [apply gate_mats; auto|]. split; [exact H1|]. split; [exact H2|]. split; [exact H3|]. split; [exact H4|]. split; [exact H5|].
      intros HS. apply H6. eapply gates_unitary2; eauto. }
    induction o as [| | |h|e|k|o IH]; intros groups HF HQ; try (eapply G'; [reflexivity|exact HF|exact HQ]).
    - destruct HF as (a & b & -> & La & Lb). cbn [concat] in HQ. rewrite app_nil_r in HQ.
      exists [(KTuple (a ++ b), MSwap k)].
      split; [reflexivity|]. split; [|split; [|split; [|split; [|split]]]].
      + split; [split|].
        * intros k' m [E|[]]. inversion E. discriminate.
        * repeat constructor. intros [].
        * intros k' m [E|[]]. inversion E; subst. split; [exact (proj2 HQ)|]. apply zlen_nonneg.
      + intros km [<-|[]]. unfold shape_ok. cbn [fst snd key_group mat_shape]. rewrite zlen_app.
        replace (zlen a + zlen b) with (2 * k) by lia. auto.
      + discriminate.
      + cbn. rewrite Z.eqb_refl. auto.
      + unfold touched. cbn [mats_groups map fst key_group concat]. rewrite !app_nil_r. auto.
      + intros _. eapply isometry_ext; [apply meq_sym; apply (swap_entry n a b k); auto|].
        apply (iso_swap n a b k); auto.
    - destruct HF as (c & gs & -> & HF). cbn [concat] in HQ.
      change ([c] ++ concat gs) with (c :: concat gs) in HQ. destruct HQ as [ND HQ]. inversion ND as [|c' gs' Hc ND']; subst.
      destruct (IH gs HF) as (mats & EM & Hwf & Hsh & Hne & Hre & Hto & Hiso).
      { split; auto. intros; apply HQ; right; auto. }
      assert (Hcr : 0 <= c < n) by (apply HQ; left; auto).
      exists (ctrl_mats c mats). split; [apply makemats_C; auto; apply Hwf|].
      split; [apply ctrl_wf; auto|]. split; [apply ctrl_shape; auto|].
      split; [destruct mats; [contradiction|discriminate]|]. split; [rewrite ctrl_rect; auto|].
      assert (EG : mats_groups (ctrl_mats c mats) = cgroups c (mats_groups mats)).
      { unfold mats_groups, ctrl_mats, cgroups. rewrite !map_map. apply map_ext. intros [k m]; reflexivity. }
      split.
      + unfold touched. rewrite EG. intros q Hq. apply in_qs_c in Hq as [[_ ->]|Hq]; [left; auto|]. right. apply Hto; auto.
      + cbn [op_scalars_ok]. intros HS. specialize (Hiso HS). rewrite EG.
        assert (Hnin : ~ In c (concat (map fst (mats_groups mats)))) by (intros H; apply Hc, Hto; auto).
        eapply isometry_ext; [apply meq_sym, ctrl_entry; auto; destruct mats; [contradiction|discriminate]|].
        apply iso_ctrl; auto. intros r s Hr Hs Hne'. unfold fentry. rewrite qs_ef.
        destruct (agree_off _ _ _ _) eqn:EA; auto. exfalso. apply Hne'.
        apply (proj1 (agree_off_spec _ _ _ _) EA); auto.
  Qed.
End LOps3.
