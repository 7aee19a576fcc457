(** Operator algebra on matrix entries of embedded operators. *)
From Verif Require Import Base S_Bits L_Bits M_Kron S_Kron L_Kron.

Lemma NoDup_app_inv {A} (l l' : list A) :
  NoDup (l ++ l') <-> NoDup l /\ NoDup l' /\ (forall x, In x l -> ~ In x l').
Proof.
  induction l as [|a l IH]; cbn [app].
  - split; [intros H; repeat split; auto; constructor|tauto].
  - rewrite !NoDup_cons_iff, IH, in_app_iff. cbn [In]. split.
    + intros (H1 & H2 & H3 & H4). repeat split; auto. intros x [->|Hx]; auto.
    + intros ((H1 & H2) & H3 & H4). repeat split; auto. intros [H|H]; auto. apply (H4 a); auto.
Qed.

Section Alg.
  Context {K : Type} {OK : OrdRing K}.
  Notation C := (Cx K).
  Add Ring CRing_alg : (@rth C _).

  Notation efun := (Z -> Z -> C).
  Notation egroups := (list (list Z * efun)).

  Definition fprod n (gs : egroups) r c : C :=
    prod gs (fun ge => snd ge (reg n (fst ge) r) (reg n (fst ge) c)).
  Definition fentry n (gs : egroups) r c : C :=
    if agree_off n (concat (map fst gs)) r c then fprod n gs r c else 0%r.
  Definition mcomp n (X Y : efun) : efun := fun r d => sum (zrange 0 (2 ^ n)) (fun c => (X r c * Y c d)%r).
  Definition meq n (X Y : efun) : Prop := forall r c, 0 <= r < 2 ^ n -> 0 <= c < 2 ^ n -> X r c = Y r c.
  Definition mapply n (X : efun) (v : Z -> C) : Z -> C := fun r => sum (zrange 0 (2 ^ n)) (fun c => (X r c * v c)%r).
  Definition delta : efun := fun i j => if (i =? j) then 1%r else 0%r.
  Definition ef (gm : list Z * mat K) : list Z * efun := (fst gm, mentry (zlen (fst gm)) (snd gm)).

  Lemma kron_fentry n gs r c : kron_entry n gs r c = fentry n (map ef gs) r c.
  Proof.
    unfold kron_entry, fentry, fprod. rewrite map_map. change (map (fun x => fst (ef x)) gs) with (map fst gs).
    destruct (agree_off _ _ _ _); auto. rewrite prod_map. reflexivity.
  Qed.
  Lemma kron_mapply n gs v r : kron_apply n gs v r = mapply n (fentry n (map ef gs)) v r.
  Proof. unfold kron_apply, mapply. apply sum_ext. intros. rewrite kron_fentry. auto. Qed.

  Lemma meq_refl n X : meq n X X.
  Proof. intros r c _ _. auto. Qed.
  Lemma meq_sym n X Y : meq n X Y -> meq n Y X.
  Proof. intros H r c Hr Hc. symmetry. auto. Qed.
  Lemma meq_trans n X Y W : meq n X Y -> meq n Y W -> meq n X W.
  Proof. intros H1 H2 r c Hr Hc. rewrite H1; auto. Qed.
  Lemma mcomp_ext n X X' Y Y' : meq n X X' -> meq n Y Y' -> meq n (mcomp n X Y) (mcomp n X' Y').
  Proof.
    intros H1 H2 r c Hr Hc. apply sum_ext. intros i Hi. apply in_zrange in Hi. rewrite H1, H2; auto.
  Qed.
  Lemma mcomp_assoc n X Y W : meq n (mcomp n (mcomp n X Y) W) (mcomp n X (mcomp n Y W)).
  Proof.
    intros r d Hr Hd. unfold mcomp.
    transitivity (sum (zrange 0 (2^n)) (fun c => sum (zrange 0 (2^n)) (fun b => (X r b * Y b c * W c d)%r))).
    - apply sum_ext. intros c _. rewrite <- sum_mul_r. reflexivity.
    - rewrite sum_swap. apply sum_ext. intros b _. rewrite <- sum_mul_l. apply sum_ext. intros. ring.
  Qed.
  Lemma mapply_ext n X Y v w r :
    (forall c, 0 <= c < 2 ^ n -> X r c = Y r c) -> (forall c, 0 <= c < 2 ^ n -> v c = w c) ->
    mapply n X v r = mapply n Y w r.
  Proof. intros H1 H2. apply sum_ext. intros c Hc. apply in_zrange in Hc. rewrite H1, H2; auto. Qed.
  Lemma mapply_mcomp n X Y v r : mapply n X (mapply n Y v) r = mapply n (mcomp n X Y) v r.
  Proof.
    unfold mapply, mcomp.
    transitivity (sum (zrange 0 (2^n)) (fun c => sum (zrange 0 (2^n)) (fun d => (X r c * Y c d * v d)%r))).
    - apply sum_ext. intros c _. rewrite <- sum_mul_l. apply sum_ext. intros. ring.
    - rewrite sum_swap. apply sum_ext. intros d _. rewrite <- sum_mul_r. apply sum_ext. intros. ring.
  Qed.
  Lemma mapply_delta n v r : 0 <= r < 2 ^ n -> mapply n delta v r = v r.
  Proof.
    intros Hr. unfold mapply, delta. rewrite (sum_single _ r).
    - rewrite Z.eqb_refl. ring.
    - apply zrange_nodup.
    - apply in_zrange; auto.
    - intros j _ Hj. destruct (Z.eqb_spec r j); [congruence|ring].
  Qed.
  Lemma mcomp_delta_l n X : meq n (mcomp n delta X) X.
  Proof.
    intros r c Hr Hc. unfold mcomp, delta. rewrite (sum_single _ r).
    - rewrite Z.eqb_refl. ring.
    - apply zrange_nodup.
    - apply in_zrange; auto.
    - intros j _ Hj. destruct (Z.eqb_spec r j); [congruence|ring].
  Qed.

  (** ** reordering groups *)
  Lemma fentry_perm n gs gs' r c : Permutation gs gs' -> fentry n gs r c = fentry n gs' r c.
  Proof.
    intros P. unfold fentry, fprod. rewrite (prod_perm gs gs') by auto.
    rewrite (agree_off_ext n _ (concat (map fst gs'))); auto.
    intros q. rewrite !in_concat. split; intros (x & Hx & Hq); exists x; split; auto;
      eapply Permutation_in; try exact Hx; apply Permutation_map; auto using Permutation_sym.
  Qed.

  (** ** disjoint sets of groups: applying one after the other = applying their union *)
  Lemma fprod_ext n gs r c r' c' :
    (forall g e, In (g, e) gs -> reg n g r = reg n g r' /\ reg n g c = reg n g c') ->
    fprod n gs r c = fprod n gs r' c'.
  Proof. intros H. apply prod_ext. intros [g e] Hin. cbn [fst snd]. destruct (H g e Hin) as [-> ->]. auto. Qed.

  Definition in_n n (F : list Z) := forall q, In q F -> 0 <= q < n.
  Notation qs gs := (concat (map fst gs)).
  Lemma in_qs (gs : egroups) g e q : In (g, e) gs -> In q g -> In q (qs gs).
  Proof. intros. apply in_concat. exists g. split; auto. apply in_map_iff. exists (g, e). auto. Qed.

  Lemma setreg_dup_free (F : list Z) : exists F', NoDup F' /\ forall q, In q F' <-> In q F.
  Proof. exists (nodup Z.eq_dec F). split; [apply NoDup_nodup|]. intros. apply nodup_In. Qed.

  Lemma fentry_disjoint n gs1 gs2 :
    0 <= n -> in_n n (qs gs1) -> in_n n (qs gs2) -> (forall q, In q (qs gs1) -> ~ In q (qs gs2)) ->
    meq n (mcomp n (fentry n gs1) (fentry n gs2)) (fentry n (gs1 ++ gs2)).
  Proof.
    intros Hn H1 H2 Hd r d Hr Hd'. unfold mcomp.
    destruct (setreg_dup_free (qs gs1)) as (F1 & ND & HF1).
    assert (HF : qubits_ok n F1) by (split; auto; intros q Hq; apply H1; apply HF1; auto).
    set (c0 := setreg n F1 r (reg n F1 d)).
    assert (Hc0 : 0 <= c0 < 2 ^ n) by (apply setreg_range; auto).
    assert (C0in : forall q, In q (qs gs1) -> qbit n c0 q = qbit n d q).
    { intros q Hq. apply HF1 in Hq. apply (reg_inj n F1); auto. apply reg_setreg; auto. apply reg_range. }
    assert (C0out : forall q, 0 <= q < n -> ~ In q (qs gs1) -> qbit n c0 q = qbit n r q).
    { intros q Hq Hn'. apply qbit_setreg_out; auto. rewrite HF1. auto. }
    rewrite (sum_single _ c0).
    - unfold fentry at 3. rewrite map_app, concat_app.
      destruct (agree_off n (qs gs1 ++ qs gs2) r d) eqn:E.
      + assert (A := proj1 (agree_off_spec _ _ _ _) E).
        assert (E1 : agree_off n (qs gs1) r c0 = true).
        { apply agree_off_spec. intros. symmetry. auto. }
        assert (E2 : agree_off n (qs gs2) c0 d = true).
        { apply agree_off_spec. intros q Hq Hn'. destruct (in_dec Z.eq_dec q (qs gs1)) as [Hi|Hi]; auto.
          rewrite C0out by auto. apply A; auto. rewrite in_app_iff. tauto. }
        unfold fentry. rewrite E1, E2. unfold fprod. rewrite prod_app. f_equal.
        * apply fprod_ext. intros g e Hin. split; auto. apply reg_ext. intros q Hq. apply C0in. eapply in_qs; eauto.
        * apply fprod_ext. intros g e Hin. split; auto. apply reg_ext. intros q Hq.
          assert (In q (qs gs2)) by (eapply in_qs; eauto).
          apply C0out; auto. intros Hq'. apply (Hd q); auto.
      + unfold fentry. destruct (agree_off n (qs gs1) r c0) eqn:E1; [|ring].
        destruct (agree_off n (qs gs2) c0 d) eqn:E2; [|ring].
        exfalso. rewrite (proj2 (agree_off_spec n (qs gs1 ++ qs gs2) r d)) in E; [discriminate|].
        assert (A2 := proj1 (agree_off_spec _ _ _ _) E2).
        intros q Hq Hn'. rewrite in_app_iff in Hn'. rewrite <- A2 by tauto. symmetry. apply C0out; tauto.
    - apply zrange_nodup.
    - apply in_zrange; auto.
    - intros c Hc Hne. apply in_zrange in Hc. unfold fentry.
      destruct (agree_off n (qs gs1) r c) eqn:E1; [|ring].
      destruct (agree_off n (qs gs2) c d) eqn:E2; [|ring].
      assert (A1 := proj1 (agree_off_spec _ _ _ _) E1). assert (A2 := proj1 (agree_off_spec _ _ _ _) E2).
      exfalso. apply Hne. apply (qbit_ext n); auto. intros q Hq.
      destruct (in_dec Z.eq_dec q (qs gs1)) as [Hi|Hi].
      + rewrite C0in, A2; auto.
      + rewrite C0out, A1; auto.
  Qed.

  (** ** a single group *)
  Definition emul (k : Z) (A B : efun) : efun := fun i j => sum (zrange 0 (2 ^ k)) (fun l => (A i l * B l j)%r).

  Lemma fentry_1 n g e r c : fentry n [(g, e)] r c = if agree_off n g r c then e (reg n g r) (reg n g c) else 0%r.
  Proof.
    unfold fentry, fprod. cbn [map concat fst snd]. rewrite app_nil_r.
    destruct (agree_off n g r c); auto. cbn [prod fst snd]. ring.
  Qed.

  Lemma fentry_same1 n g A B :
    0 <= n -> qubits_ok n g ->
    meq n (mcomp n (fentry n [(g, A)]) (fentry n [(g, B)])) (fentry n [(g, emul (zlen g) A B)]).
  Proof.
    intros Hn Hg r d Hr Hd. unfold mcomp.
    rewrite (sum_columns n g r) by (auto; intros c Hc E; rewrite fentry_1, E; ring).
    rewrite fentry_1. destruct (agree_off n g r d) eqn:E.
    - unfold emul. apply sum_ext. intros i Hi. apply in_zrange in Hi. rewrite !fentry_1, setreg_agree.
      rewrite reg_setreg by auto.
      replace (agree_off n g (setreg n g r i) d) with true; auto. symmetry. apply agree_off_spec.
      intros q Hq Hn'. rewrite qbit_setreg_out by auto. apply (proj1 (agree_off_spec _ _ _ _) E); auto.
    - apply sum_zero. intros i Hi. rewrite !fentry_1.
      destruct (agree_off n g (setreg n g r i) d) eqn:E2; [|ring].
      exfalso. rewrite (proj2 (agree_off_spec n g r d)) in E; [discriminate|].
      intros q Hq Hn'. rewrite <- (proj1 (agree_off_spec _ _ _ _) E2) by auto. symmetry. apply qbit_setreg_out; auto.
  Qed.

  (** ** same disjoint groups, composed matrix by matrix *)
  Definition gA (t : list Z * (efun * efun)) := (fst t, fst (snd t)).
  Definition gB (t : list Z * (efun * efun)) := (fst t, snd (snd t)).
  Definition gAB (t : list Z * (efun * efun)) := (fst t, emul (zlen (fst t)) (fst (snd t)) (snd (snd t))).

  Lemma qs_map {X} (f : X -> list Z * efun) (h : X -> list Z) l :
    (forall x, fst (f x) = h x) -> qs (map f l) = concat (map h l).
  Proof. intros H. rewrite map_map. f_equal. apply map_ext. auto. Qed.

  Lemma fentry_same n ts :
    0 <= n -> qubits_ok n (concat (map fst ts)) ->
    meq n (mcomp n (fentry n (map gA ts)) (fentry n (map gB ts))) (fentry n (map gAB ts)).
  Proof.
    intros Hn. induction ts as [|t ts IH]; intros HQ.
    - cbn [map]. intros r d Hr Hd. unfold mcomp. 
      rewrite (sum_columns n [] r).
      + cbn [zlen length Z.of_nat]. change (2 ^ zlen []) with 1.
        change (zrange 0 1) with [0]. cbn [sum].
        assert (setreg n [] r 0 = r) as -> by (apply (setreg_reg n [] r r); auto; (split; [constructor|intros q []])).
        unfold fentry, fprod. cbn [map concat prod].
        rewrite (proj2 (agree_off_spec n [] r r)) by auto. destruct (agree_off n [] r d); ring.
      + auto.
      + split; [constructor|intros q []].
      + intros c Hc E. unfold fentry. cbn [map concat]. rewrite E. ring.
    - cbn [map concat] in HQ. destruct HQ as [ND HQ]. apply NoDup_app_inv in ND as (ND1 & ND2 & Hdis).
      assert (HQ1 : qubits_ok n (fst t)).
      { split; [auto|]. intros; apply HQ, in_app_iff; auto. }
      assert (HQ2 : qubits_ok n (concat (map fst ts))).
      { split; [auto|]. intros; apply HQ, in_app_iff; auto. }
      specialize (IH HQ2).
      assert (D : forall (f h : list Z * (efun * efun) -> list Z * efun),
        (forall x, fst (f x) = fst x) -> (forall x, fst (h x) = fst x) ->
        meq n (mcomp n (fentry n [f t]) (fentry n (map h ts))) (fentry n (f t :: map h ts))).
      { intros f h Hf Hh. apply (fentry_disjoint n [f t] (map h ts)); auto.
        - cbn [map concat]. rewrite app_nil_r, Hf. exact (proj2 HQ1).
        - rewrite (qs_map h fst) by auto. exact (proj2 HQ2).
        - cbn [map concat]. rewrite app_nil_r, Hf. rewrite (qs_map h fst) by auto. auto. }
      assert (D' : meq n (mcomp n (fentry n (map gA ts)) (fentry n [gB t])) (mcomp n (fentry n [gB t]) (fentry n (map gA ts)))).
      { eapply meq_trans; [apply fentry_disjoint; auto|].
        - rewrite (qs_map gA fst) by auto. exact (proj2 HQ2).
        - cbn [map concat]. rewrite app_nil_r. exact (proj2 HQ1).
        - cbn [map concat]. rewrite app_nil_r, (qs_map gA fst) by auto. intros q Hq Hq'. apply (Hdis q); auto.
        - eapply meq_trans; [|apply meq_sym, D; auto].
          intros r c _ _. apply fentry_perm. apply Permutation_sym, Permutation_cons_append. }
      cbn [map].
      eapply meq_trans; [apply mcomp_ext; apply meq_sym, D; auto|].
      eapply meq_trans; [apply mcomp_assoc|].
      eapply meq_trans; [apply mcomp_ext; [apply meq_refl|apply meq_sym, mcomp_assoc]|].
      eapply meq_trans; [apply mcomp_ext; [apply meq_refl|apply mcomp_ext; [exact D'|apply meq_refl]]|].
      eapply meq_trans; [apply mcomp_ext; [apply meq_refl|apply mcomp_assoc]|].
      eapply meq_trans; [apply meq_sym, mcomp_assoc|].
      eapply meq_trans; [apply mcomp_ext; [|exact IH]|].
      + destruct t as [g [A B]]. apply fentry_same1; auto.
      + apply (D gAB gAB); auto.
  Qed.

  Lemma fentry_ext n gs gs' r c :
    Forall2 (fun ge ge' => fst ge = fst ge' /\ forall i j, 0 <= i < 2 ^ zlen (fst ge) -> 0 <= j < 2 ^ zlen (fst ge) ->
      snd ge i j = snd ge' i j) gs gs' -> fentry n gs r c = fentry n gs' r c.
  Proof.
    intros H. unfold fentry. replace (concat (map fst gs')) with (concat (map fst gs)).
    - destruct (agree_off _ _ _ _); auto. unfold fprod.
      induction H as [|ge ge' gs gs' [E1 E2] H IH]; auto. cbn [prod]. rewrite IH. f_equal.
      rewrite <- E1. apply E2; apply reg_range.
    - induction H as [|ge ge' gs gs' [E1 E2] H IH]; auto. cbn [map concat]. rewrite IH, E1. auto.
  Qed.

  (** identity matrices *)
  Lemma fentry_delta n gs :
    0 <= n -> meq n (fentry n (map (fun g => (g, delta)) gs)) delta.
  Proof.
    intros Hn r c Hr Hc. unfold fentry. rewrite (qs_map (fun g => (g, delta)) (fun g => g)) by auto.
    rewrite map_id. unfold fprod. rewrite prod_map. cbn [fst snd]. unfold delta at 2. destruct (Z.eqb_spec r c) as [->|Hne].
    - rewrite (proj2 (agree_off_spec n (concat gs) c c)) by auto. apply prod_1.
      intros g _. unfold delta. rewrite Z.eqb_refl. auto.
    - destruct (agree_off n (concat gs) r c) eqn:E; auto.
      destruct (existsb (fun g => negb (reg n g r =? reg n g c)) gs) eqn:Ex.
      + apply existsb_exists in Ex as (g & Hg & Eg). apply (prod_zero _ _ g); auto. unfold delta.
        destruct (_ =? _); auto; discriminate.
      + exfalso. apply Hne. apply (qbit_ext n); auto. intros q Hq.
        destruct (in_dec Z.eq_dec q (concat gs)) as [Hi|Hi].
        * apply in_concat in Hi as (g & Hg & Hi). apply (reg_inj n g); auto.
          assert (existsb (fun g => negb (reg n g r =? reg n g c)) gs <> true) as Hx by congruence.
          destruct (Z.eqb_spec (reg n g r) (reg n g c)); auto. exfalso. apply Hx. apply existsb_exists.
          exists g. split; auto. destruct (Z.eqb_spec (reg n g r) (reg n g c)); auto.
        * apply (proj1 (agree_off_spec _ _ _ _) E); auto.
  Qed.

  (** ** adjoints and inner products *)
  Definition econj (A : efun) : efun := fun i j => cconj (A j i).
  Definition gdag (ge : list Z * efun) := (fst ge, econj (snd ge)).

  Lemma cconj_prod {I} (l : list I) (f : I -> C) : cconj (prod l f) = prod l (fun i => cconj (f i)).
  Proof.
    induction l as [|a l IH]; [apply cconj_1|]. cbn [prod]. rewrite cconj_mul, IH. auto.
  Qed.
  Lemma fentry_dag n gs r c : fentry n (map gdag gs) r c = cconj (fentry n gs c r).
  Proof.
    unfold fentry. rewrite (qs_map gdag fst) by auto.
    replace (agree_off n (qs gs) c r) with (agree_off n (qs gs) r c).
    - destruct (agree_off n (qs gs) r c); [|symmetry; apply cconj_0].
      unfold fprod. rewrite cconj_prod, prod_map. reflexivity.
    - apply eq_true_iff_eq. rewrite !agree_off_spec. split; intros H q Hq Hn; symmetry; auto.
  Qed.

  (** inner product of two vectors *)
  Definition inner n (v w : Z -> C) : C := sum (zrange 0 (2 ^ n)) (fun r => (cconj (v r) * w r)%r).

  Lemma inner_ext n v v' w w' :
    (forall r, 0 <= r < 2 ^ n -> v r = v' r) -> (forall r, 0 <= r < 2 ^ n -> w r = w' r) ->
    inner n v w = inner n v' w'.
  Proof. intros H1 H2. apply sum_ext. intros r Hr. apply in_zrange in Hr. rewrite H1, H2; auto. Qed.

  Lemma inner_adjoint n X v w :
    inner n (mapply n X v) w = inner n v (mapply n (econj X) w).
  Proof.
    unfold inner, mapply, econj.
    transitivity (sum (zrange 0 (2^n)) (fun r => sum (zrange 0 (2^n)) (fun c => (cconj (X r c) * cconj (v c) * w r)%r))).
    - apply sum_ext. intros r _. rewrite sum_cconj, <- sum_mul_r. apply sum_ext. intros. rewrite cconj_mul. auto.
    - rewrite sum_swap. apply sum_ext. intros c _. rewrite <- sum_mul_l. apply sum_ext. intros. ring.
  Qed.
End Alg.
