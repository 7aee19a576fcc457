(** Splitting, sinks. *)
From Coq Require Import Sorted.
From Verif Require Import Base S_Bits L_Bits M_Kron M_Ops S_Ops M_Feed M_Func M_Measure M_Graph S_Graph L_Graph1 L_Graph2 L_Graph3.

Lemma zmem_In x l : zmem x l = true <-> In x l.
Proof.
  unfold zmem. rewrite existsb_exists. split.
  - intros (y & Hy & E). apply Z.eqb_eq in E. subst; auto.
  - intros H. exists x. split; auto. apply Z.eqb_refl.
Qed.
Lemma zmem_false x l : zmem x l = false <-> ~ In x l.
Proof. rewrite <- zmem_In. destruct (zmem x l); split; intros; congruence. Qed.

Section Split.
  Context {K : Type} {OK : OrdRing K}.
  Implicit Types h : heap K.

  Lemma sinks_total self : forall inputs h, is_qubit (nd_kind (nd h self)) = false ->
    exists h', sfold (fun h item => set_sink h item self) inputs h = (h', Ok tt).
  Proof.
    induction inputs as [|i l IH]; intros h Hk; cbn [sfold]; eauto. unfold set_sink. rewrite Hk. cbn [sbind]. apply IH.
    pose proof (core_add_sink h i self self) as E. unfold core in E. injection E as E _ _ _ _. rewrite E. auto.
  Qed.
  Lemma new_node_total h k inputs n qid nosink : is_qubit k = false ->
    0 < match n with Some n => n | None => match inputs with [] => 1 | _ => sum_n h inputs end end ->
    exists h', new_node h k inputs n qid nosink None = (h', Ok (size h)).
  Proof.
    intros Hk Hn. unfold new_node. rewrite (proj2 (Z.leb_gt _ _) Hn).
    destruct (match qid with Some q => (q, h_qid h) | None => (h_qid h, h_qid h + 1) end) as [q nx].
    destruct nosink; [eauto|].
    match goal with |- context [sfold _ inputs ?H] => destruct (sinks_total (size h) inputs H) as (h' & ->) end.
    - unfold nd, size. cbn [h_nodes]. rewrite nth_middle. auto.
    - cbn [sbind]. eauto.
  Qed.
  Lemma new_node_neg h k inputs n qid nosink :
    match n with Some n => n | None => match inputs with [] => 1 | _ => sum_n h inputs end end <= 0 ->
    new_node h k inputs n qid nosink None = (h, Raise GenericException).
  Proof. intros Hn. unfold new_node. rewrite (proj2 (Z.leb_le _ _) Hn). auto. Qed.

  Lemma split_loop_total self : forall bounds h qid qs, StronglySorted Z.lt bounds ->
    exists h' ids, split_loop h self bounds qid qs = (h', Ok ids).
  Proof.
    induction bounds as [|s [|e rest] IH]; intros h qid qs Hs; cbn [split_loop]; eauto.
    inversion Hs as [|a l H1 H2]; subst. assert (s < e) by (inversion H2; auto).
    destruct (new_node_total h (KSplit (zrange s e)) [self] (Some (zlen (zrange s e))) qid false eq_refl) as (h1 & E1).
    { rewrite zlen_zrange; lia. }
    unfold new_split. rewrite E1. cbn [sbind]. apply IH. auto.
  Qed.
  (** pieces between increasing boundaries *)
  Lemma chunks_spec : forall bounds a z, StronglySorted Z.lt bounds -> hd a bounds = a -> last bounds a = z -> bounds <> [] ->
    concat (chunks bounds) = zrange a z /\ (forall p, In p (chunks bounds) -> p <> []) /\
    forall x, In x (map (hd 0) (chunks bounds)) <-> In x bounds /\ x <> z.
  Proof.
    induction bounds as [|s [|e rest] IH]; intros a z Hs Ha Hz Hne; [congruence| |].
    - cbn in Ha, Hz. subst s z. cbn [chunks concat map]. rewrite zrange_empty by lia. split; auto. split; [intros p []|].
      intros x. cbn. intuition congruence.
    - cbn [hd] in Ha. subst s. inversion Hs as [|s' l' H1 H2]; subst. assert (Hlt : a < e) by (inversion H2; auto).
      assert (HL : last (e :: rest) e = last (e :: rest) a).
      { clear. generalize e at 2 as d. revert e. induction rest as [|x rest IH]; intros e d; auto.
        change (last (x :: rest) d = last (x :: rest) a). apply IH. }
      destruct (IH e (last (e :: rest) a) H1 eq_refl HL ltac:(discriminate)) as (I1 & I2 & I3).
      change (chunks (a :: e :: rest)) with (zrange a e :: chunks (e :: rest)).
      assert (Hle : e <= last (e :: rest) a).
      { clear - H1. revert a e H1. induction rest as [|x rest IH]; intros a e H1; [cbn; lia|].
        inversion H1 as [|s' l' H3 H4]; subst. assert (e < x) by (inversion H4; auto).
        change (last (e :: x :: rest) a) with (last (x :: rest) a). specialize (IH a x H3). lia. }
      change (last (a :: e :: rest) a) with (last (e :: rest) a).
      split; [|split].
      + cbn [concat]. rewrite I1. rewrite <- zrange_app; auto; lia.
      + intros p [<-|Hp]; auto. rewrite zrange_cons by lia. discriminate.
      + intros x. cbn [map In]. rewrite I3. rewrite (zrange_cons a e) by lia. cbn [hd]. split.
        * intros [<-|[Hx Hne']]; [split; auto; lia|]. split; auto.
        * intros [[<-|Hx] Hne']; auto.
  Qed.

  Lemma sorted_nodup_lt l : StronglySorted Z.le l -> NoDup l -> StronglySorted Z.lt l.
  Proof.
    induction 1 as [|a l H IH HF]; intros Hd; constructor; inversion Hd; subst; auto.
    rewrite Forall_forall in *. intros x Hx. specialize (HF x Hx). assert (x <> a) by congruence. lia.
  Qed.
  Lemma last_app_one {A} (l : list A) x d : last (l ++ [x]) d = x.
  Proof. induction l as [|a l IH]; auto. cbn [app last]. destruct (l ++ [x]) eqn:E; auto. destruct l; discriminate. Qed.
  Lemma sorted_last l d : StronglySorted Z.lt l -> forall x, In x l -> x <= last l d.
  Proof.
    induction 1 as [|a l H IH HF]; intros x Hi; [destruct Hi|]. destruct Hi as [<-|Hx].
    - destruct l as [|b l]; [cbn; lia|]. change (last (a :: b :: l) d) with (last (b :: l) d).
      rewrite Forall_forall in HF. pose proof (HF b (or_introl eq_refl)). specialize (IH b (or_introl eq_refl)). lia.
    - destruct l as [|b l]; [destruct Hx|]. change (last (a :: b :: l) d) with (last (b :: l) d). auto.
  Qed.
  Lemma last_In (l : list Z) d : l <> [] -> In (last l d) l.
  Proof. induction l as [|a l IH]; [congruence|]. intros _. destruct l as [|b l]; [left; auto|]. right. apply IH. discriminate. Qed.

  (** the boundaries qip/qip.py:62-65 makes out of increasing numbers between 0 and n *)
  Lemma bounds_ok n l : 0 < n -> StronglySorted Z.lt l -> (forall x, In x l -> 0 <= x <= n) ->
    let l1 := if zmem 0 l then l else 0 :: l in let l2 := if zmem n l1 then l1 else l1 ++ [n] in
    StronglySorted Z.lt l2 /\ hd 0 l2 = 0 /\ last l2 0 = n /\ l2 <> [] /\ forall x, In x l2 <-> In x l \/ x = 0 \/ x = n.
  Proof.
    intros Hn Hs Hr. cbv zeta. set (l1 := if zmem 0 l then l else 0 :: l).
    assert (S1 : StronglySorted Z.lt l1 /\ hd 0 l1 = 0 /\ l1 <> [] /\ forall x, In x l1 <-> In x l \/ x = 0).
    { unfold l1. destruct (zmem 0 l) eqn:E.
      - apply zmem_In in E. split; auto. destruct l as [|a l]; [destruct E|]. split; [|split; [discriminate|intros x; split; [auto|intros [?| ->]; auto]]].
        cbn. destruct E as [->|E]; auto. inversion Hs as [|a' l' H1 H2]; subst. rewrite Forall_forall in H2. specialize (H2 0 E).
        specialize (Hr a (or_introl eq_refl)). lia.
      - apply zmem_false in E. split; [|split; [auto|split; [discriminate|intros x; cbn; intuition]]].
        constructor; auto. rewrite Forall_forall. intros x Hx. specialize (Hr x Hx). assert (x <> 0) by congruence. lia. }
    destruct S1 as (S1 & H1 & N1 & I1). clearbody l1. destruct (zmem n l1) eqn:E.
    - apply zmem_In in E. do 2 (split; [auto|]). split; [|split; [auto|]].
      + pose proof (sorted_last l1 0 S1 n E). pose proof (last_In l1 0 N1) as HL. apply I1 in HL. destruct HL as [HL|HL]; [specialize (Hr _ HL)|]; lia.
      + intros x. rewrite I1. split; [tauto|]. intros [?|[?| ->]]; auto. apply I1; auto.
    - apply zmem_false in E. assert (Hlt : forall x, In x l1 -> x < n).
      { intros x Hx. assert (x <> n) by congruence. apply I1 in Hx. destruct Hx as [Hx|Hx]; [specialize (Hr x Hx)|]; lia. }
      split; [|split; [|split; [apply last_app_one|split]]].
      + clear - S1 Hlt. induction S1 as [|a l H IH HF]; cbn [app]; [repeat constructor|].
        constructor; [apply IH; intros x Hx; apply Hlt; right; auto|]. apply Forall_app. split; auto. constructor; auto. apply Hlt. left; auto.
      + destruct l1; [congruence|]. auto.
      + destruct l1; discriminate.
      + intros x. rewrite in_app_iff, I1. cbn. intuition.
  Qed.

  Lemma split_indices h vis self l : wf h vis -> In self vis -> 0 < width h self -> NoDup l -> (forall x, In x l -> 0 <= x <= width h self) ->
    exists h' ids pieces, split h self (Some l) = (h', Ok ids) /\ Forall2 (selects h' self) pieces ids /\
      (forall i, In i ids -> (size h <= i)%nat) /\
      concat pieces = zrange 0 (width h self) /\ (forall p, In p pieces -> p <> []) /\
      forall x, In x (map (hd 0) pieces) <-> x = 0 \/ (In x l /\ x <> width h self).
  Proof.
    intros W Hv Hn Hd Hr. unfold split. cbn [split_bounds]. set (s := sort_by (fun x => x) l).
    assert (Ps : Permutation s l) by apply sort_perm.
    assert (Ss : StronglySorted Z.lt s).
    { apply sorted_nodup_lt; [exact (sort_sorted (fun x => x) l)|]. eapply Permutation_NoDup; [symmetry; exact Ps|auto]. }
    assert (Hrs : forall x, In x s -> 0 <= x <= width h self) by (intros x Hx; apply Hr; eapply Permutation_in; eauto).
    destruct (bounds_ok (width h self) s Hn Ss Hrs) as (B1 & B2 & B3 & B4 & B5). unfold width in *.
    set (l1 := if zmem 0 s then s else 0 :: s) in *. set (l2 := if zmem (nd_n (nd h self)) l1 then l1 else l1 ++ [nd_n (nd h self)]) in *.
    destruct (split_loop_total self l2 h None [] B1) as (h' & ids & E).
    pose proof E as E'. eapply split_loop_ok in E'; eauto; [|exact I]. destruct E' as (_ & _ & F).
    destruct (F ids eq_refl) as (new & -> & _ & Hnew & HF). cbn [app] in *.
    exists h', new, (chunks l2). split; auto. split; [exact HF|]. split; auto.
    destruct (chunks_spec l2 0 (nd_n (nd h self)) B1 B2 B3 B4) as (C1 & C2 & C3). do 2 (split; [auto|]).
    intros x. rewrite C3, B5. split.
    - intros [[Hx|[Hx|Hx]] Hne]; auto; try congruence. right. split; auto. eapply Permutation_in; eauto.
    - intros [->|[Hx Hne]]; [split; [auto|lia]|]. split; auto. left. eapply Permutation_in; [symmetry|]; eauto.
  Qed.

  (** boundaries taken from the inputs *)
  Fixpoint sums (k : Z) (ws : list Z) : list Z := match ws with [] => [] | x :: ws => k + x :: sums (k + x) ws end.
  Lemma sums_fold h l : forall k acc, snd (fold_left (fun '(index, l) q => (index + nd_n (nd h q), l ++ [nd_n (nd h q) + index])) l (k, acc))
    = acc ++ sums k (map (width h) l).
  Proof.
    induction l as [|a l IH]; intros k acc; cbn [fold_left map sums]; [cbn; rewrite app_nil_r; auto|].
    rewrite IH, <- app_assoc. cbn [app]. rewrite (Z.add_comm (nd_n (nd h a)) k). reflexivity.
  Qed.
  Lemma sums_sorted ws : forall k, (forall x, In x ws -> 0 < x) -> StronglySorted Z.lt (sums k ws) /\ forall y, In y (sums k ws) -> k < y.
  Proof.
    induction ws as [|x ws IH]; intros k Hp; cbn [sums]; [split; [constructor|intros y []]|].
    pose proof (Hp x (or_introl eq_refl)). destruct (IH (k + x)) as [I1 I2]; [intros; apply Hp; right; auto|]. split.
    - constructor; auto. rewrite Forall_forall. auto.
    - intros y [<-|Hy]; [lia|]. specialize (I2 y Hy). lia.
  Qed.
  Lemma sums_last ws : forall k d, ws <> [] -> last (sums k ws) d = k + fold_right Z.add 0 ws.
  Proof.
    induction ws as [|x ws IH]; intros k d Hne; [congruence|]. destruct ws as [|y ws]; [cbn; lia|].
    change (sums k (x :: y :: ws)) with (k + x :: k + x + y :: sums (k + x + y) ws).
    change (last (k + x :: k + x + y :: sums (k + x + y) ws) d) with (last (sums (k + x) (y :: ws)) d).
    rewrite IH by discriminate. cbn. lia.
  Qed.
  Lemma chunks_sums ws : forall k, (forall x, In x ws -> 0 < x) -> map zlen (chunks (k :: sums k ws)) = ws.
  Proof.
    induction ws as [|x ws IH]; intros k Hp; auto. cbn [sums]. pose proof (Hp x (or_introl eq_refl)).
    change (chunks (k :: k + x :: sums (k + x) ws)) with (zrange k (k + x) :: chunks (k + x :: sums (k + x) ws)).
    cbn [map]. rewrite zlen_zrange by lia. f_equal; [lia|]. apply IH. intros; apply Hp; right; auto.
  Qed.
  Lemma sum_fold_right h l : fold_right Z.add 0 (map (width h) l) = widths h l.
  Proof. induction l as [|a l IH]; cbn; auto. rewrite IH. auto. Qed.

  Lemma split_inputs h vis self : wf h vis -> In self vis -> (length (inputs_of h self) >= 2)%nat ->
    (forall i, In i (inputs_of h self) -> 0 < width h i) ->
    exists h' ids pieces, split h self None = (h', Ok ids) /\ Forall2 (selects h' self) pieces ids /\
      (forall i, In i ids -> (size h <= i)%nat) /\
      map zlen pieces = map (width h) (inputs_of h self) /\ concat pieces = zrange 0 (width h self).
  Proof.
    intros W Hv Hl Hp. pose proof (wf_vis _ _ W self Hv) as Hsz. unfold split, split_bounds.
    rewrite sums_fold. cbn [app]. fold (inputs_of h self). set (ws := map (width h) (inputs_of h self)).
    assert (Hpw : forall x, In x ws -> 0 < x) by (intros x Hx; apply in_map_iff in Hx; destruct Hx as (i & <- & Hi); auto).
    assert (Hlen : (length ws >= 2)%nat) by (unfold ws; rewrite map_length; auto).
    assert (Hws : ws <> []) by (destruct ws; [cbn in Hlen; lia|discriminate]).
    assert (Es : zlen (sums 0 ws) <> 1).
    { assert (G : forall l k, length (sums k l) = length l) by (induction l; intros; cbn; auto). unfold zlen. rewrite G. lia. }
    rewrite (proj2 (Z.eqb_neq _ _) Es).
    assert (Hnk : forall p, nd_kind (nd h self) <> KSplit p).
    { intros p Hk. pose proof (wf_kind _ _ W self Hv) as Ho. unfold kind_ok in Ho. rewrite Hk in Ho. destruct Ho as (q & Hq). rewrite Hq in Hl. cbn in Hl. lia. }
    assert (Hn : nd_n (nd h self) = fold_right Z.add 0 ws).
    { unfold ws. rewrite sum_fold_right, <- sum_n_widths. rewrite (wf_n _ (wf_base _ _ W) self Hsz).
      - destruct (nd_kind (nd h self)) as [|p| | | |]; auto. exfalso. eapply Hnk; eauto.
      - destruct (inputs_of h self); [cbn in Hl; lia|discriminate]. }
    destruct (sums_sorted ws 0 Hpw) as [S1 S2].
    assert (E0 : zmem 0 (sums 0 ws) = false) by (apply zmem_false; intros H; specialize (S2 0 H); lia). rewrite E0.
    assert (En : zmem (nd_n (nd h self)) (0 :: sums 0 ws) = true).
    { apply zmem_In. right. rewrite Hn. rewrite <- (Z.add_0_l (fold_right Z.add 0 ws)), <- (sums_last ws 0 0 Hws). apply last_In. destruct ws; [congruence|discriminate]. }
    rewrite En. assert (B1 : StronglySorted Z.lt (0 :: sums 0 ws)) by (constructor; auto; apply Forall_forall; auto).
    destruct (split_loop_total self (0 :: sums 0 ws) h None [] B1) as (h' & ids & E).
    pose proof E as E'. eapply split_loop_ok in E'; eauto; [|exact I]. destruct E' as (_ & _ & F).
    destruct (F ids eq_refl) as (new & -> & _ & Hnew & HF). cbn [app] in *.
    exists h', new, (chunks (0 :: sums 0 ws)). split; auto. split; [exact HF|]. split; auto. split; [apply chunks_sums; auto|].
    destruct (chunks_spec (0 :: sums 0 ws) 0 (nd_n (nd h self)) B1 eq_refl) as (C1 & _); auto; [|discriminate].
    rewrite Hn. rewrite <- (Z.add_0_l (fold_right Z.add 0 ws)), <- (sums_last ws 0 0 Hws). destruct (sums 0 ws) eqn:Ez; auto.
  Qed.
  Lemma split_one h vis self q : wf h vis -> In self vis -> inputs_of h self = [q] -> split h self None = (h, Ok [self]).
  Proof. intros _ _ E. unfold split, split_bounds. unfold inputs_of in E. rewrite E. reflexivity. Qed.
  Lemma split_fresh h vis self : wf h vis -> In self vis -> inputs_of h self = [] -> 0 < width h self ->
    exists h' id, split h self None = (h', Ok [id]) /\ selects h' self (zrange 0 (width h self)) id.
  Proof.
    intros W Hv E Hp. unfold split, split_bounds. unfold inputs_of in E. rewrite E. cbn [fold_left snd zlen].
    change (zlen [] =? 1) with false. cbn iota. change (zmem 0 []) with false. cbn iota. unfold width in *.
    assert (Em : zmem (nd_n (nd h self)) [0] = false) by (apply zmem_false; intros [H|[]]; lia). rewrite Em. cbn [app].
    assert (B1 : StronglySorted Z.lt [0; nd_n (nd h self)]) by (repeat constructor; lia).
    destruct (split_loop_total self [0; nd_n (nd h self)] h None [] B1) as (h' & ids & E').
    pose proof E' as E2. eapply split_loop_ok in E2; eauto; [|exact I]. destruct E2 as (_ & _ & F).
    destruct (F ids eq_refl) as (new & -> & _ & Hnew & HF). cbn [app chunks] in *. inversion HF as [|p i ps l Hs Hn]; subst.
    inversion Hn; subst. exists h', i. split; auto.
  Qed.

  (** duplicates make an empty piece, which raises *)
  Lemma extract_total h vis self l : wf h vis -> In self vis -> NoDup l -> (forall x, In x l -> 0 <= x < width h self) -> l <> [] ->
    (exists x, 0 <= x < width h self /\ ~ In x l) ->
    exists h' sq qs, extract_index h self (IList l) = (h', Ok [sq; qs]) /\ (size h <= sq < qs)%nat /\
      selects h' self l sq /\ selects h' self (filter (fun i => negb (existsb (Z.eqb i) l)) (zrange 0 (width h self))) qs.
  Proof.
    intros W Hv Hd Hr Hne (x & Hx & Hni). destruct (extract_index h self (IList l)) as [h' r] eqn:E.
    assert (F1 : filter (fun i => (0 <=? i) && (i <? nd_n (nd h self))) l = l).
    { clear - Hr. unfold width in Hr. induction l as [|a l IH]; auto. cbn [filter]. specialize (Hr a (or_introl eq_refl)) as Ha.
      replace ((0 <=? a) && (a <? nd_n (nd h self))) with true by (symmetry; apply andb_true_iff; split; [apply Z.leb_le|apply Z.ltb_lt]; lia).
      f_equal. apply IH. intros; apply Hr; right; auto. }
    assert (F2 : filter (fun i => negb (zmem i l) && ((0 <=? i) && (i <? nd_n (nd h self)))) (zrange 0 (nd_n (nd h self)))
      = filter (fun i => negb (existsb (Z.eqb i) l)) (zrange 0 (width h self))).
    { apply filter_ext_in. intros i Hi. apply in_zrange in Hi. unfold zmem.
      unfold width in Hi.       rewrite (proj2 (Z.leb_le 0 i)), (proj2 (Z.ltb_lt i _)) by lia. apply andb_true_r. }
    assert (Hok : exists ids, r = Ok ids /\ exists sq qs, ids = [sq; qs] /\ (size h <= sq < qs)%nat).
    { cbn [extract_index] in E. cbv zeta in E. rewrite F1, F2 in E. unfold new_split in E.
      destruct (new_node_total h (KSplit l) [self] (Some (zlen l)) None false eq_refl) as (h1 & E1).
      { destruct l; [congruence|]. rewrite zlen_cons. pose proof (zlen_nonneg l). lia. }
      rewrite E1 in E. cbn [sbind] in E. set (rest := filter _ _) in E.
      destruct (new_node_total h1 (KSplit rest) [self] (Some (zlen rest)) (Some (nd_qid (nd h1 (size h)))) false eq_refl) as (h2 & E2).
      { assert (Hin : In x rest). { apply filter_In. split; [apply in_zrange; auto|]. apply negb_true_iff.
          destruct (existsb (Z.eqb x) l) eqn:Ex; auto. exfalso. apply existsb_exists in Ex. destruct Ex as (y & Hy & Exy). apply Z.eqb_eq in Exy. subst; auto. }
        destruct rest; [destruct Hin|]. rewrite zlen_cons. pose proof (zlen_nonneg rest). lia. }
      rewrite E2 in E. cbn [sbind] in E. inversion E; subst. eexists. split; [reflexivity|]. do 2 eexists. split; [reflexivity|].
      destruct (new_split_ok h vis self l None h1 (Ok (size h)) W Hv I (fun _ _ => I) E1) as (_ & _ & F). 
      destruct (F _ eq_refl) as (_ & _ & Sz & _). lia. }
    destruct Hok as (ids & -> & sq & qs & -> & Hsz).
    destruct (extract_ok h vis self (IList l) h' _ W Hv E) as (_ & _ & F). destruct (F _ eq_refl) as (_ & l' & sq' & qs' & El & Ei & S1 & S2).
    inversion El; subst l'. inversion Ei; subst sq' qs'. rewrite F1 in S1. rewrite F2 in S2. exists h', sq, qs. auto.
  Qed.
End Split.
