(** Pictures can be read. *)
From Coq Require Import Ascii String.
From Verif Require Import Base M_Kron M_Ops M_Graph S_Graph M_Print S_Print L_Print.
Open Scope Z_scope.

Section Readable.
  Variables (n w s : Z).
  Hypothesis Hw : 1 <= w.
  Hypothesis Hs : 0 <= s.

  Lemma cell_len indices r q : zlen (cell w indices r q) = 2 * w + 1.
  Proof.
    unfold cell, centred, zlen. destruct (position q indices); [destruct r|]; cbn [List.length]; rewrite ?app_length, ?repeat_length; cbn [List.length app]; rewrite ?app_length, ?repeat_length; cbn [List.length]; lia.
  Qed.
  Lemma separated_len c l : (forall x, In x l -> zlen x = c) -> zlen (separated (repeat " "%char (Z.to_nat s)) l) = zlen l * c + Z.max 0 (zlen l - 1) * s.
  Proof.
    induction l as [|x l IH]; intros H; [reflexivity|]. cbn [separated]. destruct l as [|y l].
    - rewrite (H x) by (left; reflexivity). change (zlen [x]) with 1. lia.
    - rewrite !zlen_app. rewrite IH by (intros z Hz; apply H; right; exact Hz). rewrite (H x) by (left; reflexivity). rewrite !zlen_cons. unfold zlen at 1. rewrite repeat_length. pose proof (zlen_nonneg l).
      rewrite !Z.max_r by lia. rewrite Z2Nat.id by exact Hs. ring.
  Qed.
  Lemma line_len indices r : 0 <= n -> zlen (line n w s indices r) = n * (2 * w + 1) + Z.max 0 (n - 1) * s.
  Proof.
    intros Hn. unfold line. rewrite (separated_len (2 * w + 1)).
    - rewrite zlen_map, zlen_zrange by lia. rewrite Z.sub_0_r. reflexivity.
    - intros x Hx. apply in_map_iff in Hx. destruct Hx as (q & <- & _). apply cell_len.
  Qed.
  Lemma picture_lens op x : 0 <= n -> In x (picture n w s op) -> zlen x = n * (2 * w + 1) + Z.max 0 (n - 1) * s.
  Proof. intros Hn Hx. unfold picture in Hx. apply in_map_iff in Hx. destruct Hx as (r & <- & _). apply line_len, Hn. Qed.

  Lemma app_same {A} (a b c d : list A) : zlen a = zlen b -> a ++ c = b ++ d -> a = b /\ c = d.
  Proof.
    unfold zlen. revert b. induction a as [|x a IH]; intros [|y b] H E; cbn in H, E; try lia; [auto|]. inversion E; subst. destruct (IH b ltac:(lia) H2) as [-> ->]. auto.
  Qed.
  Lemma separated_inj c : forall l1 l2, (forall x, In x (l1 ++ l2) -> zlen x = c) -> List.length l1 = List.length l2 ->
    separated (repeat " "%char (Z.to_nat s)) l1 = separated (repeat " "%char (Z.to_nat s)) l2 -> l1 = l2.
  Proof.
    induction l1 as [|x l1 IH]; intros [|y l2] H Hl E; try discriminate; [reflexivity|]. cbn [separated] in E. injection Hl as Hl.
    destruct l1 as [|x' l1], l2 as [|y' l2]; try discriminate; [subst; reflexivity|].
    apply app_same in E; [|rewrite (H x), (H y); [reflexivity|apply in_app_iff; right; left; reflexivity|left; reflexivity]]. destruct E as [-> E2]. apply app_inv_head in E2. f_equal. apply IH; auto.
    intros z Hz. apply H. apply in_app_iff in Hz. destruct Hz as [Hz|Hz]; [right; apply in_app_iff; auto|]. right. apply in_app_iff. right. right. exact Hz.
  Qed.
  Lemma line_inj i1 r1 i2 r2 q : line n w s i1 r1 = line n w s i2 r2 -> 0 <= q < n -> cell w i1 r1 q = cell w i2 r2 q.
  Proof.
    intros E Hq. unfold line in E. apply (separated_inj (2 * w + 1)) in E.
    - assert (X : znth [] (map (cell w i1 r1) (zrange 0 n)) q = znth [] (map (cell w i2 r2) (zrange 0 n)) q) by (rewrite E; reflexivity).
      rewrite !znth_map_zrange in X by lia. rewrite Z.add_0_l in X. exact X.
    - intros x Hx. apply in_app_iff in Hx. destruct Hx as [Hx|Hx]; apply in_map_iff in Hx; destruct Hx as (q' & <- & _); apply cell_len.
    - rewrite !map_length. reflexivity.
  Qed.

  (** the first character of a cell *)
  Definition first (indices : list Z) (r : row) (q : Z) : ascii := if position q indices then match r with RWires => " " | REdge => "-" | _ => "|" end else " ".
  Lemma cell_first indices r q : hd "x"%char (cell w indices r q) = first indices r q.
  Proof.
    unfold cell, first. destruct (Z.to_nat w) as [|m] eqn:E; [lia|]. destruct (Z.to_nat (2 * w + 1)) as [|m'] eqn:E'; [lia|]. destruct (position q indices); [destruct r|]; reflexivity.
  Qed.
  Lemma cell_box indices i q c (l : nat) r : position q indices = Some i -> r = RLetter c \/ (r = RDigit l /\ nth l (padded (zlen indices) i) " "%char = c) -> nth (Z.to_nat w) (cell w indices r q) "x"%char = c.
  Proof.
    intros E H. unfold cell. rewrite E. destruct H as [->|[-> H]]; unfold centred; [|rewrite H]; replace (Z.to_nat w) with (S (Z.to_nat (w - 1))) by lia; cbn [nth]; rewrite app_nth2; rewrite repeat_length; try lia; rewrite Nat.sub_diag; reflexivity.
  Qed.

  Lemma position_nodup l : NoDup l -> forall i, 0 <= i < zlen l -> position (znth 0 l i) l = Some i.
  Proof.
    induction 1 as [|x l Hx Hd IH]; intros i Hi; [unfold zlen in Hi; cbn in Hi; lia|]. rewrite zlen_cons in Hi. cbn [position]. destruct (Z.eq_dec i 0) as [->|Hne].
    - change (znth 0 (x :: l) 0) with x. rewrite Z.eqb_refl. reflexivity.
    - assert (E : znth 0 (x :: l) i = znth 0 l (i - 1)).
      { unfold znth. destruct (Z.ltb_spec i 0); [lia|]. destruct (Z.ltb_spec (i - 1) 0); [lia|]. replace (Z.to_nat i) with (S (Z.to_nat (i - 1))) by lia. reflexivity. }
      rewrite E. specialize (IH (i - 1) ltac:(lia)). destruct (Z.eqb_spec (znth 0 l (i - 1)) x) as [Ex|]; [|rewrite IH; cbn; f_equal; lia].
      exfalso. apply Hx. apply position_range in IH. destruct IH as [_ _]. rewrite <- Ex. unfold znth. destruct (Z.ltb_spec (i - 1) 0); [lia|]. apply nth_In. unfold zlen in Hi. lia.
  Qed.
  Lemma same_positions l1 l2 : NoDup l1 -> zlen l1 = zlen l2 -> (forall q, In q l1 -> position q l1 = position q l2) -> l1 = l2.
  Proof.
    intros Hd Hl H. apply list_eq_znth with (d := 0); [exact Hl|]. intros j Hj. assert (Hp := position_nodup l1 Hd j Hj).
    rewrite H in Hp. { apply position_range in Hp. symmetry. tauto. }
    unfold znth. destruct (Z.ltb_spec j 0); [lia|]. apply nth_In. unfold zlen in Hj. lia.
  Qed.

  Lemma padded_inj k i j : 0 <= i -> 0 <= j -> padded k i = padded k j -> i = j.
  Proof.
    intros Hi Hj E. assert (X : forall i, 0 <= i -> filter (fun c => 0 <=? digit_value c) (padded k i) = str_int i).
    { clear. intros i Hi. unfold padded. rewrite filter_app. assert (A : forall m, filter (fun c => 0 <=? digit_value c) (repeat " "%char m) = []) by (induction m; auto). rewrite A. cbn [app].
      assert (D := str_int_digits i Hi). induction (str_int i) as [|c l IH]; [reflexivity|]. cbn [filter]. destruct (Z.leb_spec 0 (digit_value c)) as [|H]; [f_equal; apply IH; intros; apply D; right; auto|].
      specialize (D c (or_introl eq_refl)). lia. }
    assert (Y : number (filter (fun c => 0 <=? digit_value c) (padded k i)) = number (filter (fun c => 0 <=? digit_value c) (padded k j))) by (rewrite E; reflexivity).
    rewrite !X in Y by assumption. rewrite !str_int_value in Y by assumption. exact Y.
  Qed.

  Definition inner (r : row) : Prop := match r with RLetter _ | RDigit _ => True | _ => False end.

  Lemma inner_eq i1 i2 q0 : In q0 i1 -> In q0 i2 -> 0 <= q0 < n -> forall R1 R2 t1 t2, (forall r, In r R1 -> inner r) -> (forall r, In r R2 -> inner r) ->
    map (line n w s i1) R1 ++ line n w s i1 REdge :: t1 = map (line n w s i2) R2 ++ line n w s i2 REdge :: t2 -> map (line n w s i1) R1 = map (line n w s i2) R2.
  Proof.
    intros H1 H2 Hq. destruct (position_in q0 i1 H1) as [p1 P1]. destruct (position_in q0 i2 H2) as [p2 P2].
    assert (X : forall i i' p p' r, position q0 i = Some p -> position q0 i' = Some p' -> inner r -> line n w s i r = line n w s i' REdge -> False).
    { intros i i' p p' r E E' Hr El. apply (line_inj _ _ _ _ q0) in El; [|exact Hq]. assert (F : first i r q0 = first i' REdge q0) by (rewrite <- !cell_first, El; reflexivity). unfold first in F. rewrite E, E' in F. destruct r; try destruct Hr; discriminate. }
    induction R1 as [|r1 R1 IH]; intros [|r2 R2] t1 t2 I1 I2 E; cbn [map app] in *; [reflexivity| | |].
    - exfalso. injection E as E _. symmetry in E. exact (X _ _ _ _ r2 P2 P1 (I2 _ (or_introl eq_refl)) E).
    - exfalso. injection E as E _. exact (X _ _ _ _ r1 P1 P2 (I1 _ (or_introl eq_refl)) E).
    - injection E as E E'. rewrite E. f_equal. eapply IH; [intros; apply I1; right; auto|intros; apply I2; right; auto|exact E'].
  Qed.

  Lemma picture_inj op1 op2 t1 t2 : op_fits n op1 -> op_fits n op2 -> picture n w s op1 ++ t1 = picture n w s op2 ++ t2 -> op1 = op2.
  Proof.
    destruct op1 as [n1 i1], op2 as [n2 i2]. intros (N1 & D1 & R1) (N2 & D2 & R2) E. cbn [snd] in *. unfold picture, rows in E. cbn [fst snd] in E. rewrite !map_app in E. cbn [map] in E. rewrite <- !app_assoc in E. cbn [app] in E.
    injection E as _ Ee E.
    assert (Hin : forall q, In q i1 <-> In q i2).
    { assert (Y : forall q, 0 <= q < n -> (position q i1 = None <-> position q i2 = None)).
      { intros q Hq. apply (line_inj _ _ _ _ q) in Ee; [|exact Hq]. assert (F : first i1 REdge q = first i2 REdge q) by (rewrite <- !cell_first, Ee; reflexivity). unfold first in F. destruct (position q i1), (position q i2); try discriminate; split; intros; (reflexivity || discriminate). }
      intros q. split; intros H.
      - destruct (in_dec Z.eq_dec q i2) as [|Hn]; [assumption|]. apply position_none in Hn. apply Y in Hn; [|apply R1, H]. apply position_none in Hn. contradiction.
      - destruct (in_dec Z.eq_dec q i1) as [|Hn]; [assumption|]. apply position_none in Hn. apply Y in Hn; [|apply R2, H]. apply position_none in Hn. contradiction. }
    assert (Hl : zlen i1 = zlen i2) by (unfold zlen; f_equal; apply Permutation_length, NoDup_Permutation; assumption).
    destruct i1 as [|q0 i1']; [congruence|]. set (i1 := q0 :: i1') in *. assert (Hq0 : In q0 i1) by (left; reflexivity).
    rewrite !app_assoc in E. rewrite <- !map_app in E. apply (inner_eq i1 i2 q0) in E; [|exact Hq0|apply Hin, Hq0|apply R1, Hq0| |].
    2, 3: intros r Hr; apply in_app_iff in Hr; destruct Hr as [Hr|Hr]; apply in_map_iff in Hr; destruct Hr as (x & <- & _); exact I.
    rewrite !map_app, !map_map in E. rewrite <- Hl in E.
    assert (Hlen : List.length n1 = List.length n2). { apply (f_equal (@List.length _)) in E. rewrite !app_length, !map_length, !seq_length in E. lia. }
    apply app_same in E; [|unfold zlen; rewrite !map_length; lia]. destruct E as [E1 E2]. f_equal.
    - assert (Hp1 := position_in q0 i1 Hq0). assert (Hp2 := position_in q0 i2 (proj1 (Hin q0) Hq0)). destruct Hp1 as [p1 P1], Hp2 as [p2 P2].
      clear - E1 Hlen P1 P2 R1 Hw Hs Hq0. revert n2 Hlen E1. induction n1 as [|c1 n1 IH]; intros [|c2 n2] Hlen E1; try discriminate; [reflexivity|]. cbn [map] in E1. injection E1 as Ec E1. injection Hlen as Hlen. f_equal; [|auto].
      apply (line_inj _ _ _ _ q0) in Ec; [|apply R1, Hq0]. rewrite <- (cell_box i1 p1 q0 c1 O (RLetter c1) P1) by auto. rewrite Ec. apply (cell_box i2 p2 q0 c2 O (RLetter c2) P2). auto.
    - apply same_positions; [exact D1|exact Hl|]. intros q Hq. destruct (position_in q i1 Hq) as [p1 P1], (position_in q i2 (proj1 (Hin q) Hq)) as [p2 P2]. rewrite P1, P2. f_equal.
      destruct (position_range _ _ _ P1) as [Hr1 _]. destruct (position_range _ _ _ P2) as [Hr2 _]. apply (padded_inj (zlen i1)); [lia|lia|].
      apply nth_ext with (d := " "%char) (d' := " "%char); [rewrite !padded_len by lia; reflexivity|]. rewrite padded_len by lia. intros l Hll.
      assert (El : line n w s i1 (RDigit l) = line n w s i2 (RDigit l)).
      { assert (X : nth l (map (fun x => line n w s i1 (RDigit x)) (seq 0 (places (zlen i1)))) (line n w s i1 (RDigit O)) = nth l (map (fun x => line n w s i2 (RDigit x)) (seq 0 (places (zlen i1)))) (line n w s i1 (RDigit O))) by (rewrite E2; reflexivity).
        rewrite (nth_indep (map (fun x => line n w s i2 (RDigit x)) (seq 0 (places (zlen i1)))) _ (line n w s i2 (RDigit O))) in X by (rewrite map_length, seq_length; exact Hll). rewrite (map_nth (fun x => line n w s i1 (RDigit x))), (map_nth (fun x => line n w s i2 (RDigit x))), !seq_nth in X by exact Hll. exact X. }
      apply (line_inj _ _ _ _ q) in El; [|apply R1, Hq]. rewrite <- (cell_box i1 p1 q (nth l (padded (zlen i1) p1) " "%char) l (RDigit l) P1) by (right; split; reflexivity). rewrite El. eapply cell_box; [exact P2|]. right. split; [reflexivity|]. rewrite <- Hl. reflexivity.
  Qed.

  Lemma pictures_inj : forall l1 l2, (forall op, In op (l1 ++ l2) -> op_fits n op) -> concat (map (picture n w s) l1) = concat (map (picture n w s) l2) -> l1 = l2.
  Proof.
    assert (X : forall op t, picture n w s op ++ t <> []) by (intros op t; unfold picture, rows; discriminate).
    induction l1 as [|a l1 IH]; intros [|b l2] H E; cbn [map concat] in E; [reflexivity|symmetry in E; destruct (X _ _ E)|destruct (X _ _ E)|].
    assert (a = b) as ->. { eapply picture_inj; [| |exact E]; apply H; [left|apply in_app_iff; right; left]; reflexivity. }
    apply app_inv_head in E. f_equal. apply IH; auto. intros op Hop. apply H. apply in_app_iff in Hop. destruct Hop; [right; apply in_app_iff; auto|]. right. apply in_app_iff. right. right. assumption.
  Qed.
End Readable.
