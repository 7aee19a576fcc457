From Coq Require Import Ascii String Sorted.
From Verif Require Import Base M_Bits M_Kron M_Ops M_Feed M_Func M_Measure M_Graph S_Graph L_Graph1 L_Graph2 L_Graph3 L_Graph4 L_Graph5 L_Graph6 L_Graph10 L_Graph7 L_Graph8 L_Graph9 L_Graph11 M_Print S_Print.
Open Scope Z_scope.

(** ** decimal numbers *)
Lemma decimal_fuel : forall f g n, 0 <= n -> n < Z.of_nat f -> n < Z.of_nat g -> decimal f n = decimal g n.
Proof.
  induction f as [|f IH]; intros g n Hn Hf Hg; [lia|]. destruct g as [|g]; [lia|]. cbn [decimal]. destruct (n <? 10) eqn:E; [reflexivity|].
  f_equal. apply IH; [apply Z.div_pos; lia| |]; assert (n / 10 < n) by (apply Z.div_lt; lia); lia.
Qed.
Lemma str_int_eq n : 0 <= n -> str_int n = (if n <? 10 then [] else str_int (n / 10)) ++ [ascii_of_nat (48 + Z.to_nat (n mod 10))].
Proof.
  intros Hn. unfold str_int at 1. cbn [decimal]. destruct (n <? 10) eqn:E; [reflexivity|]. f_equal. unfold str_int.
  assert (n / 10 < n) by (apply Z.div_lt; lia). assert (0 <= n / 10) by (apply Z.div_pos; lia). apply decimal_fuel; lia.
Qed.
Lemma str_int_len n : 0 <= n -> (1 <= List.length (str_int n))%nat.
Proof. intros Hn. rewrite str_int_eq by exact Hn. rewrite app_length. cbn. lia. Qed.
Lemma str_int_mono : forall m n, 0 <= n <= m -> (List.length (str_int n) <= List.length (str_int m))%nat.
Proof.
  intros m. assert (Hm : m < 0 \/ 0 <= m) by lia. destruct Hm as [|Hm]; [intros; lia|]. pattern m. apply Zlt_0_ind; [|exact Hm]. clear m Hm.
  intros m IH Hm n Hn. rewrite (str_int_eq m), (str_int_eq n) by lia. rewrite !app_length. cbn [List.length].
  destruct (n <? 10) eqn:En; [cbn [List.length]; lia|]. assert (Em : (m <? 10) = false) by lia. rewrite Em.
  assert (m / 10 < m) by (apply Z.div_lt; lia). assert (0 <= n / 10) by (apply Z.div_pos; lia). assert (n / 10 <= m / 10) by (apply Z.div_le_mono; lia).
  specialize (IH (m / 10) ltac:(lia) (n / 10) ltac:(lia)). lia.
Qed.
Lemma digit_ok d : 0 <= d < 10 -> digit_value (ascii_of_nat (48 + Z.to_nat d)) = d.
Proof. intros Hd. unfold digit_value. rewrite nat_ascii_embedding by lia. lia. Qed.
Lemma str_int_value n : 0 <= n -> number (str_int n) = n.
Proof.
  intros Hn. pattern n. apply Zlt_0_ind; [|exact Hn]. clear n Hn. intros n IH Hn. rewrite str_int_eq by exact Hn. unfold number. rewrite fold_left_app. cbn [fold_left].
  assert (Hm : 0 <= n mod 10 < 10) by (apply Z.mod_pos_bound; lia). rewrite digit_ok by exact Hm. destruct (n <? 10) eqn:E.
  - cbn [fold_left]. rewrite Z.mod_small by lia. lia.
  - fold (number (str_int (n / 10))). rewrite IH; [pose proof (Z.div_mod n 10); lia|]. split; [apply Z.div_pos; lia|apply Z.div_lt; lia].
Qed.
Lemma str_int_digits : forall n, 0 <= n -> forall c, In c (str_int n) -> 0 <= digit_value c < 10.
Proof.
  intros n Hn. pattern n. apply Zlt_0_ind; [|exact Hn]. clear n Hn. intros n IH Hn c Hc. rewrite str_int_eq in Hc by exact Hn. apply in_app_iff in Hc.
  assert (Hm : 0 <= n mod 10 < 10) by (apply Z.mod_pos_bound; lia). destruct Hc as [Hc|[<-|[]]]; [|rewrite digit_ok by exact Hm; exact Hm].
  destruct (n <? 10) eqn:E; [destruct Hc|]. apply (IH (n / 10)); [split; [apply Z.div_pos; lia|apply Z.div_lt; lia]|exact Hc].
Qed.

(** ** positions *)
Lemma position_none q l : position q l = None <-> ~ In q l.
Proof.
  induction l as [|i l IH]; cbn [position In]; [tauto|]. destruct (Z.eqb_spec q i) as [->|Hne]; [split; [discriminate|tauto]|].
  destruct (position q l); cbn [option_map]; [split; [discriminate|]|]; intros; [exfalso; destruct IH as [_ IH]; discriminate IH; tauto|].
  split; intros H; [|reflexivity]. intros [->|Hin]; [congruence|]. apply IH; auto.
Qed.
Lemma position_range q l i : position q l = Some i -> 0 <= i < zlen l /\ znth 0 l i = q.
Proof.
  revert i. induction l as [|x l IH]; cbn [position]; intros i H; [discriminate|]. rewrite zlen_cons. destruct (Z.eqb_spec q x) as [->|Hne].
  - inversion H; subst. pose proof (zlen_nonneg l). split; [lia|reflexivity].
  - destruct (position q l) as [j|]; cbn [option_map] in H; [|discriminate]. inversion H; subst. destruct (IH j eq_refl) as [Hj E]. split; [lia|].
    unfold znth in *. destruct (Z.ltb_spec (Z.succ j) 0); [lia|]. destruct (Z.ltb_spec j 0); [lia|]. rewrite Z2Nat.inj_succ by lia. exact E.
Qed.
Lemma position_in q l : In q l -> exists i, position q l = Some i.
Proof. intros H. destruct (position q l) as [i|] eqn:E; eauto. apply position_none in E. contradiction. Qed.

(** ** filling a line *)
Lemma upd_range {A} (f : Z -> A) n i v : 0 <= i < n -> upd (map f (zrange 0 n)) (Z.to_nat i) v = map (fun q => if q =? i then v else f q) (zrange 0 n).
Proof.
  intros Hi. assert (Hl : zlen (map f (zrange 0 n)) = n) by (rewrite zlen_map, zlen_zrange; lia).
  apply list_eq_znth with (d := v); [rewrite zlen_upd, !zlen_map; reflexivity|]. rewrite zlen_upd, Hl. intros j Hj.
  rewrite znth_upd by lia. rewrite !znth_map_zrange by lia. rewrite Z.add_0_l. reflexivity.
Qed.
Lemma fill_ok (cell : Z -> res str) (g : Z -> str) (f : Z -> str) n indices : NoDup indices -> (forall q, In q indices -> 0 <= q < n) ->
  (forall i, 0 <= i < zlen indices -> cell i = Ok (g i)) ->
  fill cell indices (map f (zrange 0 n)) = Ok (map (fun q => match position q indices with Some i => g i | None => f q end) (zrange 0 n)).
Proof.
  intros Hd Hr Hg. unfold fill.
  assert (X : forall l a f, NoDup l -> (forall q, In q l -> 0 <= q < n) -> (forall i, a <= i < a + zlen l -> cell i = Ok (g i)) ->
    mfold (fun d '(i, index) => do s <- cell i; pyset d index s) (combine (zrange a (a + zlen l)) l) (map f (zrange 0 n))
    = Ok (map (fun q => match position q l with Some i => g (a + i) | None => f q end) (zrange 0 n))).
  { clear Hd Hr Hg. induction l as [|x l IH]; intros a f0 Hd Hr Hg.
    - destruct (zrange a (a + zlen (@nil Z))); reflexivity.
    - pose proof (zlen_nonneg l). rewrite zlen_cons in *. rewrite zrange_cons by lia. cbn [combine mfold]. rewrite Hg by lia. cbn [bind].
      rewrite pyset_ok; [|rewrite zlen_map, zlen_zrange; [|specialize (Hr x (or_introl eq_refl)); lia]; specialize (Hr x (or_introl eq_refl)); lia]. cbn [bind].
      rewrite upd_range by (apply Hr; left; reflexivity). inversion Hd as [|? ? Hx Hd']; subst.
      replace (a + (zlen l + 1)) with ((a + 1) + zlen l) by lia. rewrite IH; [|exact Hd'|intros q Hq; apply Hr; right; exact Hq|intros i Hi; apply Hg; lia].
      f_equal. apply map_ext_in. intros q _. cbn [position]. destruct (Z.eqb_spec q x) as [->|Hne].
      + rewrite (proj2 (position_none x l)) by exact Hx. f_equal. lia.
      + destruct (position q l); cbn [option_map]; [f_equal; lia|reflexivity]. }
  specialize (X indices 0 f Hd Hr). rewrite Z.add_0_l in X. apply X. intros i Hi. apply Hg. lia.
Qed.

(** ** the lines of an op *)
Lemma join_sep sep l : join sep l = separated sep l.
Proof. induction l as [|x l IH]; [reflexivity|]. cbn [join separated]. destruct l; [reflexivity|]. rewrite IH. reflexivity. Qed.

Section Lines.
  Variables (n w s : Z).
  Notation line_of := (line_of s).
  Let wire : str := repeat " "%char (Z.to_nat w) ++ "|"%char :: repeat " "%char (Z.to_nat w).
  Lemma blank_eq : blank n w = map (fun _ => wire) (zrange 0 n).
  Proof. unfold blank. rewrite <- (Z.sub_0_r n) at 1. rewrite <- zrange_length. clear. induction (zrange 0 n); cbn; [reflexivity|]. rewrite IHl. reflexivity. Qed.
  Lemma boxed_eq c : boxed w c = centred w "|" c "|" " ".
  Proof. reflexivity. Qed.

  Variable indices : list Z.
  Hypothesis Hd : NoDup indices.
  Hypothesis Hr : forall q, In q indices -> 0 <= q < n.
  Let k := zlen indices.
  Hypothesis Hk : 0 < k.

  Lemma row_line f r : (forall q, f q = cell w indices r q) -> line_of (map f (zrange 0 n)) = line n w s indices r.
  Proof. intros H. unfold M_Print.line_of, line. rewrite join_sep. f_equal. apply map_ext. exact H. Qed.

  Lemma max_len_eq : max_len indices = Z.of_nat (places k).
  Proof.
    unfold max_len, places. fold k. assert (X : forall j, 0 < j -> fold_right Z.max 0 (map (fun i => zlen (str_int i)) (zrange 0 j)) = zlen (str_int (j - 1))).
    { intros j Hj. replace j with (Z.of_nat (S (Z.to_nat (j - 1)))) at 1 by lia. replace (j - 1) with (Z.of_nat (Z.to_nat (j - 1))) at 2 by lia. generalize (Z.to_nat (j - 1)). clear j Hj. intros m.
      induction m as [|m IH]; [reflexivity|]. rewrite zrange_snoc by lia. replace (Z.of_nat (S (S m)) - 1) with (Z.of_nat (S m)) by lia. rewrite map_app, fold_right_app. cbn [map fold_right].
      rewrite Z.max_l by apply zlen_nonneg.
      assert (Y : forall l a, fold_right Z.max a l = Z.max (fold_right Z.max 0 l) a \/ a < 0).
      { induction l as [|x l IHl]; intros a; cbn [fold_right]; [lia|]. destruct (IHl a); lia. }
      destruct (Y (map (fun i => zlen (str_int i)) (zrange 0 (Z.of_nat (S m)))) (zlen (str_int (Z.of_nat (S m))))) as [->|H]; [|pose proof (zlen_nonneg (str_int (Z.of_nat (S m)))); lia].
      rewrite IH. pose proof (str_int_mono (Z.of_nat (S m)) (Z.of_nat m) ltac:(lia)). unfold zlen. lia. }
    rewrite X by exact Hk. reflexivity.
  Qed.
  Lemma strs_eq : index_strs indices = map (padded k) (zrange 0 k).
  Proof.
    unfold index_strs. fold k. apply map_ext_in. intros i Hi. apply in_zrange in Hi. rewrite max_len_eq. unfold padded, places, times, zlen.
    assert (L := str_int_mono (k - 1) i ltac:(lia)). destruct (0 <? Z.of_nat (List.length (str_int (k - 1))) - Z.of_nat (List.length (str_int i))) eqn:E.
    - f_equal. f_equal. lia.
    - replace (List.length (str_int (k - 1)) - List.length (str_int i))%nat with O by lia. reflexivity.
  Qed.
  Lemma padded_len i : 0 <= i < k -> List.length (padded k i) = places k.
  Proof. intros Hi. unfold padded, places. rewrite app_length, repeat_length. pose proof (str_int_mono (k - 1) i ltac:(lia)). lia. Qed.

  Lemma letters_ok nodestr : forall out d0, exists d,
    mfold (fun '(out, d) c => do d <- fill (fun _ => Ok (boxed w c)) indices (blank n w); Ok (out ++ [line_of d], d)) nodestr (out, d0)
    = Ok (out ++ map (fun c => line n w s indices (RLetter c)) nodestr, d) /\
    (d = d0 \/ exists f, d = map f (zrange 0 n) /\ forall q, ~ In q indices -> f q = wire).
  Proof.
    induction nodestr as [|c nodestr IH]; intros out d0; cbn [mfold map].
    - exists d0. rewrite app_nil_r. auto.
    - rewrite blank_eq. rewrite (fill_ok _ (fun _ => boxed w c) (fun _ => wire) n indices Hd Hr) by reflexivity. cbn [bind].
      rewrite blank_eq in IH. edestruct IH as (d & E & Hdd). exists d. rewrite E. split.
      + f_equal. f_equal. rewrite <- app_assoc. reflexivity.
      + right. destruct Hdd as [->|H]; [|exact H]. eexists. split; [reflexivity|]. intros q Hq. cbv beta. rewrite (proj2 (position_none q indices) Hq). reflexivity.
  Qed.

  Lemma digits_ok : forall j out f, 0 <= j <= Z.of_nat (places k) -> (forall q, ~ In q indices -> f q = wire) -> exists f',
    mfold (fun '(out, d) l =>
      do d <- fill (fun i => do s <- pyget (index_strs indices) i; do c <- pyget s l; Ok (boxed w c)) indices d;
      Ok (out ++ [line_of d], d)) (zrange j (Z.of_nat (places k))) (out, map f (zrange 0 n))
    = Ok (out ++ map (fun l => line n w s indices (RDigit l)) (seq (Z.to_nat j) (places k - Z.to_nat j)), map f' (zrange 0 n)) /\ (forall q, ~ In q indices -> f' q = wire).
  Proof.
    intros j. remember (Z.to_nat (Z.of_nat (places k) - j)) as m eqn:Em. revert j Em. induction m as [|m IH]; intros j Em out f Hj Hf.
    - exists f. rewrite zrange_empty by lia. replace (places k - Z.to_nat j)%nat with O by lia. cbn [mfold map seq]. rewrite app_nil_r. auto.
    - rewrite zrange_cons by lia. cbn [mfold].
      rewrite (fill_ok _ (fun i => boxed w (nth (Z.to_nat j) (padded k i) " "%char)) f n indices Hd Hr).
      2: { intros i Hi. rewrite strs_eq. fold k in Hi. unfold pyget at 1. destruct (Z.ltb_spec i 0); [lia|]. destruct (Z.ltb_spec i 0); [lia|].
           rewrite nth_error_map, nth_error_zrange by lia. destruct (Z.ltb_spec (Z.of_nat (Z.to_nat i)) k) as [|]; [|lia]. cbn [option_map bind].
           replace (0 + Z.of_nat (Z.to_nat i)) with i by lia. unfold pyget. destruct (Z.ltb_spec j 0); [lia|]. destruct (Z.ltb_spec j 0); [lia|].
           rewrite (nth_error_nth' _ " "%char) by (rewrite padded_len by exact Hi; lia). reflexivity. }
      cbn [bind]. edestruct (IH (j + 1) ltac:(lia)) as (f' & E & Hf'); [lia| |exists f'; rewrite E; split; [|exact Hf']].
      + intros q Hq. cbv beta. rewrite (proj2 (position_none q indices) Hq). apply Hf, Hq.
      + f_equal. f_equal. rewrite <- app_assoc. f_equal. replace (places k - Z.to_nat j)%nat with (S (places k - Z.to_nat (j + 1))) by lia. cbn [seq map app]. f_equal.
        * apply row_line. intros q. unfold cell. fold wire. destruct (position q indices) eqn:Eq; [reflexivity|]. apply Hf, position_none, Eq.
        * do 2 f_equal. lia.
  Qed.

  Lemma op_lines_ok nodestr : op_lines n w s nodestr indices = Ok (picture n w s (nodestr, indices)).
  Proof.
    unfold op_lines. rewrite blank_eq. rewrite (fill_ok _ (fun _ => border w) (fun _ => wire) n indices Hd Hr) by reflexivity. cbn [bind]. unfold letters.
    destruct (letters_ok nodestr [] (map (fun q => match position q indices with Some _ => border w | None => wire end) (zrange 0 n))) as (d & E & Hdd).
    rewrite E. cbn [bind fst snd app]. unfold digits. rewrite max_len_eq.
    assert (Hf : exists f, d = map f (zrange 0 n) /\ forall q, ~ In q indices -> f q = wire).
    { destruct Hdd as [->|H]; [|exact H]. eexists. split; [reflexivity|]. intros q Hq. cbv beta. rewrite (proj2 (position_none q indices) Hq). reflexivity. }
    destruct Hf as (f & -> & Hf). destruct (digits_ok 0 [] f ltac:(lia) Hf) as (f' & E' & Hf'). rewrite E'. cbn [bind fst snd app].
    rewrite (fill_ok _ (fun _ => border w) f' n indices Hd Hr) by reflexivity. cbn [bind]. f_equal. unfold picture, rows. cbn [fst snd map app]. fold k. rewrite !map_app, !map_map. cbn [map]. match goal with |- ?a :: ?b :: _ = ?a' :: ?b' :: _ => assert (E1 : a = a'); [|assert (E2 : b = b'); [|rewrite E1, E2; do 2 f_equal; f_equal; f_equal]] end.
    - apply row_line. intros q. unfold cell. destruct (position q indices); reflexivity.
    - apply row_line. intros q. unfold cell. fold wire. destruct (position q indices); reflexivity.
    - rewrite Nat.sub_0_r. reflexivity.
    - f_equal. apply row_line. intros q. unfold cell. fold wire. destruct (position q indices) eqn:Eq; [reflexivity|]. apply Hf', position_none, Eq.
  Qed.
End Lines.

(** ** names *)
Lemma find_at c s t : ~ In c s -> find c (s ++ c :: t) = zlen s.
Proof.
  induction s as [|x s IH]; cbn [app find In]; intros H.
  - rewrite Ascii.eqb_refl. reflexivity.
  - destruct (Ascii.eqb_spec x c) as [->|]; [exfalso; tauto|]. rewrite IH by tauto. rewrite zlen_cons. pose proof (zlen_nonneg s). destruct (Z.eqb_spec (zlen s) (-1)); lia.
Qed.
Lemma op_label_plain {K} (o : op K) s : op_label o s -> s <> [] /\ ~ In "("%char s /\ s <> text "Q" /\ s <> text "SplitQubit".
Proof.
  induction 1 as [| | | | | |e m Hm| |o s H (H1 & H2 & H3 & H4)]; cbn; try (repeat split; [discriminate|intuition discriminate|discriminate|discriminate]).
  repeat split; [discriminate| |discriminate|discriminate]. intros [E|[E|E]]; [discriminate|discriminate|]. apply in_app_iff in E. destruct E as [E|[E|[]]]; [contradiction|discriminate].
Qed.
Lemma label_plain {K} (k : kind K) s : label k s -> s <> [] /\ ~ In "("%char s.
Proof. destruct 1 as [| |o d s H| | |]; cbn; try (split; [discriminate|intuition discriminate]). apply op_label_plain in H. tauto. Qed.
Lemma label_shown {K} (k : kind K) s : label k s -> blacklisted s = match k with KQubit | KSplit _ => true | _ => false end.
Proof.
  destruct 1 as [| |o d s H| | |]; try reflexivity. apply op_label_plain in H. destruct H as (_ & _ & H3 & H4). unfold blacklisted, str_eqb. cbn [existsb].
  destruct (list_eq_dec ascii_dec s (text "SplitQubit")); [contradiction|]. destruct (list_eq_dec ascii_dec s (text "Q")); [contradiction|]. reflexivity.
Qed.
Lemma op_name_ok name tail i : name i <> [] -> ~ In "("%char (name i) -> op_name name tail i = name i.
Proof.
  intros Hn Hp. unfold op_name, repr_of. rewrite find_at by exact Hp. destruct (Z.ltb_spec 0 (zlen (name i))) as [|H].
  - unfold pyslice. rewrite Z.sub_0_r. cbn [Z.to_nat skipn]. unfold zlen. rewrite Nat2Z.id. rewrite firstn_app, Nat.sub_diag, firstn_all. cbn [firstn]. apply app_nil_r.
  - destruct (name i); [congruence|]. rewrite zlen_cons in H. pose proof (zlen_nonneg l). lia.
Qed.

(** ** the whole circuit *)
Section Circuit.
  Context {K : Type} {OK : OrdRing K}.
  Lemma print_ok (h : heap K) vis args srcs order name tail ev w s ops :
    built h vis -> incl args vis -> splits_in_range h vis -> sources h args srcs -> StronglySorted lt order -> (forall i, In i order <-> ancestor h args i) ->
    enum_ok ev -> (forall i, In i order -> label (nd_kind (nd h i)) (name i)) ->
    Forall2 (drawn_as h srcs name) (filter (is_op h) order) ops -> (forall op, In op ops -> NoDup (snd op)) ->
    print_circuit name tail ev h args w s = (concat (map (picture (widths h srcs) w s) (filter has_qubits ops)), Ok tt).
  Proof.
    intros B Ha Hs Hsrc Ho Hoi He Hl Hops Hnd. pose proof (built_wf _ _ B) as W. pose proof (splits_anc h vis args W Ha Hs) as Hsp.
    destruct (graph_trace h vis args srcs order W Ha Hsp Hsrc Ho Hoi ev He) as (fr & gn & E1 & Pf & Es & E2).
    unfold print_circuit. rewrite E1, Es. rewrite E2 by apply Permutation_refl.
    assert (Ew : fold_left (fun a f => a + nd_n (nd h f)) srcs 0 = widths h srcs).
    { assert (X : forall l a, fold_left (fun a f => a + nd_n (nd h f)) l a = a + widths h l); [|rewrite X; lia].
      induction l as [|x l IH]; intros a; cbn [fold_left widths fold_right]; [lia|]. rewrite IH. unfold widths, width. lia. }
    rewrite Ew.
    assert (X : forall l ops out, incl l order -> Forall2 (drawn_as h srcs name) (filter (is_op h) l) ops -> (forall op, In op ops -> NoDup (snd op)) ->
      sfold (fun a i => print_feed name tail (widths h srcs) w s a i (map (wire h srcs) (inputs_of h i))) l out = (out ++ concat (map (picture (widths h srcs) w s) (filter has_qubits ops)), Ok tt)).
    { clear ops Hops Hnd. induction l as [|i l IH]; intros ops out Hin HF Hnd; cbn [filter] in HF.
      - inversion HF; subst. cbn. rewrite app_nil_r. reflexivity.
      - cbn [sfold]. assert (Hi : In i order) by (apply Hin; left; reflexivity). assert (Hia : ancestor h args i) by (apply Hoi, Hi).
        assert (Hin' : incl l order) by (intros x Hx; apply Hin; right; exact Hx).
        destruct (label_plain _ _ (Hl i Hi)) as [P1 P2]. unfold print_feed at 1. rewrite (op_name_ok name tail i P1 P2). rewrite (label_shown _ _ (Hl i Hi)).
        assert (Eb : match nd_kind (nd h i) with KQubit | KSplit _ => true | _ => false end = negb (is_op h i)) by (unfold is_op; destruct (nd_kind (nd h i)); reflexivity).
        rewrite Eb. destruct (is_op h i) eqn:Esh.
        + inversion HF as [|i0 op l0 ops2 [Hn (gs & Hgs & Hsn)] HF2]; subst i0 l0 ops. cbn [negb filter].
          assert (Egs : gs = map (wire h srcs) (inputs_of h i)).
          { assert (Hanc : forall j, In j (inputs_of h i) -> ancestor h args j) by (intros j Hj; eapply anc_input; eauto).
            revert gs Hgs Hsn Hanc. generalize (inputs_of h i). intros l1 gs Hgs _ Hanc. revert gs Hgs.
            induction l1 as [|j l1 IH1]; intros gs Hgs; inversion Hgs as [|? g ? gs1 Hg Hgs1]; clear Hgs; [reflexivity|]. cbn [map]. f_equal.
            - destruct (node_wires h vis args srcs j B Ha Hs Hsrc (Hanc j (or_introl eq_refl))) as (wj & U1 & U2 & _). rewrite (U2 g Hg). symmetry. apply U2. eapply a_wires; eauto. apply Hanc; left; reflexivity.
            - apply IH1; auto. intros; apply Hanc; right; auto. }
          rewrite Egs in Hsn. clear gs Hgs Egs. rewrite <- Hsn. unfold has_qubits at 1. specialize (IH ops2).
          assert (Hnd2 : forall op, In op ops2 -> NoDup (snd op)) by (intros; apply Hnd; right; auto).
          destruct (snd op) as [|q0 qs] eqn:Eop.
          * cbn [zlen List.length]. change (0 <? zlen (@nil Z)) with false. cbn [sbind]. apply IH; auto.
          * assert (Hpos : 0 < zlen (q0 :: qs)) by (rewrite zlen_cons; pose proof (zlen_nonneg qs); lia).
            destruct (Z.ltb_spec 0 (zlen (q0 :: qs))); [|lia]. rewrite op_lines_ok.
            -- cbn [sbind]. rewrite IH by auto. cbn [map concat]. rewrite <- app_assoc. rewrite <- Eop, <- Hn. destruct op; reflexivity.
            -- rewrite <- Eop. apply Hnd. left; reflexivity.
            -- intros q Hq. rewrite Hsn in Hq. apply in_concat in Hq. destruct Hq as (g & Hg & Hq). apply in_map_iff in Hg. destruct Hg as (j & <- & Hj).
               assert (Hja : ancestor h args j) by (eapply anc_input; eauto). destruct (node_wires h vis args srcs j B Ha Hs Hsrc Hja) as (wj & H1 & H2 & _ & H4).
               apply H4. rewrite <- (H2 (wire h srcs j)); [exact Hq|]. eapply a_wires; eauto.
            -- exact Hpos.
        + cbn [negb]. rewrite <- (IH ops out Hin' HF Hnd). destruct (0 <? zlen (concat (map (wire h srcs) (inputs_of h i)))); reflexivity. }
    rewrite (X order ops []); [reflexivity|apply incl_refl|exact Hops|exact Hnd].
  Qed.
End Circuit.
