(** make_svg draws the circuit. *)
From Coq Require Import Ascii String Sorted.
From Verif Require Import Base M_Bits M_Kron M_Ops M_Feed M_Graph S_Graph L_Graph1 L_Graph2 L_Graph3 L_Graph4 L_Graph5 L_Graph6 L_Graph7 L_Graph8 L_Graph11 M_Print S_Print L_Print M_Svg S_Svg.
Open Scope Z_scope.

Lemma py_min_eq l : py_min l = lowest l.
Proof.
  unfold py_min, lowest. destruct l as [|a l]; [reflexivity|]. cbn [tl hd fold_right].
  assert (X : forall l a, fold_left Z.min l a = Z.min a (fold_right Z.min a l)).
  { clear. induction l as [|b l IH]; intros a; cbn [fold_left fold_right]; [lia|]. rewrite IH.
    assert (Y : forall l a b, fold_right Z.min (Z.min a b) l = Z.min b (fold_right Z.min a l)) by (clear; induction l as [|c l IH]; intros; cbn [fold_right]; [lia|rewrite IH; lia]).
    rewrite Y. lia. }
  apply X.
Qed.
Lemma py_max_eq l : py_max l = highest l.
Proof.
  unfold py_max, highest. destruct l as [|a l]; [reflexivity|]. cbn [tl hd fold_right].
  assert (X : forall l a, fold_left Z.max l a = Z.max a (fold_right Z.max a l)).
  { clear. induction l as [|b l IH]; intros a; cbn [fold_left fold_right]; [lia|]. rewrite IH.
    assert (Y : forall l a b, fold_right Z.max (Z.max a b) l = Z.max b (fold_right Z.max a l)) by (clear; induction l as [|c l IH]; intros; cbn [fold_right]; [lia|rewrite IH; lia]).
    rewrite Y. lia. }
  apply X.
Qed.
Lemma behind_eq x qs : behind x qs = connector x qs.
Proof.
  unfold behind, connector. destruct qs as [|a [|b l]]; [reflexivity|reflexivity|].
  destruct (Z.ltb_spec 1 (zlen (a :: b :: l))) as [|H]; [|rewrite !zlen_cons in H; pose proof (zlen_nonneg l); lia].
  rewrite py_min_eq, py_max_eq. unfold wire_y, linespacing, opheight. change (4 * linewidth / 2) with 4. f_equal. f_equal; lia.
Qed.
Lemma swap_eq x qs : swap_shapes x qs = concat (map (fun q => symbol x (wire_y q) Cross) qs).
Proof.
  unfold swap_shapes. f_equal. apply map_ext. intros q. cbv zeta. unfold symbol, wire_y. change (4 * opheight / 2) with 20. change (4 * linewidth) with 8. unfold linespacing, opheight.
  replace (4 * (20 * q + 10)) with (80 * q + 40) by lia. reflexivity.
Qed.
Lemma not_eq x qs : not_shapes x qs = concat (map (fun q => symbol x (wire_y q) Plus) qs).
Proof.
  unfold not_shapes. f_equal. apply map_ext. intros q. cbv zeta. unfold symbol, wire_y. change (4 * opheight / 2) with 20. change (4 * linewidth / 2) with 4. unfold linespacing, opheight.
  replace (4 * (q * 20 + 10)) with (80 * q + 40) by lia. reflexivity.
Qed.
Lemma half_width m : 4 * font_size * m / 2 / 2 + 4 = 7 * m + 4.
Proof. unfold font_size. rewrite Z.div_div by lia. replace (4 * 7 * m) with ((7 * m) * (2 * 2)) by lia. rewrite Z.div_mul by lia. reflexivity. Qed.
Lemma box_eq s x qs : box_shapes s x qs = concat (map (fun q => symbol x (wire_y q) (Box s)) qs).
Proof.
  unfold box_shapes. f_equal. apply map_ext. intros q. cbv zeta. rewrite half_width. unfold symbol, wire_y. change (4 * opheight / 2) with 20. change (4 * opoutlinewidth) with 4. change (4 * font_size) with 28.
  unfold linespacing, opheight. replace (4 * (q * 20 + 10)) with (80 * q + 40) by lia. reflexivity.
Qed.

Lemma op_shapes_ok {K} d x : forall (o : op K) name qs, (n_controls o <= List.length qs)%nat ->
  op_shapes o name x qs = Ok (drawing x (KMat o d) name qs).
Proof.
  induction o as [| | |s|e|k|o IH]; intros name qs Hl; cbn [op_shapes]; rewrite ?behind_eq, ?swap_eq, ?not_eq, ?box_eq;
    try reflexivity.
  - unfold drawing, target. cbn [controls n_controls base_op skipn seq map concat app]. unfold str_eqb. destruct (list_eq_dec ascii_dec name (text "Not")); reflexivity.
  - cbn [n_controls] in Hl. destruct qs as [|q qs]; [cbn in Hl; lia|]. change (pyget (q :: qs) 0) with (@Ok Z q). cbn [bind tl]. rewrite IH by (cbn in Hl; lia). cbn [bind]. f_equal.
    unfold drawing. cbn [controls n_controls seq map concat skipn nth]. rewrite <- seq_shift, map_map. rewrite <- !app_assoc. f_equal. cbn [app symbol]. f_equal.
    + unfold wire_y, linespacing, opheight. f_equal; lia.
    + f_equal. f_equal. f_equal. apply map_ext. intros q'. f_equal. unfold target. cbn [controls n_controls base_op].
      destruct name; cbn [tl skipn]; [rewrite skipn_nil|]; reflexivity.
Qed.
Lemma node_shapes_ok {K} x (k : kind K) name qs : (controls k <= List.length qs)%nat -> node_shapes k name x qs = Ok (drawing x k name qs).
Proof.
  intros Hl. destruct k as [| |o d| | |]; cbn [node_shapes]; try (apply op_shapes_ok; exact Hl); rewrite behind_eq, box_eq; reflexivity.
Qed.

(** ** extents *)
Lemma lowest_in l : l <> [] -> In (lowest l) l.
Proof.
  destruct l as [|a l]; [congruence|]. intros _. unfold lowest. cbn [hd].
  assert (X : forall l a, fold_right Z.min a l = a \/ In (fold_right Z.min a l) l).
  { clear. induction l as [|b l IH]; intros a; cbn [fold_right]; [auto|]. destruct (IH a) as [E|E]; [|]; destruct (Z.min_spec b (fold_right Z.min a l)) as [[_ ->]|[_ ->]]; cbn; auto. }
  destruct (X (a :: l) a) as [->|H]; [left; reflexivity|exact H].
Qed.
Lemma highest_in l : l <> [] -> In (highest l) l.
Proof.
  destruct l as [|a l]; [congruence|]. intros _. unfold highest. cbn [hd].
  assert (X : forall l a, fold_right Z.max a l = a \/ In (fold_right Z.max a l) l).
  { clear. induction l as [|b l IH]; intros a; cbn [fold_right]; [auto|]. destruct (IH a) as [E|E]; [|]; destruct (Z.max_spec b (fold_right Z.max a l)) as [[_ ->]|[_ ->]]; cbn; auto. }
  destruct (X (a :: l) a) as [->|H]; [left; reflexivity|exact H].
Qed.
Lemma in_skipn {A} (x : A) i l : In x (skipn i l) -> In x l.
Proof. intros H. rewrite <- (firstn_skipn i l). apply in_or_app. auto. Qed.
Lemma op_label_len {K} (o : op K) s : op_label o s -> Z.of_nat (n_controls o) + 1 <= zlen s /\ (forall k, base_op o = OSwap k -> 4 <= zlen s).
Proof.
  induction 1 as [| | | | |e|e m|k|o s H [IH1 IH2]]; cbn [n_controls base_op]; (split; [|try discriminate]).
  all: try (unfold zlen; cbn; lia).
  all: try (intros; unfold zlen; cbn; lia).
  - unfold zlen in *. rewrite app_length. cbn [text list_ascii_of_string List.length]. lia.
  - intros k Hk. specialize (IH2 k Hk). unfold zlen in *. rewrite app_length. cbn. lia.
Qed.
Definition near (x len : Z) (s : shape) : Prop :=
  exists e, x - e <= left_of s /\ right_of s <= x + e /\ (e <= 7 * len + 6 \/ e <= 22 /\ len = 2).
Lemma wire_y_mono n q : 0 <= q < n -> 40 <= wire_y q <= 80 * n - 40.
Proof. unfold wire_y. lia. Qed.
Lemma connector_near x len qs s : 0 <= len -> In s (connector x qs) -> near x len s.
Proof.
  intros Hl Hs. destruct qs as [|a [|b l]]; [destruct Hs|destruct Hs|]. destruct Hs as [<-|[]]. exists 2. cbn [left_of right_of]. change (4 / 2) with 2. lia.
Qed.
Lemma connector_rows x n qs s : (forall q, In q qs -> 0 <= q < n) -> In s (connector x qs) -> 16 <= top_of s /\ bottom_of s <= 80 * n - 16.
Proof.
  intros Hq Hs. destruct qs as [|a [|b l]]; [destruct Hs|destruct Hs|]. destruct Hs as [<-|[]]. cbn [top_of bottom_of]. change (4 / 2) with 2.
  pose proof (wire_y_mono n _ (Hq _ (lowest_in (a :: b :: l) ltac:(discriminate)))). pose proof (wire_y_mono n _ (Hq _ (highest_in (a :: b :: l) ltac:(discriminate)))). lia.
Qed.
Lemma symbol_rows x n q m s : 0 <= q < n -> In s (symbol x (wire_y q) m) -> 16 <= top_of s /\ bottom_of s <= 80 * n - 16.
Proof.
  intros Hq Hs. pose proof (wire_y_mono n q Hq). destruct m; cbn in Hs; repeat destruct Hs as [<-|Hs]; try (destruct Hs; fail); cbn [top_of bottom_of];
    change (8 / 2) with 4; change (4 / 2) with 2; change (28 / 2) with 14; lia.
Qed.
Lemma box_near x y t s len : zlen t <= len -> In s (symbol x y (Box t)) -> near x len s.
Proof.
  intros Hl Hs. exists (7 * len + 6). pose proof (zlen_nonneg t). destruct Hs as [<-|[<-|[]]]; cbn [left_of right_of]; change (4 / 2) with 2; [lia|].
  replace (28 * zlen t / 4) with (7 * zlen t) by (replace (28 * zlen t) with (7 * zlen t * 4) by lia; rewrite Z.div_mul; lia). lia.
Qed.
Lemma small_near x y m s len : m = Dot \/ m = Plus -> 2 <= len -> In s (symbol x y m) -> near x len s.
Proof.
  intros Hm Hl Hs. exists 22. assert (22 <= 7 * len + 6 \/ 22 <= 22 /\ len = 2) by lia.
  destruct Hm as [->| ->]; cbn in Hs; repeat destruct Hs as [<-|Hs]; try (destruct Hs; fail); cbn [left_of right_of]; change (4 / 2) with 2; lia.
Qed.
Lemma cross_near x y s len : 3 <= len -> In s (symbol x y Cross) -> near x len s.
Proof. intros Hl Hs. exists 24. cbn in Hs; repeat destruct Hs as [<-|Hs]; try (destruct Hs; fail); cbn [left_of right_of]; change (8 / 2) with 4; lia. Qed.

Lemma target_near {K} x y (k : kind K) name s : label k name -> In s (symbol x y (target k name)) -> near x (zlen name) s.
Proof.
  assert (Sk : forall i, zlen (skipn i name) <= zlen name) by (intros i; unfold zlen; rewrite skipn_length; lia).
  destruct 1 as [| |o d nm Ho| | |]; try (apply box_near; cbn; lia). apply op_label_len in Ho. destruct Ho as [L1 L2]. unfold target.
  destruct (base_op o) eqn:E; try (apply box_near, Sk).
  - destruct (list_eq_dec _ _ _) as [E'|_]; [|apply box_near, Sk]. apply small_near; [auto|]. specialize (Sk (controls (KMat o d))). rewrite E' in Sk. change (zlen (text "Not")) with 3 in Sk. lia.
  - apply cross_near. specialize (L2 _ eq_refl). lia.
Qed.
Lemma drawing_near {K} x (k : kind K) name qs s : label k name -> In s (drawing x k name qs) -> near x (zlen name) s.
Proof.
  intros Hl Hs. unfold drawing in Hs. rewrite !in_app_iff in Hs. destruct Hs as [Hs|[Hs|Hs]].
  - apply in_concat in Hs. destruct Hs as (l & Hin & Hs). apply in_map_iff in Hin. destruct Hin as (i & <- & Hi). apply in_seq in Hi. apply in_app_iff in Hs. destruct Hs as [Hs|Hs].
    + eapply connector_near; [apply zlen_nonneg|exact Hs].
    + eapply small_near; [left; reflexivity| |exact Hs]. destruct Hl as [| |o d nm Ho| | |]; cbn [controls] in Hi; try lia. apply op_label_len in Ho. lia.
  - eapply connector_near; [apply zlen_nonneg|exact Hs].
  - apply in_concat in Hs. destruct Hs as (l & Hin & Hs). apply in_map_iff in Hin. destruct Hin as (q & <- & _). eapply target_near; eauto.
Qed.
Lemma drawing_rows {K} x n (k : kind K) name qs s : (controls k <= List.length qs)%nat -> (forall q, In q qs -> 0 <= q < n) -> In s (drawing x k name qs) -> 16 <= top_of s /\ bottom_of s <= 80 * n - 16.
Proof.
  intros Hc Hq Hs. unfold drawing in Hs. rewrite !in_app_iff in Hs. destruct Hs as [Hs|[Hs|Hs]].
  - apply in_concat in Hs. destruct Hs as (l & Hin & Hs). apply in_map_iff in Hin. destruct Hin as (i & <- & Hi). apply in_seq in Hi. apply in_app_iff in Hs. destruct Hs as [Hs|Hs].
    + eapply connector_rows; [|exact Hs]. intros q Hin. apply Hq. eapply in_skipn, Hin.
    + eapply symbol_rows; [|exact Hs]. apply Hq, nth_In. lia.
  - eapply connector_rows; [|exact Hs]. intros q Hin. apply Hq. eapply in_skipn, Hin.
  - apply in_concat in Hs. destruct Hs as (l & Hin & Hs). apply in_map_iff in Hin. destruct Hin as (q & <- & Hin). eapply symbol_rows; [|exact Hs]. apply Hq. eapply in_skipn, Hin.
Qed.

(** ** columns *)
Inductive placed : Z -> list (list shape) -> Z -> Prop :=
| placed_nil m : placed m [] m
| placed_cons m l m1 ls m' : m <= m1 -> (forall s, In s l -> m + 33 <= left_of s /\ right_of s <= m1 + 6) -> placed m1 ls m' -> placed m (l :: ls) m'.
Lemma placed_bounds m ls m' : placed m ls m' -> m <= m' /\ forall s, In s (concat ls) -> m + 33 <= left_of s /\ right_of s <= m' + 6.
Proof.
  induction 1 as [m|m l m1 ls m' Hm Hl H [IH1 IH2]]; [split; [lia|intros s []]|]. split; [lia|]. intros s Hs. cbn [concat] in Hs. apply in_app_iff in Hs. destruct Hs as [Hs|Hs].
  - specialize (Hl s Hs). lia.
  - specialize (IH2 s Hs). lia.
Qed.
Lemma placed_sorted m ls m' : placed m ls m' -> StronglySorted (before 27) ls.
Proof.
  induction 1 as [m|m l m1 ls m' Hm Hl H IH]; constructor; auto. apply Forall_forall. intros l' Hl' s s' Hs Hs'.
  apply placed_bounds in H. destruct H as [_ H]. specialize (Hl s Hs). specialize (H s' (proj2 (in_concat _ _) (ex_intro _ l' (conj Hl' Hs')))). lia.
Qed.
Definition col_half (len : Z) : Z := 4 * ((4 * font_size * len / 2 + 4) / 8).
Lemma col_size len : 4 * font_size * len / 2 + 4 = 14 * len + 4.
Proof. unfold font_size. replace (4 * 7 * len) with (14 * len * 2) by lia. rewrite Z.div_mul by lia. reflexivity. Qed.
Lemma near_col m len s : 1 <= len -> near (m + 4 * opbuffer + col_half len) len s ->
  m + 33 <= left_of s /\ right_of s <= m + 4 * opbuffer + col_half len + (4 * font_size * len / 2 + 4) - col_half len + 6.
Proof.
  intros Hl (e & H1 & H2 & He). unfold col_half in *. rewrite col_size in *. change (4 * opbuffer) with 40 in *.
  pose proof (Z.div_mod (14 * len + 4) 8 ltac:(lia)) as D. pose proof (Z.mod_pos_bound (14 * len + 4) 8 ltac:(lia)) as M.
  assert ((14 * len + 4) mod 8 <> 7) by lia. lia.
Qed.

Section Circuit.
  Context {K : Type} {OK : OrdRing K}.
  Implicit Types h : heap K.
  Lemma fits_controls h g : forall ins gs, gate_fits h g ins -> Forall2 (fun i (w : list Z) => zlen w = width h i) ins gs -> (n_controls (gate_op h g ins) <= List.length (concat gs))%nat.
  Proof.
    induction g; intros ins gs Hf HF; cbn [gate_op n_controls]; try lia. cbn [gate_fits] in Hf. destruct Hf as (c & rest & -> & _ & Hc & _ & Hg).
    inversion HF as [|? w ? gs' Hw HF']; subst. specialize (IHg _ _ Hg HF'). cbn [tl concat]. rewrite app_length. unfold zlen, width in Hw. lia.
  Qed.

  Lemma svg_ok h vis args srcs order name tail ev :
    built h vis -> incl args vis -> splits_in_range h vis -> sources h args srcs -> StronglySorted lt order -> (forall i, In i order <-> ancestor h args i) ->
    enum_ok ev -> (forall i, In i order -> label (nd_kind (nd h i)) (name i)) ->
    exists p, make_svg name tail ev h args = Ok p /\
      sv_wires p = map (fun q => Line 0 (sv_width p) (wire_y q) (wire_y q) 8) (zrange 0 (widths h srcs)) /\
      Forall2 (drawn h srcs name) (filter (is_op h) order) (sv_ops p) /\
      StronglySorted (before 24) (sv_ops p) /\ forall s, In s (concat (sv_ops p)) -> inside p s.
  Proof.
    intros B Ha Hs Hsrc Ho Hoi He Hl. pose proof (built_wf _ _ B) as W. pose proof (splits_anc h vis args W Ha Hs) as Hsp.
    destruct (graph_trace h vis args srcs order W Ha Hsp Hsrc Ho Hoi ev He) as (fr & gn & E1 & Pf & Es & E2).
    assert (Ew : fold_left (fun a f => a + nd_n (nd h f)) srcs 0 = widths h srcs).
    { assert (X : forall l a, fold_left (fun a f => a + nd_n (nd h f)) l a = a + widths h l); [|rewrite X; lia].
      induction l as [|x l IH]; intros a; cbn [fold_left widths fold_right]; [lia|]. rewrite IH. unfold widths, width. lia. }
    assert (X : forall l m acc, incl l order -> exists m' ls,
      sfold (fun a i => svg_feed name tail h a i (map (wire h srcs) (inputs_of h i))) l (mkSvgacc m acc) = (mkSvgacc m' (acc ++ ls), Ok tt) /\
      placed m ls m' /\ Forall2 (drawn h srcs name) (filter (is_op h) l) ls /\ forall s, In s (concat ls) -> 16 <= top_of s /\ bottom_of s <= 80 * widths h srcs - 16).
    { induction l as [|i l IH]; intros m acc Hin.
      - exists m, []. cbn. rewrite app_nil_r. split; [reflexivity|]. split; [constructor|]. split; [constructor|intros s []].
      - cbn [sfold filter]. assert (Hi : In i order) by (apply Hin; left; reflexivity). assert (Hia : ancestor h args i) by (apply Hoi, Hi).
        assert (Hin' : incl l order) by (intros x Hx; apply Hin; right; exact Hx).
        destruct (label_plain _ _ (Hl i Hi)) as [P1 P2]. unfold svg_feed at 1. rewrite (op_name_ok name tail i P1 P2). rewrite (label_shown _ _ (Hl i Hi)).
        assert (Eb : match nd_kind (nd h i) with KQubit | KSplit _ => true | _ => false end = negb (is_op h i)) by (unfold is_op; destruct (nd_kind (nd h i)); reflexivity).
        rewrite Eb. destruct (is_op h i) eqn:Esh; cbn [negb sbind].
        + assert (Hgs : Forall2 (wires h srcs) (inputs_of h i) (map (wire h srcs) (inputs_of h i))) by (eapply a_inputs; eauto).
          assert (Hlen : Forall2 (fun j (w : list Z) => zlen w = width h j) (inputs_of h i) (map (wire h srcs) (inputs_of h i))).
          { assert (Hanc : forall j, In j (inputs_of h i) -> ancestor h args j) by (intros j Hj; eapply anc_input; eauto).
            revert Hanc. generalize (inputs_of h i). intros l1 Hanc. induction l1 as [|j l1 IH1]; cbn [map]; constructor.
            - eapply a_len; eauto. apply Hanc; left; reflexivity.
            - apply IH1. intros; apply Hanc; right; auto. }
          assert (Hc : (controls (nd_kind (nd h i)) <= List.length (concat (map (wire h srcs) (inputs_of h i))))%nat).
          { assert (Hv : In i vis) by (eapply anc_vis; eauto). pose proof (wf_kind _ _ W i Hv) as Hk. unfold kind_ok in Hk. destruct (nd_kind (nd h i)); cbn [controls]; try lia.
            destruct Hk as (g & -> & Hg). apply fits_controls; auto. }
          rewrite node_shapes_ok by exact Hc. cbn [sbind].
          match goal with |- context [sfold _ l (mkSvgacc ?m1 ?a1)] => destruct (IH m1 a1 Hin') as (m' & ls & E & Pl & HF & Hrow) end.
          eexists m', (_ :: ls). rewrite E. rewrite <- app_assoc. split; [reflexivity|]. split; [|split].
          * cbn [sa_max] in *. econstructor; [|intros s Hs0|exact Pl].
            -- rewrite col_size. change (4 * opbuffer) with 40. pose proof (zlen_nonneg (name i)). lia.
            -- apply near_col; [|eapply drawing_near; [apply Hl, Hi|exact Hs0]]. destruct (name i); [congruence|]. rewrite zlen_cons. pose proof (zlen_nonneg l0). lia.
          * constructor; [|exact HF]. eexists _, _. split; [exact Hgs|reflexivity].
          * intros s Hs0. cbn [concat] in Hs0. apply in_app_iff in Hs0. destruct Hs0 as [Hs0|Hs0]; [|apply Hrow, Hs0]. eapply drawing_rows; [exact Hc| |exact Hs0].
            intros q Hq. apply in_concat in Hq. destruct Hq as (g & Hg & Hq). apply in_map_iff in Hg. destruct Hg as (j & <- & Hj).
            assert (Hja : ancestor h args j) by (eapply anc_input; eauto). destruct (node_wires h vis args srcs j B Ha Hs Hsrc Hja) as (wj & H1 & H2 & _ & H4).
            apply H4. rewrite <- (H2 (wire h srcs j)); [exact Hq|]. eapply a_wires; eauto.
        + apply IH, Hin'. }
    destruct (X order 0 [] (incl_refl _)) as (m' & ls & E & Pl & HF & Hrow). cbn [app] in E.
    unfold make_svg. rewrite E1. cbn [bind fst snd]. rewrite Es. rewrite E2 by apply Permutation_refl. rewrite E, Ew. eexists. split; [reflexivity|].
    unfold get_svg_text. cbn [sv_wires sv_width sv_ops sa_max sa_ops sv_height]. split; [|split; [exact HF|split]].
    - apply map_ext. intros q. cbv zeta. change (4 * linewidth) with 8. unfold wire_y, linespacing, opheight. f_equal; lia.
    - pose proof (placed_sorted _ _ _ Pl) as S. revert S. clear. induction 1 as [|l ls S IH HF]; constructor; auto. eapply Forall_impl; [|exact HF].
      intros l' Hb s s' H1 H2. specialize (Hb s s' H1 H2). lia.
    - intros s Hs0. destruct (placed_bounds _ _ _ Pl) as [_ Hb]. specialize (Hb s Hs0). specialize (Hrow s Hs0). unfold inside. cbn [sv_width sv_height].
      change (4 * opbuffer) with 40. unfold linespacing, opheight. lia.
  Qed.
End Circuit.
