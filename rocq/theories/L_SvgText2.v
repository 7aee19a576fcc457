(** The text of make_svg shows what make_svg draws. *)
From Coq Require Import Ascii String Sorted.
From Verif Require Import Base M_Bits M_Kron M_Ops M_Feed M_Graph S_Graph L_Graph1 L_Graph2 L_Graph3 L_Graph4 L_Graph5 L_Graph6 L_Graph7 L_Graph8 L_Graph11 M_Print S_Print L_Print M_Svg S_Svg L_Svg M_SvgText S_SvgText L_SvgText.
Open Scope Z_scope.

Lemma unescaped_app s t : unescaped (s ++ t) -> unescaped s /\ unescaped t.
Proof. intros H. split; intros c Hc; apply H, in_app_iff; auto. Qed.
Lemma op_den {K} big (o : op K) : forall nm xn qs l, op_label o nm -> unescaped nm -> op_shapes o nm (quarters xn) qs = Ok l ->
  exists t, op_str big o nm xn qs = Ok t /\ den t l.
Proof.
  induction o as [| | | | |k|o IH]; intros nm xn qs l Hl Hu H; destruct (op_label_plain _ _ Hl) as (Hne & _); cbn [op_shapes op_str] in *.
  - destruct (str_eqb nm (text "Not")); injection H as <-; (eexists; split; [reflexivity|]; apply den_app; [apply behind_den; reflexivity|]).
    + exact (not_den big xn _ eq_refl qs).
    + exact (box_den big xn _ eq_refl nm qs Hu Hne).
  - injection H as <-; eexists; split; [reflexivity|]; apply den_app; [apply behind_den; reflexivity|exact (box_den big xn _ eq_refl nm qs Hu Hne)].
  - injection H as <-; eexists; split; [reflexivity|]; apply den_app; [apply behind_den; reflexivity|exact (box_den big xn _ eq_refl nm qs Hu Hne)].
  - injection H as <-; eexists; split; [reflexivity|]; apply den_app; [apply behind_den; reflexivity|exact (box_den big xn _ eq_refl nm qs Hu Hne)].
  - injection H as <-; eexists; split; [reflexivity|]; apply den_app; [apply behind_den; reflexivity|exact (box_den big xn _ eq_refl nm qs Hu Hne)].
  - injection H as <-; eexists; split; [reflexivity|]; apply den_app; [apply behind_den; reflexivity|exact (swap_den big xn _ eq_refl qs)].
  - inversion Hl as [| | | | | | | |o' s Hs]; subst. change (tl (text "C" ++ s)) with s in *. destruct (pyget qs 0) as [i0|e]; [cbn [bind] in *|discriminate].
    destruct (op_shapes o s (quarters xn) (tl qs)) as [l'|e] eqn:E; [cbn [bind] in H|discriminate]. injection H as <-.
    destruct (IH s xn (tl qs) l' Hs (proj2 (unescaped_app _ _ Hu)) E) as (t & Et & Ht). rewrite Et. cbn [bind]. eexists. split; [reflexivity|].
    apply den_app; [apply behind_den; reflexivity|]. apply (den_app _ _ [_]); [|exact Ht]. apply (circle_den _ _ _ _ _ _ _ true); reflexivity.
Qed.
Lemma node_den {K} big (k : kind K) nm xn qs l : label k nm -> unescaped nm -> node_shapes k nm (quarters xn) qs = Ok l ->
  exists t, node_str big k nm xn qs = Ok t /\ den t l.
Proof.
  intros Hl Hu H. destruct (label_plain _ _ Hl) as [Hne _].
  destruct Hl as [| |o d s Ho| | |]; cbn [node_shapes node_str] in *; try (eapply op_den; eauto; fail);
    injection H as <-; (eexists; split; [reflexivity|]; apply den_app; [apply behind_den; reflexivity|exact (box_den big xn _ eq_refl _ qs Hu Hne)]).
Qed.

(** ** the columns *)
Definition linked (a : svgacc) (ta : textacc) : Prop := quarters (ta_max ta) = sa_max a /\ 0 <= sa_max a /\ Forall2 den (ta_ops ta) (sa_ops a) /\ ta_svg ta = [].
Lemma feed_linked {K} big name tail (h : heap K) a ta i gs a' : label (nd_kind (nd h i)) (name i) -> unescaped (name i) -> linked a ta ->
  svg_feed name tail h a i gs = (a', Ok tt) -> exists ta', text_feed big name tail h ta i gs = (ta', Ok tt) /\ linked a' ta'.
Proof.
  intros Hl Hu (L1 & L2 & L3 & L4) H. destruct (label_plain _ _ Hl) as [P1 P2]. unfold svg_feed in H. unfold text_feed. rewrite (op_name_ok name tail i P1 P2) in *.
  destruct (blacklisted (name i)); [injection H as <-; exists ta; split; [reflexivity|]; repeat split; auto|].
  set (T := 4 * font_size * zlen (name i) / 2 + 4) in *. set (tn := nadd (nhalf (NInt (font_size * zlen (name i)))) (NInt 1)).
  assert (Et : quarters tn = T) by (unfold tn, T; rewrite q_add; cbn [nhalf quarters]; rewrite Z.mul_assoc; reflexivity).
  set (hn := nint (nhalf tn)). assert (Eh : quarters hn = 4 * (T / 8)).
  { unfold hn, nint, nhalf. cbn [quarters]. rewrite Et. rewrite Z.div_div by lia. reflexivity. }
  set (cn := nadd (nadd (ta_max ta) (NInt opbuffer)) hn). assert (Ec : quarters cn = sa_max a + 4 * opbuffer + 4 * (T / 8)).
  { unfold cn. rewrite !q_add, Eh, L1. reflexivity. }
  cbv zeta in *. fold tn hn cn. rewrite <- Ec in H. destruct (node_shapes (nd_kind (nd h i)) (name i) (quarters cn) (concat gs)) as [l|e] eqn:E; [|discriminate].
  match type of H with (?b, _) = _ => assert (a' = b) by congruence end. subst a'. clear H. destruct (node_den big _ _ _ _ _ Hl Hu E) as (t & -> & Ht). eexists. split; [reflexivity|]. unfold linked. cbn [ta_max ta_ops ta_svg sa_max sa_ops].
  split; [rewrite q_sub, q_add, Et, Eh; reflexivity|]. split; [|split; [apply Forall2_app; [exact L3|constructor; [exact Ht|constructor]]|exact L4]].
  rewrite Ec. unfold T. rewrite col_size. change (4 * opbuffer) with 40. pose proof (zlen_nonneg (name i)). lia.
Qed.
Lemma feeds_linked {K} big name tail (h : heap K) (f : nat -> list (list Z)) : forall l a ta a', (forall i, In i l -> label (nd_kind (nd h i)) (name i) /\ unescaped (name i)) -> linked a ta ->
  sfold (fun a i => svg_feed name tail h a i (f i)) l a = (a', Ok tt) -> exists ta', sfold (fun a i => text_feed big name tail h a i (f i)) l ta = (ta', Ok tt) /\ linked a' ta'.
Proof.
  induction l as [|i l IH]; intros a ta a' Hl L H; cbn [sfold] in *; [injection H as <-; eauto|].
  destruct (svg_feed name tail h a i (f i)) as [a1 [[]|e]] eqn:E; [cbn [sbind] in H|discriminate]. destruct (Hl i (or_introl eq_refl)) as [H1 H2].
  destruct (feed_linked big _ _ _ _ _ _ _ _ H1 H2 L E) as (ta1 & -> & L1). cbn [sbind]. apply (IH a1 ta1); auto. intros; apply Hl; right; auto.
Qed.

(** ** the document *)
Lemma join_den l : forall ls, Forall2 den l ls -> den (join [ascii_of_nat 10] l) (concat ls).
Proof.
  intros ls H. induction H as [|t s l ls Ht H IH]; [apply den_nil|]. cbn [join concat]. destruct l as [|t' l].
  - inversion H; subst. cbn [concat]. rewrite app_nil_r. exact Ht.
  - apply den_app; [exact Ht|]. intros Hs. apply denotes_white; [reflexivity|]. apply IH, Hs.
Qed.
Lemma int_ok big z : forallb num_char (fmt big (NInt z)) = true /\ value_of (fmt big (NInt z)) = Some (4 * z).
Proof.
  split; [cbn [fmt]; apply signed_chars, str_int_chars; lia|]. cbn [fmt].
  erewrite value_signed; [|pose proof (head_digit (Z.abs z) [] ltac:(lia)) as H; rewrite app_nil_r in H; exact H|apply magnitude_int; lia].
  destruct (Z.ltb_spec z 0); f_equal; lia.
Qed.
Lemma num_no_space s : forallb num_char s = true -> ~ In " "%char s.
Proof. intros H Hi. rewrite forallb_forall in H. specialize (H _ Hi). revert H. vm_compute. discriminate. Qed.
Lemma svg_shows w h wires ops W H l l' : forallb num_char w = true -> forallb num_char h = true -> value_of w = Some W -> value_of h = Some H -> denotes wires l -> denotes ops l' ->
  shown (format (text "<svg viewBox=""0 0 {} {}"" xmlns=""http://www.w3.org/2000/svg"">" ++ [ascii_of_nat 10] ++ text "{}" ++ [ascii_of_nat 10] ++
                 text "{}" ++ [ascii_of_nat 10] ++ text "</svg>") [w; h; wires; ops]) = Some (W, H, l ++ l').
Proof.
  intros Hw Hh Vw Vh Dw Do.
  assert (D : denotes (ascii_of_nat 10 :: wires ++ ascii_of_nat 10 :: ops ++ ascii_of_nat 10 :: []) (l ++ l' ++ [])).
  { apply denotes_white; [reflexivity|]. apply denotes_app; [exact Dw|]. apply denotes_white; [reflexivity|]. apply denotes_app; [exact Do|]. apply denotes_white; [reflexivity|]. apply denotes_nil. }
  rewrite app_nil_r in D. destruct (D [] eq_refl) as (s' & toks & nodes & Hs' & R & N & Sh).
  set (box := text "0 0 " ++ w ++ " "%char :: h).
  assert (Hbox : forallb value_char box = true).
  { unfold box. rewrite !forallb_app. cbn [forallb]. rewrite (nums_value _ Hw), (nums_value _ Hh). reflexivity. }
  set (attrs := [(text "viewBox", box); (text "xmlns", text "http://www.w3.org/2000/svg")]).
  assert (E : read (Outside []) (format (text "<svg viewBox=""0 0 {} {}"" xmlns=""http://www.w3.org/2000/svg"">" ++ [ascii_of_nat 10] ++ text "{}" ++ [ascii_of_nat 10] ++
                 text "{}" ++ [ascii_of_nat 10] ++ text "</svg>") [w; h; wires; ops]) =
              (Outside [], [Chars []; Open (text "svg") attrs] ++ toks ++ [Chars (rev s'); Close (text "svg")])).
  { replace (format _ _) with (text "<svg viewBox=""" ++ box ++ quote :: text " xmlns=""http://www.w3.org/2000/svg"">" ++
      (ascii_of_nat 10 :: wires ++ ascii_of_nat 10 :: ops ++ ascii_of_nat 10 :: []) ++ text "</svg>").
    2:{ unfold box. change (format _ _) with (text "<svg viewBox=""" ++ text "0 0 " ++ w ++ " "%char :: h ++ quote :: text " xmlns=""http://www.w3.org/2000/svg"">" ++
          ascii_of_nat 10 :: wires ++ ascii_of_nat 10 :: ops ++ ascii_of_nat 10 :: text "</svg>").
        f_equal. rewrite <- !app_assoc. f_equal. f_equal. rewrite <- app_comm_cons. f_equal. f_equal. f_equal. f_equal. cbn [app]. rewrite <- !app_assoc. f_equal. f_equal. cbn [app]. rewrite <- !app_assoc. reflexivity. }
    change ([Chars []; Open (text "svg") attrs] ++ toks ++ [Chars (rev s'); Close (text "svg")]) with ([Chars []] ++ [Open (text "svg") attrs] ++ toks ++ [Chars (rev s'); Close (text "svg")]).
    eapply read_app; [cbv; reflexivity|]. apply read_quoted; [exact Hbox|]. eapply read_app; [cbv -[box]; reflexivity|]. eapply read_app; [exact R|].
    cbn [read text list_ascii_of_string read_char]. cbv -[rev text]. reflexivity. }
  unfold shown, document. rewrite E. cbn [blank_text forallb].
  assert (En : nest [] [] ([Chars []; Open (text "svg") attrs] ++ toks ++ [Chars (rev s'); Close (text "svg")]) =
    Some [Node (text "svg") attrs (nodes ++ match rev s' with [] => [] | _ => [Letters (rev s')] end)]).
  { cbn [app nest]. rewrite N. cbn [nest app]. destruct (rev s'); [rewrite app_nil_r|]; reflexivity. }
  rewrite En. unfold attrs. cbn [same]. change (same (text "svg") (text "svg")) with true. cbv iota.
  change (expect [(text "viewBox", box); (text "xmlns", text "http://www.w3.org/2000/svg")] "xmlns" "http://www.w3.org/2000/svg") with (Some tt).
  change (attr [(text "viewBox", box); (text "xmlns", text "http://www.w3.org/2000/svg")] "viewBox") with (Some box). cbn [obind].
  change (after (text "0 0 ") box) with (Some (w ++ " "%char :: h)). cbn [obind]. rewrite cut_at by (apply num_no_space, Hw). rewrite Vw, Vh. cbn [obind].
  rewrite (shapes_app nodes _ (l ++ l') [] Sh); [rewrite app_nil_r; reflexivity|].
  apply blank_rev in Hs'. destruct (rev s'); [reflexivity|]. cbn [shapes_of]. rewrite Hs'. reflexivity.
Qed.

(** what lies in a view box of less than 2^53 quarters *)
Definition tame (s : shape) : Prop :=
  match s with
  | Line _ _ _ _ w => w = 4 \/ w = 8 | Circle _ _ r _ => r = 20 | Rect _ _ w h s => 0 <= w /\ 0 <= h /\ s = 4 | Label _ _ size _ => size = 28
  end.
Lemma inside_small p s : sv_width p < 2 ^ 53 -> sv_height p < 2 ^ 53 -> tame s -> inside p s -> small_shape s.
Proof.
  intros Hw Hh Ht (H1 & H2 & H3 & H4). unfold small_shape, small. destruct s as [x1 x2 y1 y2 w|x y r b|x y w h t|x y size t]; cbn [tame left_of right_of top_of bottom_of] in *.
  - assert (w / 2 = 2 \/ w / 2 = 4) by (destruct Ht as [-> | ->]; [left|right]; reflexivity). lia.
  - lia.
  - destruct Ht as (Ht1 & Ht2 & ->). change (4 / 2) with 2 in *. lia.
  - subst size. change (28 / 2) with 14 in *. pose proof (Z.div_pos (28 * zlen t) 4 ltac:(pose proof (zlen_nonneg t); lia) ltac:(lia)). lia.
Qed.
Lemma symbol_tame x y m s : In s (symbol x y m) -> tame s.
Proof. destruct m; cbn [symbol]; intros H; repeat (destruct H as [<-|H]; [cbn [tame]; try pose proof (zlen_nonneg s0); auto; try lia|]); try destruct H. Qed.
Lemma connector_tame x qs s : In s (connector x qs) -> tame s.
Proof. destruct qs as [|a [|b l]]; cbn [connector]; intros H; try (destruct H; fail). destruct H as [<-|[]]. cbn. auto. Qed.
Lemma drawing_tame {K} x (k : kind K) name qs s : In s (drawing x k name qs) -> tame s.
Proof.
  unfold drawing. rewrite !in_app_iff. intros [H|[H|H]]; [|eapply connector_tame, H|].
  - apply in_concat in H. destruct H as (l & Hin & H). apply in_map_iff in Hin. destruct Hin as (i & <- & _). apply in_app_iff in H. destruct H as [H|H]; [eapply connector_tame, H|eapply symbol_tame, H].
  - apply in_concat in H. destruct H as (l & Hin & H). apply in_map_iff in Hin. destruct Hin as (i & <- & _). eapply symbol_tame, H.
Qed.

Section Circuit.
  Context {K : Type} {OK : OrdRing K}.
  Implicit Types h : heap K.
  Lemma text_ok big h vis args srcs order name tail ev :
    built h vis -> incl args vis -> splits_in_range h vis -> sources h args srcs -> StronglySorted lt order -> (forall i, In i order <-> ancestor h args i) ->
    enum_ok ev -> (forall i, In i order -> label (nd_kind (nd h i)) (name i) /\ unescaped (name i)) ->
    exists p t, make_svg name tail ev h args = Ok p /\ make_svg_text big name tail ev h args = Ok t /\
      (sv_width p < 2 ^ 53 -> sv_height p < 2 ^ 53 -> shown t = Some (sv_width p, sv_height p, sv_wires p ++ concat (sv_ops p))).
  Proof.
    intros B Ha Hs Hsrc Ho Hoi He Hl.
    destruct (svg_ok h vis args srcs order name tail ev B Ha Hs Hsrc Ho Hoi He (fun i Hi => proj1 (Hl i Hi))) as (p & Ep & Hwires & Hdrawn & _ & Hin). exists p.
    pose proof (built_wf _ _ B) as W. pose proof (splits_anc h vis args W Ha Hs) as Hsp.
    destruct (graph_trace h vis args srcs order W Ha Hsp Hsrc Ho Hoi ev He) as (fr & gn & E1 & Pf & Es & E2).
    assert (Ep' := Ep). unfold make_svg in Ep'. unfold make_svg_text. rewrite E1 in *. cbn [bind fst snd] in *. rewrite Es in *. rewrite E2 in Ep' by apply Permutation_refl. rewrite E2 by apply Permutation_refl.
    destruct (sfold (fun a i => svg_feed name tail h a i (map (wire h srcs) (inputs_of h i))) order (mkSvgacc 0 [])) as [a [[]|e]] eqn:Ef; [|discriminate].
    assert (L0 : linked (mkSvgacc 0 []) (mkTextacc [] (NInt 0) [])) by (unfold linked; cbn; repeat split; auto; lia).
    destruct (feeds_linked big name tail h (fun i => map (wire h srcs) (inputs_of h i)) order _ _ a Hl L0 Ef) as (ta & -> & L1 & L2 & L3 & L4).
    eexists. split; [exact Ep|]. split; [reflexivity|]. intros Hw Hh. injection Ep' as Ep'.
    set (n := fold_left (fun a f => a + nd_n (nd h f)) srcs 0) in *.
    assert (Ew : quarters (nadd (ta_max ta) (NInt opbuffer)) = sv_width p) by (rewrite q_add, L1, <- Ep'; reflexivity).
    assert (Hw0 : small (sv_width p)) by (unfold small; rewrite Z.abs_eq; [exact Hw|]; rewrite <- Ep'; cbn [get_svg_text sv_width]; unfold opbuffer; lia).
    assert (Eh : sv_height p = 4 * (linespacing * n + 2 * opheight)) by (rewrite <- Ep'; reflexivity).
    unfold svg_text, build. cbn [fst snd ta_svg ta_max ta_ops]. rewrite L4. cbn [app]. apply svg_shows.
    - apply fmt_chars. rewrite Ew. exact Hw0.
    - apply int_ok.
    - rewrite fmt_value; rewrite Ew; auto.
    - rewrite Eh. apply int_ok.
    - assert (Ewi : sv_wires p = concat (map (fun i => [Line 0 (sv_width p) (4 * (i * linespacing + opheight)) (4 * (i * linespacing + opheight)) (4 * linewidth)]) (zrange 0 n))).
      { rewrite <- Ep'. cbn [get_svg_text sv_wires sv_width]. induction (zrange 0 n) as [|i l IH]; [reflexivity|]. cbn [map concat app]. f_equal. exact IH. }
      rewrite Ewi. apply (den_map (fun i => line_str big (NInt 0) (nadd (ta_max ta) (NInt opbuffer)) (ny i) (ny i) (NInt linewidth))).
      + intros i. apply line_den; auto.
      + intros s Hi. apply in_concat in Hi. destruct Hi as (l & Hi & Hi'). apply in_map_iff in Hi. destruct Hi as (i & <- & Hi). destruct Hi' as [<-|[]]. apply in_zrange in Hi.
        unfold linespacing, opheight in *. assert (small (4 * (i * 20 + 10))) by (unfold small; lia). assert (small 0) by (unfold small; lia). assert (small (4 * linewidth)) by (unfold small, linewidth; lia).
        cbn [small_shape]. auto.
    - replace (sv_ops p) with (sa_ops a) by (rewrite <- Ep'; reflexivity). apply join_den; [exact L3|]. intros s Hi. apply (inside_small p); auto.
      + replace (sa_ops a) with (sv_ops p) in Hi by (rewrite <- Ep'; reflexivity). apply in_concat in Hi. destruct Hi as (l & Hi & Hi').
        clear - Hdrawn Hi Hi'. induction Hdrawn as [|j l1 js ls Hj HF IH]; [destruct Hi|]. destruct Hi as [<-|Hi]; [|apply IH, Hi].
        destruct Hj as (x & gs & _ & ->). eapply drawing_tame, Hi'.
      + apply Hin. rewrite <- Ep'. exact Hi.
  Qed.

  Lemma feeds_width name tail h (f : nat -> list (list Z)) : forall l a a', (forall i, In i l -> label (nd_kind (nd h i)) (name i)) ->
    sfold (fun a i => svg_feed name tail h a i (f i)) l a = (a', Ok tt) -> sa_max a' = sa_max a + columns (map name (filter (is_op h) l)).
  Proof.
    induction l as [|i l IH]; intros a a' Hl H; cbn [sfold] in H; [injection H as <-; cbn; lia|].
    destruct (svg_feed name tail h a i (f i)) as [a1 [[]|e]] eqn:E; [cbn [sbind] in H|discriminate]. apply IH in H; [|intros; apply Hl; right; auto]. rewrite H.
    assert (Hi := Hl i (or_introl eq_refl)). destruct (label_plain _ _ Hi) as [P1 P2]. unfold svg_feed in E. rewrite (op_name_ok name tail i P1 P2), (label_shown _ _ Hi) in E. cbn [filter].
    replace (is_op h i) with (negb (match nd_kind (nd h i) with KQubit | KSplit _ => true | _ => false end)) by (unfold is_op; destruct (nd_kind (nd h i)); reflexivity).
    destruct (match nd_kind (nd h i) with KQubit | KSplit _ => true | _ => false end); cbn [negb].
    - injection E as <-. reflexivity.
    - rewrite col_size in E. destruct (node_shapes _ _ _ _) as [s|e]; [|discriminate].
      assert (Ea : sa_max a1 = sa_max (fst (a1, Ok tt : res unit))) by reflexivity. rewrite <- E in Ea. cbn [fst sa_max] in Ea. rewrite Ea.
      change (4 * opbuffer) with 40. cbn [map columns fold_right]. unfold columns. lia.
  Qed.
  Lemma svg_text_ok big h vis args srcs order name tail ev :
    built h vis -> incl args vis -> splits_in_range h vis -> sources h args srcs -> StronglySorted lt order -> (forall i, In i order <-> ancestor h args i) ->
    enum_ok ev -> (forall i, In i order -> label (nd_kind (nd h i)) (name i) /\ unescaped (name i)) ->
    40 + columns (map name (filter (is_op h) order)) < 2 ^ 53 -> 80 * widths h srcs + 80 < 2 ^ 53 ->
    exists t p, make_svg_text big name tail ev h args = Ok t /\ shown t = Some (sv_width p, sv_height p, sv_wires p ++ concat (sv_ops p)) /\
      sv_width p = 40 + columns (map name (filter (is_op h) order)) /\ sv_height p = 80 * widths h srcs + 80 /\
      sv_wires p = map (fun q => Line 0 (sv_width p) (wire_y q) (wire_y q) 8) (zrange 0 (widths h srcs)) /\
      Forall2 (drawn h srcs name) (filter (is_op h) order) (sv_ops p) /\
      StronglySorted (before 24) (sv_ops p) /\ forall s, In s (concat (sv_ops p)) -> inside p s.
  Proof.
    intros B Ha Hs Hsrc Ho Hoi He Hl Hw Hh.
    destruct (text_ok big h vis args srcs order name tail ev B Ha Hs Hsrc Ho Hoi He Hl) as (p & t & Ep & Et & Hsh).
    destruct (svg_ok h vis args srcs order name tail ev B Ha Hs Hsrc Ho Hoi He (fun i Hi => proj1 (Hl i Hi))) as (p' & Ep' & Hwires & Hdrawn & Hsort & Hin).
    assert (p' = p) by congruence. subst p'. clear Ep'. exists t, p.
    assert (Edim : sv_width p = 40 + columns (map name (filter (is_op h) order)) /\ sv_height p = 80 * widths h srcs + 80).
    { pose proof (built_wf _ _ B) as W. pose proof (splits_anc h vis args W Ha Hs) as Hsp.
      destruct (graph_trace h vis args srcs order W Ha Hsp Hsrc Ho Hoi ev He) as (fr & gn & E1 & Pf & Es & E2).
      unfold make_svg in Ep. rewrite E1 in Ep. cbn [bind fst snd] in Ep. rewrite Es in Ep. rewrite E2 in Ep by apply Permutation_refl.
      destruct (sfold (fun a i => svg_feed name tail h a i (map (wire h srcs) (inputs_of h i))) order (mkSvgacc 0 [])) as [a [[]|e]] eqn:Ef; [|discriminate].
      apply feeds_width in Ef; [|intros i Hi; apply Hl, Hi]. cbn [sa_max] in Ef. injection Ep as <-. cbn [get_svg_text sv_width sv_height]. unfold opbuffer, linespacing, opheight. split; [lia|].
      assert (X : forall l a, fold_left (fun a f => a + nd_n (nd h f)) l a = a + widths h l).
      { induction l as [|x l IH]; intros a0; cbn [fold_left widths fold_right]; [lia|]. rewrite IH. unfold widths, width. lia. }
      rewrite X. lia. }
    destruct Edim as [Ew Eh]. split; [exact Et|]. split; [apply Hsh; lia|]. auto 7.
  Qed.
End Circuit.
