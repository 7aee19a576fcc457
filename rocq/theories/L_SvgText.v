(** Proofs for the text of make_svg. *)
From Coq Require Import Ascii String.
From Verif Require Import Base M_Print S_Print L_Print M_Svg M_SvgText S_SvgText.
Open Scope Z_scope.

(** ** numbers *)
Lemma number_acc : forall s v, fold_left (fun v c => 10 * v + digit_value c) s v = v * 10 ^ zlen s + number s.
Proof.
  unfold number. induction s as [|c s IH]; intros v; [cbn [fold_left]; change (zlen (@nil ascii)) with 0; rewrite Z.pow_0_r; lia|]. cbn [fold_left]. rewrite IH, (IH (10 * 0 + digit_value c)). rewrite zlen_cons.
  rewrite Z.pow_add_r by (pose proof (zlen_nonneg s); lia). lia.
Qed.
Lemma number_app s t : number (s ++ t) = number s * 10 ^ zlen t + number t.
Proof. unfold number at 1. rewrite fold_left_app. apply number_acc. Qed.
Lemma str_int_only n : 0 <= n -> digits_only (str_int n) = true.
Proof.
  intros Hn. pose proof (str_int_len n Hn) as Hl. pose proof (str_int_digits n Hn) as Hd. unfold digits_only. destruct (str_int n) as [|c s]; [cbn in Hl; lia|].
  apply forallb_forall. intros x Hx. specialize (Hd x Hx). unfold is_digit. lia.
Qed.
Lemma str_int_no n c : 0 <= n -> ~ 0 <= digit_value c < 10 -> ~ In c (str_int n).
Proof. intros Hn Hc Hi. apply Hc, (str_int_digits n Hn), Hi. Qed.
Lemma cut_none c : forall s, ~ In c s -> cut c s = (s, None).
Proof.
  induction s as [|x s IH]; intros H; [reflexivity|]. cbn [cut]. destruct (x =? c)%char eqn:E; [apply Ascii.eqb_eq in E; exfalso; apply H; left; auto|].
  rewrite IH; [reflexivity|]. intros Hi. apply H. right. exact Hi.
Qed.
Lemma cut_at c t : forall s, ~ In c s -> cut c (s ++ c :: t) = (s, Some t).
Proof.
  induction s as [|x s IH]; intros H; cbn [cut app]; [rewrite Ascii.eqb_refl; reflexivity|]. destruct (x =? c)%char eqn:E; [apply Ascii.eqb_eq in E; exfalso; apply H; left; auto|].
  rewrite IH; [reflexivity|]. intros Hi. apply H. right. exact Hi.
Qed.
Lemma magnitude_int n : 0 <= n -> magnitude (str_int n) = Some (4 * n).
Proof. intros Hn. unfold magnitude. rewrite cut_none by (apply str_int_no; [exact Hn|change (digit_value ".") with (-2); lia]). rewrite str_int_only, str_int_value by exact Hn. reflexivity. Qed.
Definition fraction (r : Z) : str := nth (Z.to_nat r) [text "0"; text "25"; text "5"; text "75"] [].
Lemma fraction_cases r : 0 <= r < 4 -> r = 0 \/ r = 1 \/ r = 2 \/ r = 3. Proof. lia. Qed.
Lemma magnitude_float q : 0 <= q -> magnitude (str_int (q / 4) ++ text "." ++ fraction (q mod 4)) = Some q.
Proof.
  intros Hq. pose proof (Z.div_pos q 4 Hq ltac:(lia)) as Hd. unfold magnitude. change (text "." ++ fraction (q mod 4)) with ("."%char :: fraction (q mod 4)).
  rewrite cut_at by (apply str_int_no; [exact Hd|change (digit_value ".") with (-2); lia]). rewrite str_int_only by exact Hd. rewrite number_app, str_int_value by exact Hd.
  pose proof (Z.div_mod q 4 ltac:(lia)) as E. destruct (fraction_cases (q mod 4)) as [H|[H|[H|H]]]; [apply Z.mod_pos_bound; lia|..]; rewrite H in E |- *; remember (q / 4) as d eqn:Ed; clear Ed.
  - change (digits_only (fraction 0)) with true. change (number (fraction 0)) with 0. change (10 ^ zlen (fraction 0)) with 10. cbn [andb]. cbv zeta.
    replace (4 * (d * 10 + 0)) with (4 * d * 10) by lia. rewrite Z.mod_mul, Z.div_mul by lia. cbn [Z.eqb]. f_equal. lia.
  - change (digits_only (fraction 1)) with true. change (number (fraction 1)) with 25. change (10 ^ zlen (fraction 1)) with 100. cbn [andb]. cbv zeta.
    replace (4 * (d * 100 + 25)) with ((4 * d + 1) * 100) by lia. rewrite Z.mod_mul, Z.div_mul by lia. cbn [Z.eqb]. f_equal. lia.
  - change (digits_only (fraction 2)) with true. change (number (fraction 2)) with 5. change (10 ^ zlen (fraction 2)) with 10. cbn [andb]. cbv zeta.
    replace (4 * (d * 10 + 5)) with ((4 * d + 2) * 10) by lia. rewrite Z.mod_mul, Z.div_mul by lia. cbn [Z.eqb]. f_equal. lia.
  - change (digits_only (fraction 3)) with true. change (number (fraction 3)) with 75. change (10 ^ zlen (fraction 3)) with 100. cbn [andb]. cbv zeta.
    replace (4 * (d * 100 + 75)) with ((4 * d + 3) * 100) by lia. rewrite Z.mod_mul, Z.div_mul by lia. cbn [Z.eqb]. f_equal. lia.
Qed.

(** the characters of numbers *)
Definition num_char (c : ascii) : bool := is_digit c || (c =? ".")%char || (c =? "-")%char.
Definition small (q : Z) : Prop := Z.abs q < 2 ^ 53.
Section Big.
  Variable big : Z -> str.
  Notation fmt := (fmt big).
  Lemma str_int_chars n : 0 <= n -> forallb num_char (str_int n) = true.
  Proof. intros Hn. apply forallb_forall. intros c Hc. apply (str_int_digits n Hn) in Hc. unfold num_char, is_digit. rewrite (proj2 (Z.leb_le 0 _)), (proj2 (Z.leb_le _ 9)) by lia. reflexivity. Qed.
  Lemma fraction_chars r : forallb num_char (fraction r) = true.
  Proof. unfold fraction. destruct (Z.to_nat r) as [|[|[|[|[|n]]]]]; reflexivity. Qed.
  Lemma signed_chars q s : forallb num_char s = true -> forallb num_char (signed q s) = true.
  Proof. intros H. unfold signed. destruct (q <? 0); [cbn [forallb]; rewrite H; reflexivity|exact H]. Qed.
  Lemma fmt_chars a : small (quarters a) -> forallb num_char (fmt a) = true.
  Proof.
    intros Hs. destruct a as [z|q]; cbn [M_SvgText.fmt].
    - apply signed_chars, str_int_chars. lia.
    - cbn [quarters] in Hs. unfold small in Hs. rewrite (proj2 (Z.ltb_lt _ _) Hs). apply signed_chars. rewrite !forallb_app. rewrite str_int_chars by (apply Z.div_pos; lia).
      cbn [andb forallb text list_ascii_of_string]. apply (fraction_chars (Z.abs q mod 4)).
  Qed.
  Lemma value_signed q s v : (match s with c :: _ => is_digit c | [] => false end) = true -> magnitude s = Some v -> value_of (signed q s) = Some (if q <? 0 then - v else v).
  Proof.
    intros Hc Hm. unfold signed. destruct (q <? 0); [unfold value_of; rewrite Hm; reflexivity|]. destruct s as [|c s]; [discriminate|]. unfold value_of.
    destruct c as [[] [] [] [] [] [] [] []]; try exact Hm. exfalso. revert Hc. vm_compute. discriminate.
  Qed.
  Lemma head_digit n t : 0 <= n -> (match str_int n ++ t with c :: _ => is_digit c | [] => false end) = true.
  Proof.
    intros Hn. pose proof (str_int_only n Hn) as H. unfold digits_only in H. destruct (str_int n) as [|c s]; [discriminate|]. cbn [app]. cbn [forallb] in H. apply andb_prop in H. apply H.
  Qed.
  Lemma fmt_value a : small (quarters a) -> value_of (fmt a) = Some (quarters a).
  Proof.
    intros Hs. destruct a as [z|q]; cbn [M_SvgText.fmt].
    - erewrite value_signed; [|pose proof (head_digit (Z.abs z) [] ltac:(lia)) as H; rewrite app_nil_r in H; exact H|apply magnitude_int; lia].
      cbn [quarters]. destruct (Z.ltb_spec z 0); f_equal; lia.
    - cbn [quarters] in Hs |- *. unfold small in Hs. rewrite (proj2 (Z.ltb_lt _ _) Hs).
      erewrite value_signed; [|apply head_digit, Z.div_pos; lia|apply (magnitude_float (Z.abs q)); lia]. destruct (Z.ltb_spec q 0); f_equal; lia.
  Qed.
End Big.

(** ** reading *)
Lemma read_app : forall s t p p1 l1 p2 l2, read p s = (p1, l1) -> read p1 t = (p2, l2) -> read p (s ++ t) = (p2, l1 ++ l2).
Proof.
  induction s as [|c s IH]; intros t p p1 l1 p2 l2 H1 H2; cbn [read app] in *; [injection H1 as <- <-; exact H2|].
  destruct (read_char p c) as [p' l]. destruct (read p' s) as [p'' l'] eqn:E. injection H1 as <- <-. rewrite (IH t _ _ _ _ _ E H2). rewrite app_assoc. reflexivity.
Qed.
Definition value_char (c : ascii) : bool := negb ((c =? quote)%char || (c =? "<")%char || (c =? "&")%char).
Lemma num_value_char c : num_char c = true -> value_char c = true.
Proof. destruct c as [[] [] [] [] [] [] [] []]; vm_compute; congruence. Qed.
Lemma nums_value s : forallb num_char s = true -> forallb value_char s = true.
Proof. rewrite !forallb_forall. intros H c Hc. apply num_value_char, H, Hc. Qed.
Lemma read_value t a b rest p l : forall v r, forallb value_char v = true -> read (AfterValue t (a ++ [(b, rev r ++ v)])) rest = (p, l) ->
  read (Value t a b r) (v ++ quote :: rest) = (p, l).
Proof.
  induction v as [|c v IH]; intros r Hv H.
  - cbn [app read read_char]. rewrite Ascii.eqb_refl. rewrite app_nil_r in H. rewrite H. reflexivity.
  - cbn [forallb] in Hv. apply andb_prop in Hv. destruct Hv as [Hc Hv]. cbn [app read read_char]. unfold value_char in Hc.
    destruct (c =? quote)%char; [discriminate|]. destruct ((c =? "<")%char || (c =? "&")%char) eqn:E; [rewrite <- orb_assoc, E in Hc; discriminate|].
    rewrite (IH (c :: r) Hv); [reflexivity|]. cbn [rev]. rewrite <- app_assoc. exact H.
Qed.
Lemma read_quoted t a b v rest p l : forallb value_char v = true -> read (AfterValue t (a ++ [(b, v)])) rest = (p, l) -> read (Value t a b []) (v ++ quote :: rest) = (p, l).
Proof. intros. apply read_value; auto. Qed.
Lemma read_letters rest p l : forall v r, unescaped v -> read (Outside (rev v ++ r)) rest = (p, l) -> read (Outside r) (v ++ rest) = (p, l).
Proof.
  induction v as [|c v IH]; intros r Hv H; [exact H|]. destruct (Hv c (or_introl eq_refl)) as [H1 H2]. cbn [app read read_char].
  rewrite (proj2 (Ascii.eqb_neq _ _) H1), (proj2 (Ascii.eqb_neq _ _) H2). rewrite (IH (c :: r)); [reflexivity|intros x Hx; apply Hv; right; exact Hx|].
  cbn [rev] in H. rewrite <- app_assoc in H. exact H.
Qed.

(** text t shows the shapes ls *)
Definition denotes (t : str) (ls : list shape) : Prop := forall s, blank_text s = true -> exists s' toks nodes,
  blank_text s' = true /\ read (Outside s) t = (Outside s', toks) /\
  (forall stack content rest, nest stack content (toks ++ rest) = nest stack (content ++ nodes) rest) /\ shapes_of nodes = Some ls.
Lemma shapes_app l l' s s' : shapes_of l = Some s -> shapes_of l' = Some s' -> shapes_of (l ++ l') = Some (s ++ s').
Proof.
  revert s. induction l as [|[t a c|w] l IH]; intros s H H'; cbn [shapes_of app] in *; [injection H as <-; exact H'| |].
  - destruct (shape_of t a c); [cbn [obind] in *|discriminate]. destruct (shapes_of l) as [sl|]; [|discriminate]. cbn [obind] in *. injection H as <-. rewrite (IH sl eq_refl H'). reflexivity.
  - destruct (blank_text w); [|discriminate]. apply IH; auto.
Qed.
Lemma denotes_nil : denotes [] [].
Proof. intros s Hs. exists s, [], []. split; [exact Hs|]. split; [reflexivity|]. split; [intros; cbn; rewrite app_nil_r; reflexivity|reflexivity]. Qed.
Lemma denotes_app t t' l l' : denotes t l -> denotes t' l' -> denotes (t ++ t') (l ++ l').
Proof.
  intros H H' s Hs. destruct (H s Hs) as (s1 & k1 & n1 & B1 & R1 & N1 & S1). destruct (H' s1 B1) as (s2 & k2 & n2 & B2 & R2 & N2 & S2).
  exists s2, (k1 ++ k2), (n1 ++ n2). split; [exact B2|]. split; [eapply read_app; eauto|]. split; [|apply shapes_app; auto].
  intros. rewrite <- app_assoc, N1, N2, <- app_assoc. reflexivity.
Qed.
Lemma denotes_white c t l : white c = true -> denotes t l -> denotes (c :: t) l.
Proof.
  intros Hc H. change (c :: t) with ([c] ++ t). change l with ([] ++ l). apply denotes_app; [|exact H]. intros s Hs. exists (c :: s), [], [].
  split; [cbn; rewrite Hc; exact Hs|]. split; [|split; [intros; cbn; rewrite app_nil_r; reflexivity|reflexivity]].
  cbn [read read_char]. destruct (c =? "<")%char eqn:E1; [apply Ascii.eqb_eq in E1; subst; discriminate|]. destruct (c =? "&")%char eqn:E2; [apply Ascii.eqb_eq in E2; subst; discriminate|]. reflexivity.
Qed.
(** an element: what is read after < *)
Lemma blank_rev s : blank_text s = true -> blank_text (rev s) = true.
Proof. unfold blank_text. rewrite !forallb_forall. intros H c Hc. apply H, in_rev, Hc. Qed.
Lemma denotes_element t s' toks n l : blank_text s' = true -> read AfterLess t = (Outside s', toks) ->
  (forall stack content rest, nest stack content (toks ++ rest) = nest stack (content ++ [n]) rest) -> shapes_of [n] = Some l -> denotes ("<"%char :: t) l.
Proof.
  intros Hs R N S s Hb. exists s', (Chars (rev s) :: toks), (match rev s with [] => [] | _ => [Letters (rev s)] end ++ [n]). split; [exact Hs|]. split; [|split].
  - cbn [read read_char]. rewrite Ascii.eqb_refl, R. reflexivity.
  - intros. rewrite <- app_comm_cons. cbn [nest]. rewrite N. f_equal. destruct (rev s); [reflexivity|]. rewrite <- app_assoc. reflexivity.
  - apply (shapes_app _ _ []); [|exact S]. apply blank_rev in Hb. destruct (rev s); [reflexivity|]. cbn [shapes_of]. rewrite Hb. reflexivity.
Qed.
Ltac lit := eapply read_app; [cbv; reflexivity|].
Ltac val := eapply read_quoted; [assumption|].

Lemma line_shows a b c d e (x1 x2 y1 y2 w : Z) :
  forallb value_char a = true -> forallb value_char b = true -> forallb value_char c = true -> forallb value_char d = true -> forallb value_char e = true ->
  value_of a = Some x1 -> value_of b = Some x2 -> value_of c = Some y1 -> value_of d = Some y2 -> value_of e = Some w ->
  denotes (format (text "<line x1=""{}"" x2=""{}"" y1=""{}"" y2=""{}"" style=""stroke:black;stroke-width:{}""></line>" ++ [ascii_of_nat 10]) [a; b; c; d; e])
    [Line x1 x2 y1 y2 w].
Proof.
  intros Ha Hb Hc Hd He Va Vb Vc Vd Ve.
  change (format _ _) with ("<"%char :: text "line x1=""" ++ a ++ quote :: text " x2=""" ++ b ++ quote :: text " y1=""" ++ c ++ quote :: text " y2=""" ++ d ++ quote ::
    text " style=""" ++ (text "stroke:black;stroke-width:" ++ e) ++ quote :: text "></line>" ++ [ascii_of_nat 10]).
  assert (Hst : forallb value_char (text "stroke:black;stroke-width:" ++ e) = true) by (rewrite forallb_app, He; reflexivity).
  eapply denotes_element.
  2:{ lit. val. lit. val. lit. val. lit. val. lit. val. lit. cbv. reflexivity. }
  - reflexivity.
  - intros. reflexivity.
  - cbv -[value_of]. rewrite Va, Vb, Vc, Vd, Ve. reflexivity.
Qed.
Lemma circle_shows a b c (x y r : Z) (black : bool) :
  forallb value_char a = true -> forallb value_char b = true -> forallb value_char c = true ->
  value_of a = Some x -> value_of b = Some y -> value_of c = Some r ->
  denotes (format (text "<circle cx=""{}"" cy=""{}"" r=""{}"" stroke=""black"" stroke-width=""1"" fill=""") [a; b; c] ++
           text (if black then "black" else "white") ++ text """ />") [Circle x y r black].
Proof.
  intros Ha Hb Hc Va Vb Vc.
  destruct black.
  - change (format _ _ ++ _) with ((("<"%char :: text "circle cx=""" ++ a ++ quote :: text " cy=""" ++ b ++ quote :: text " r=""" ++ c ++ quote ::
      text " stroke=""black"" stroke-width=""1"" fill=""") ++ text "black" ++ text """ />")).
    replace (_ ++ _ ++ _) with ("<"%char :: text "circle cx=""" ++ a ++ quote :: text " cy=""" ++ b ++ quote :: text " r=""" ++ c ++ quote ::
      text " stroke=""black"" stroke-width=""1"" fill=""black"" />") by (cbn [app text list_ascii_of_string]; rewrite <- !app_assoc; cbn [app]; rewrite <- !app_assoc; cbn [app]; rewrite <- !app_assoc; reflexivity).
    eapply denotes_element.
    2:{ lit. val. lit. val. lit. val. cbv. reflexivity. }
    + reflexivity.
    + intros. reflexivity.
    + cbv -[value_of]. rewrite Va, Vb, Vc. reflexivity.
  - change (format _ _ ++ _) with ((("<"%char :: text "circle cx=""" ++ a ++ quote :: text " cy=""" ++ b ++ quote :: text " r=""" ++ c ++ quote ::
      text " stroke=""black"" stroke-width=""1"" fill=""") ++ text "white" ++ text """ />")).
    replace (_ ++ _ ++ _) with ("<"%char :: text "circle cx=""" ++ a ++ quote :: text " cy=""" ++ b ++ quote :: text " r=""" ++ c ++ quote ::
      text " stroke=""black"" stroke-width=""1"" fill=""white"" />") by (cbn [app text list_ascii_of_string]; rewrite <- !app_assoc; cbn [app]; rewrite <- !app_assoc; cbn [app]; rewrite <- !app_assoc; reflexivity).
    eapply denotes_element.
    2:{ lit. val. lit. val. lit. val. cbv. reflexivity. }
    + reflexivity.
    + intros. reflexivity.
    + cbv -[value_of]. rewrite Va, Vb, Vc. reflexivity.
Qed.
Lemma rect_shows a b c d e (x y w h s : Z) :
  forallb value_char a = true -> forallb value_char b = true -> forallb value_char c = true -> forallb value_char d = true -> forallb value_char e = true ->
  value_of a = Some x -> value_of b = Some y -> value_of c = Some w -> value_of d = Some h -> value_of e = Some s ->
  denotes (format (text "<rect x=""{}"" y=""{}"" width=""{}"" height=""{}"" style=""fill:white;stroke:black;stroke-width:{}""></rect>") [a; b; c; d; e])
    [Rect x y w h s].
Proof.
  intros Ha Hb Hc Hd He Va Vb Vc Vd Ve.
  change (format _ _) with ("<"%char :: text "rect x=""" ++ a ++ quote :: text " y=""" ++ b ++ quote :: text " width=""" ++ c ++ quote :: text " height=""" ++ d ++ quote ::
    text " style=""" ++ (text "fill:white;stroke:black;stroke-width:" ++ e) ++ quote :: text "></rect>").
  assert (Hst : forallb value_char (text "fill:white;stroke:black;stroke-width:" ++ e) = true) by (rewrite forallb_app, He; reflexivity).
  eapply denotes_element.
  2:{ lit. val. lit. val. lit. val. lit. val. lit. val. cbv. reflexivity. }
  - reflexivity.
  - intros. reflexivity.
  - cbv -[value_of]. rewrite Va, Vb, Vc, Vd, Ve. reflexivity.
Qed.
Lemma label_shows a b c name (x y size : Z) :
  forallb value_char a = true -> forallb value_char b = true -> forallb value_char c = true -> unescaped name -> name <> [] ->
  value_of a = Some x -> value_of b = Some y -> value_of c = Some size ->
  denotes (format (text "<text x=""{}"" y=""{}"" font-size=""{}"" alignment-baseline=""middle"" text-anchor=""middle"">{}</text>" ++ [ascii_of_nat 10]) [a; b; c; name])
    [Label x y size name].
Proof.
  intros Ha Hb Hc Hn Hne Va Vb Vc.
  change (format _ _) with ("<"%char :: text "text x=""" ++ a ++ quote :: text " y=""" ++ b ++ quote :: text " font-size=""" ++ c ++ quote ::
    text " alignment-baseline=""middle"" text-anchor=""middle"">" ++ name ++ "<"%char :: text "/text>" ++ [ascii_of_nat 10]).
  eapply (denotes_element _ _ _ (Node (text "text") [(text "x", a); (text "y", b); (text "font-size", c); (text "alignment-baseline", text "middle"); (text "text-anchor", text "middle")] [Letters name])).
  2:{ lit. val. lit. val. lit. val. lit. apply read_letters; [exact Hn|]. rewrite app_nil_r. cbn [read read_char]. rewrite Ascii.eqb_refl, rev_involutive. cbv. reflexivity. }
  - reflexivity.
  - intros. destruct name as [|ch name]; [contradiction|]. reflexivity.
  - cbv -[value_of]. rewrite Va, Vb, Vc. reflexivity.
Qed.

(** ** ops *)
Definition small_shape (s : shape) : Prop :=
  match s with
  | Line x1 x2 y1 y2 w => small x1 /\ small x2 /\ small y1 /\ small y2 /\ small w
  | Circle x y r _ => small x /\ small y /\ small r
  | Rect x y w h s => small x /\ small y /\ small w /\ small h /\ small s
  | Label x y size _ => small x /\ small y /\ small size
  end.
Definition den (t : str) (l : list shape) : Prop := (forall s, In s l -> small_shape s) -> denotes t l.
Lemma den_app t t' l l' : den t l -> den t' l' -> den (t ++ t') (l ++ l').
Proof. intros H H' Hs. apply denotes_app; [apply H|apply H']; intros s Hi; apply Hs, in_app_iff; auto. Qed.
Lemma den_nil : den [] []. Proof. intros _. apply denotes_nil. Qed.
Lemma den_map {A} (f : A -> str) (g : A -> list shape) : (forall x, den (f x) (g x)) -> forall l, den (concat (map f l)) (concat (map g l)).
Proof. intros H l. induction l as [|x l IH]; [apply den_nil|]. cbn [map concat]. apply den_app; auto. Qed.
Lemma q_add a b : quarters (nadd a b) = quarters a + quarters b.
Proof. destruct a as [u|u], b as [v|v]; cbn [nadd quarters]; lia. Qed.
Lemma q_sub a b : quarters (nsub a b) = quarters a - quarters b.
Proof. destruct a as [u|u], b as [v|v]; cbn [nsub quarters]; lia. Qed.
Lemma q_twice a : quarters (ntwice a) = 2 * quarters a.
Proof. destruct a as [u|u]; cbn [ntwice quarters]; lia. Qed.
Section Ops.
  Variable big : Z -> str.
  Lemma fmt_ok a x : quarters a = x -> small x -> forallb value_char (fmt big a) = true /\ value_of (fmt big a) = Some x.
  Proof. intros <- Hs. split; [apply nums_value, fmt_chars, Hs|apply fmt_value, Hs]. Qed.
  Lemma line_den a b c d e x1 x2 y1 y2 w : quarters a = x1 -> quarters b = x2 -> quarters c = y1 -> quarters d = y2 -> quarters e = w ->
    den (line_str big a b c d e) [Line x1 x2 y1 y2 w].
  Proof.
    intros E1 E2 E3 E4 E5 Hs. destruct (Hs _ (or_introl eq_refl)) as (S1 & S2 & S3 & S4 & S5).
    destruct (fmt_ok _ _ E1 S1), (fmt_ok _ _ E2 S2), (fmt_ok _ _ E3 S3), (fmt_ok _ _ E4 S4), (fmt_ok _ _ E5 S5). apply line_shows; assumption.
  Qed.
  Lemma circle_den a b c x y r (black : bool) : quarters a = x -> quarters b = y -> quarters c = r -> den (circle_str big a b c (text (if black then "black" else "white"))) [Circle x y r black].
  Proof.
    intros E1 E2 E3 Hs. destruct (Hs _ (or_introl eq_refl)) as (S1 & S2 & S3).
    destruct (fmt_ok _ _ E1 S1), (fmt_ok _ _ E2 S2), (fmt_ok _ _ E3 S3). apply circle_shows; assumption.
  Qed.
  Lemma rect_den a b c d e x y w h s : quarters a = x -> quarters b = y -> quarters c = w -> quarters d = h -> quarters e = s ->
    den (rect_str big a b c d e) [Rect x y w h s].
  Proof.
    intros E1 E2 E3 E4 E5 Hs. destruct (Hs _ (or_introl eq_refl)) as (S1 & S2 & S3 & S4 & S5).
    destruct (fmt_ok _ _ E1 S1), (fmt_ok _ _ E2 S2), (fmt_ok _ _ E3 S3), (fmt_ok _ _ E4 S4), (fmt_ok _ _ E5 S5). apply rect_shows; assumption.
  Qed.
  Lemma label_den a b c x y size name : unescaped name -> name <> [] -> quarters a = x -> quarters b = y -> quarters c = size -> den (text_str big a b c name) [Label x y size name].
  Proof.
    intros Hu Hn E1 E2 E3 Hs. destruct (Hs _ (or_introl eq_refl)) as (S1 & S2 & S3).
    destruct (fmt_ok _ _ E1 S1), (fmt_ok _ _ E2 S2), (fmt_ok _ _ E3 S3). apply label_shows; assumption.
  Qed.

  Lemma q_ny i : quarters (ny i) = 4 * (i * linespacing + opheight). Proof. reflexivity. Qed.
  Lemma q_nh2 : quarters nh2 = 4 * opheight / 2. Proof. reflexivity. Qed.
  Variables (xn : num) (x : Z).
  Hypothesis Hx : quarters xn = x.
  Lemma behind_den qs : den (behind_str big xn qs) (behind x qs).
  Proof. unfold behind_str, behind. destruct (1 <? zlen qs); [|apply den_nil]. apply line_den; auto. Qed.
  Lemma swap_den qs : den (swap_str big xn qs) (swap_shapes x qs).
  Proof.
    unfold swap_str, swap_shapes. apply den_map. intros q. cbv zeta. match goal with |- den _ [?a; ?b] => change [a; b] with ([a] ++ [b]) end.
    apply den_app; apply line_den; rewrite ?q_sub, ?q_add, ?Hx, ?q_nh2; reflexivity.
  Qed.
  Lemma not_den qs : den (not_str big xn qs) (not_shapes x qs).
  Proof.
    unfold not_str, not_shapes. apply den_map. intros q. cbv zeta. match goal with |- den _ [?a; ?b; ?c] => change [a; b; c] with ([a] ++ [b] ++ [c]) end.
    apply den_app; [apply (circle_den _ _ _ _ _ _ false)|apply den_app; apply line_den]; rewrite ?q_sub, ?q_add, ?Hx, ?q_nh2; reflexivity.
  Qed.
  Lemma box_den name qs : unescaped name -> name <> [] -> den (box_str big name xn qs) (box_shapes name x qs).
  Proof.
    intros Hu Hn. unfold box_str, box_shapes. apply den_map. intros q. cbv zeta. match goal with |- den _ [?a; ?b] => change [a; b] with ([a] ++ [b]) end.
    assert (E : quarters (nadd (nhalf (nhalf (NInt (font_size * zlen name)))) (NInt 1)) = 4 * font_size * zlen name / 2 / 2 + 4).
    { rewrite q_add. cbn [nhalf quarters]. rewrite Z.mul_assoc. reflexivity. }
    apply den_app; [apply rect_den|apply label_den; auto]; rewrite ?q_sub, ?q_twice, ?E, ?Hx, ?q_nh2; reflexivity.
  Qed.
End Ops.
