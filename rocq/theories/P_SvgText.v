(** The text of drawings of circuits: C103. *)
From Coq Require Import Ascii String Sorted.
From Verif Require Import Base M_Kron M_Ops M_Graph S_Graph L_Graph1 L_Graph2 M_Print S_Print M_Svg S_Svg M_SvgText S_SvgText L_SvgText2 P_Graph P_Print P_Svg.
Open Scope Z_scope.

(** The text is a document that a reader of XML and svg understands, and what it shows is the drawing of C63: the wires, and on
    top of them the ops in the order of execution, each on the qubits run applies it to, apart from each other and inside the
    view box. [big] is how Python writes floats that need more than 53 bits; the pictures are not that large. *)
Theorem C103_text : forall {K} big (h : heap K) vis args srcs order name tail ev,
  built h vis -> incl args vis -> splits_in_range h vis -> sources h args srcs -> StronglySorted lt order -> (forall i, In i order <-> ancestor h args i) ->
  enum_ok ev -> (forall i, In i order -> label (nd_kind (nd h i)) (name i) /\ unescaped (name i)) ->
  40 + columns (map name (filter (is_op h) order)) < 2 ^ 53 -> 80 * widths h srcs + 80 < 2 ^ 53 ->
  exists t p, make_svg_text big name tail ev h args = Ok t /\ shown t = Some (sv_width p, sv_height p, sv_wires p ++ concat (sv_ops p)) /\
    sv_width p = 40 + columns (map name (filter (is_op h) order)) /\ sv_height p = 80 * widths h srcs + 80 /\
    sv_wires p = map (fun q => Line 0 (sv_width p) (wire_y q) (wire_y q) 8) (zrange 0 (widths h srcs)) /\
    Forall2 (drawn h srcs name) (filter (is_op h) order) (sv_ops p) /\
    StronglySorted (before 24) (sv_ops p) /\ forall s, In s (concat (sv_ops p)) -> inside p s.
Proof. exact @svg_text_ok. Qed.
Print Assumptions C103_text.

(** the hypotheses hold of the circuit of C62 *)
Example C103_hypotheses : (forall i, In i exg_needed -> label (nd_kind (nd exg_h i)) (exp_name i) /\ unescaped (exp_name i)) /\
  40 + columns (map exp_name (filter (is_op exg_h) exg_needed)) < 2 ^ 53 /\ 80 * widths exg_h exg_srcs + 80 < 2 ^ 53.
Proof.
  split; [|split; vm_compute; reflexivity]. intros i Hi. split; [apply C63_hypotheses, Hi|].
  assert (forallb (fun i => forallb (fun c => negb (Ascii.eqb c "<" || Ascii.eqb c "&")) (exp_name i)) exg_needed = true) as E by (vm_compute; reflexivity).
  rewrite forallb_forall in E. specialize (E i Hi). rewrite forallb_forall in E. intros c Hc. specialize (E c Hc).
  split; intros ->; discriminate.
Qed.
Definition exs_text : str := match make_svg_text (fun _ => []) exp_name (fun _ => text "...)") exg_ev exg_h exg_args with Ok t => t | Raise _ => [] end.
(** the first characters: the first op is at an int, the second at a float *)
Example C103_characters : firstn 62 exs_text = text "<svg viewBox=""0 0 67.5 80"" xmlns=""http://www.w3.org/2000/svg"">" /\
  List.length exs_text = 1424%nat.
Proof. vm_compute. auto. Qed.
Example C103_run : shown exs_text = Some (270, 320,
  [Line 0 270 40 40 8; Line 0 270 120 120 8; Line 0 270 200 200 8;
   Line 68 68 40 200 4; Circle 68 40 20 true; Circle 68 200 20 false; Line 68 68 180 220 4; Line 48 88 200 200 4;
   Rect 137 100 22 40 4; Label 148 120 28 (text "R");
   Line 214 214 40 200 4; Rect 196 20 36 40 4; Label 214 40 28 (text "SM"); Rect 196 180 36 40 4; Label 214 200 28 (text "SM")]).
Proof. vm_compute. reflexivity. Qed.

(** Names are not escaped: with an m whose text contains <, Rm gives a text that is no XML. *)
Theorem C103_escape_refuted : exists (h : heap Z) vis args name ev t, built h vis /\ incl args vis /\ splits_in_range h vis /\ enum_ok ev /\
  (forall i, ancestor h args i -> label (nd_kind (nd h i)) (name i)) /\
  make_svg_text (fun _ => []) name (fun _ => text "...)") ev h args = Ok t /\ shown t = None.
Proof.
  exists exg_h, exg_vis, exg_args, (fun i => if str_eqb (exp_name i) (text "R") then text "R[<lambda>]" else exp_name i), exg_ev. eexists.
  destruct C63_hypotheses as (H1 & H2 & H3 & H4 & H5 & H6 & H7 & H8).
  split; [exact H1|]. split; [exact H2|]. split; [exact H3|]. split; [exact H7|]. split; [|split; [vm_compute; reflexivity|vm_compute; reflexivity]].
  intros i Hi. apply H6 in Hi. specialize (H8 i Hi). unfold str_eqb. destruct (list_eq_dec ascii_dec (exp_name i) (text "R")) as [E|]; [|exact H8].
  rewrite E in H8. inversion H8 as [| |o d s Ho Ek| | |]; subst. inversion Ho; subst; try discriminate.
  constructor. apply (lb_rm _ (text "<lambda>")). cbn. intuition discriminate.
Qed.
Print Assumptions C103_escape_refuted.
