(** Model of the text qip/svgwriter.py writes. M_Svg models the same functions by the coordinates of the elements; here the
    result is the string itself, character by character. *)
From Coq Require Import Ascii String.
From Verif Require Import Base M_Bits M_Kron M_Ops M_Feed M_Func M_Measure M_Graph M_Print M_Svg.
Open Scope Z_scope.

(** a Python number: an int, or a float that is the given number of quarters. The lengths of svgwriter are no other floats,
    and floats below 2^51 hold quarters exactly. *)
Inductive num := NInt (z : Z) | NFloat (quarters : Z).
Definition quarters (a : num) : Z := match a with NInt z => 4 * z | NFloat q => q end.
(** [a + b] and [a - b] are ints if both are *)
Definition nadd (a b : num) : num := match a, b with NInt x, NInt y => NInt (x + y) | _, _ => NFloat (quarters a + quarters b) end.
Definition nsub (a b : num) : num := match a, b with NInt x, NInt y => NInt (x - y) | _, _ => NFloat (quarters a - quarters b) end.
(** [2 * a] *)
Definition ntwice (a : num) : num := match a with NInt x => NInt (2 * x) | NFloat q => NFloat (2 * q) end.
(** [a / 2], always a float; exact for an int or an even number of quarters *)
Definition nhalf (a : num) : num := NFloat (quarters a / 2).
(** [int(a)] for a >= 0 *)
Definition nint (a : num) : num := NInt (quarters a / 4).

Section Text.
  (** the text of floats with 2^53 quarters or more, which may be rounded and, from 10^16 on, have exponents: any text *)
  Variable big : Z -> str.
  (** str of an int; str of a float *)
  Definition signed (q : Z) (s : str) : str := if q <? 0 then "-"%char :: s else s.
  Definition fmt (a : num) : str :=
    match a with
    | NInt z => signed z (str_int (Z.abs z))
    | NFloat q =>
        if Z.abs q <? 2 ^ 53 then
          signed q (str_int (Z.abs q / 4) ++ text "." ++ nth (Z.to_nat (Z.abs q mod 4)) [text "0"; text "25"; text "5"; text "75"] [])
        else big q
    end.
  (** [s.format( *args)]: each {} stands for the next argument. There are as many arguments as {} in all uses. *)
  Fixpoint format (s : str) (args : list str) : str :=
    match s with
    | [] => []
    | c :: s' =>
        if (c =? "{")%char then
          match s', args with _ :: s'', a :: args => a ++ format s'' args | _, _ => [] end
        else c :: format s' args
    end.

  (** :39, 52, 59, 79, 85, 135 *)
  Definition line_str (x1 x2 y1 y2 stroke : num) : str :=
    format (text "<line x1=""{}"" x2=""{}"" y1=""{}"" y2=""{}"" style=""stroke:black;stroke-width:{}""></line>" ++ [ascii_of_nat 10])
      [fmt x1; fmt x2; fmt y1; fmt y2; fmt stroke].
  (** :67, 76; [fill] is black or white *)
  Definition circle_str (cx cy r : num) (fill : str) : str :=
    format (text "<circle cx=""{}"" cy=""{}"" r=""{}"" stroke=""black"" stroke-width=""1"" fill=""") [fmt cx; fmt cy; fmt r] ++
    fill ++ text """ />".
  (** :97-103 *)
  Definition rect_str (x y w h stroke : num) : str :=
    format (text "<rect x=""{}"" y=""{}"" width=""{}"" height=""{}"" style=""fill:white;stroke:black;stroke-width:{}""></rect>")
      [fmt x; fmt y; fmt w; fmt h; fmt stroke].
  (** :104-106 *)
  Definition text_str (x y size : num) (s : str) : str :=
    format (text "<text x=""{}"" y=""{}"" font-size=""{}"" alignment-baseline=""middle"" text-anchor=""middle"">{}</text>" ++ [ascii_of_nat 10])
      [fmt x; fmt y; fmt size; s].

  (** [index * self.linespacing + self.opheight] and [self.opheight / 2] *)
  Definition ny (index : Z) : num := NInt (index * linespacing + opheight).
  Definition nh2 : num := nhalf (NInt opheight).
  (** :38-44 *)
  Definition behind_str (x : num) (node_indices : list Z) : str :=
    if 1 <? zlen node_indices then line_str x x (ny (py_min node_indices)) (ny (py_max node_indices)) (nhalf (NInt linewidth)) else [].
  (** :48-63 *)
  Definition swap_str (x : num) (node_indices : list Z) : str :=
    concat (map (fun node_index =>
      let center_y := NInt (linespacing * node_index + opheight) in
      line_str (nsub x nh2) (nadd x nh2) (nsub center_y nh2) (nadd center_y nh2) (NInt linewidth) ++
      line_str (nsub x nh2) (nadd x nh2) (nadd center_y nh2) (nsub center_y nh2) (NInt linewidth)) node_indices).
  (** :74-90 *)
  Definition not_str (x : num) (node_indices : list Z) : str :=
    concat (map (fun node_index =>
      let center_y := ny node_index in
      circle_str x center_y nh2 (text "white") ++
      line_str x x (nsub center_y nh2) (nadd center_y nh2) (nhalf (NInt linewidth)) ++
      line_str (nsub x nh2) (nadd x nh2) center_y center_y (nhalf (NInt linewidth))) node_indices).
  (** :92-108 *)
  Definition box_str (op_name : str) (x : num) (node_indices : list Z) : str :=
    concat (map (fun node_index =>
      let half_x_width := nadd (nhalf (nhalf (NInt (font_size * zlen op_name)))) (NInt 1) in
      let half_y_width := nh2 in
      let op_y := ny node_index in
      rect_str (nsub x half_x_width) (nsub op_y half_y_width) (ntwice half_x_width) (ntwice half_y_width) (NInt opoutlinewidth) ++
      text_str x op_y (NInt font_size) op_name) node_indices).
  (** :34-109 get_op_string for MatrixOps; the classes and names are those of [op_shapes] in M_Svg *)
  Fixpoint op_str {K} (o : op K) (op_name : str) (x : num) (node_indices : list Z) : res str :=
    let s := behind_str x node_indices in
    match o with
    | OSwap _ => Ok (s ++ swap_str x node_indices)
    | OC o =>
        do i0 <- pyget node_indices 0;
        do s' <- op_str o (tl op_name) x (tl node_indices);
        Ok (s ++ circle_str x (ny i0) nh2 (text "black") ++ s')
    | ONot => if str_eqb op_name (text "Not") then Ok (s ++ not_str x node_indices) else Ok (s ++ box_str op_name x node_indices)
    | _ => Ok (s ++ box_str op_name x node_indices)
    end.
  (** :34-109 for any node *)
  Definition node_str {K} (k : kind K) (op_name : str) (x : num) (node_indices : list Z) : res str :=
    match k with
    | KMat o _ => op_str o op_name x node_indices
    | _ => Ok (behind_str x node_indices ++ box_str op_name x node_indices)
    end.

  (** svg_acc, last_x_max and ops_to_draw (:12-25) *)
  Record textacc := mkTextacc { ta_svg : str; ta_max : num; ta_ops : list str }.

  Context {K : Type}.
  Variables name tail : nat -> str.
  (** :111-127 feed *)
  Definition text_feed (h : heap K) (a : textacc) (node : nat) (groups : list (list Z)) : st textacc unit :=
    let nodestr := op_name name tail node in
    if blacklisted nodestr then (a, Ok tt) else
    let stringn := zlen nodestr in
    let total_op_size := nadd (nhalf (NInt (font_size * stringn))) (NInt 1) in
    let half := nint (nhalf total_op_size) in
    let new_x_center := nadd (nadd (ta_max a) (NInt opbuffer)) half in
    let new_x_max := nsub (nadd new_x_center total_op_size) half in
    match node_str (nd_kind (nd h node)) nodestr new_x_center (concat groups) with
    | Ok op_str => (mkTextacc (ta_svg a) new_x_max (ta_ops a ++ [op_str]), Ok tt)
    | Raise e => (a, Raise e)
    end.
  (** :129-144 build: the wires are appended to svg_acc, the ops are returned *)
  Definition build (n : Z) (a : textacc) : textacc * str :=
    (mkTextacc
       (ta_svg a ++ concat (map (fun i => line_str (NInt 0) (nadd (ta_max a) (NInt opbuffer)) (ny i) (ny i) (NInt linewidth)) (zrange 0 n)))
       (ta_max a) (ta_ops a),
     join [ascii_of_nat 10] (ta_ops a)).
  (** :146-152 get_svg_text *)
  Definition svg_text (n : Z) (a : textacc) : textacc * str :=
    let '(a, op_str) := build n a in
    (a, format (text "<svg viewBox=""0 0 {} {}"" xmlns=""http://www.w3.org/2000/svg"">" ++ [ascii_of_nat 10] ++ text "{}" ++ [ascii_of_nat 10] ++
                text "{}" ++ [ascii_of_nat 10] ++ text "</svg>")
          [fmt (nadd (ta_max a) (NInt opbuffer)); fmt (NInt (linespacing * n + 2 * opheight)); ta_svg a; op_str]).
  (** :155-165 make_svg; the string it returns, or writes to the file *)
  Definition make_svg_text (ev : env K) (h : heap K) (args : list nat) : res str :=
    do d <- get_deps ev h args;
    let frontier := sort_by (qid_of h) (fst d) in
    let n := fold_left (fun a f => a + nd_n (nd h f)) frontier 0 in
    match run_graph (text_feed h) h frontier (snd d) (mkTextacc [] (NInt 0) []) with
    | (a, Ok _) => Ok (snd (svg_text n a))
    | (_, Raise e) => Raise e
    end.
End Text.
