(** Model of qip/svgwriter.py. The text of an svg element is modelled by its coordinates; all lengths are in quarters of a
    pixel, which makes them integers (the code divides font_size * len by 2 twice and the other lengths by 2). *)
From Coq Require Import Ascii String.
From Verif Require Import Base M_Bits M_Kron M_Ops M_Feed M_Func M_Measure M_Graph M_Print.
Open Scope Z_scope.

(** <line>: x1 x2 y1 y2 stroke-width; <circle>: cx cy r, black or white inside, stroke-width 1; <rect>: x y width height
    stroke-width, white inside; <text>: x y font-size, centred *)
Inductive shape :=
| Line (x1 x2 y1 y2 stroke : Z)
| Circle (cx cy r : Z) (black : bool)
| Rect (x y w h stroke : Z)
| Label (x y size : Z) (s : str).

(** :10-11, the defaults; make_svg (:159) uses no others *)
Definition linespacing := 20.
Definition opheight := 10.
Definition opbuffer := 10.
Definition linewidth := 2.
Definition opoutlinewidth := 1.
Definition font_size := 7.

(** min(l) and max(l) of a list that is not empty *)
Definition py_min (l : list Z) : Z := fold_left Z.min (tl l) (hd 0 l).
Definition py_max (l : list Z) : Z := fold_left Z.max (tl l) (hd 0 l).

(** :38-44 *)
Definition behind (x : Z) (node_indices : list Z) : list shape :=
  if 1 <? zlen node_indices then
    [Line x x (4 * (py_min node_indices * linespacing + opheight)) (4 * (py_max node_indices * linespacing + opheight)) (4 * linewidth / 2)]
  else [].
(** :48-63 *)
Definition swap_shapes (x : Z) (node_indices : list Z) : list shape :=
  concat (map (fun node_index =>
    let center_y := 4 * (linespacing * node_index + opheight) in
    [Line (x - 4 * opheight / 2) (x + 4 * opheight / 2) (center_y - 4 * opheight / 2) (center_y + 4 * opheight / 2) (4 * linewidth);
     Line (x - 4 * opheight / 2) (x + 4 * opheight / 2) (center_y + 4 * opheight / 2) (center_y - 4 * opheight / 2) (4 * linewidth)]) node_indices).
(** :74-90 *)
Definition not_shapes (x : Z) (node_indices : list Z) : list shape :=
  concat (map (fun node_index =>
    let center_y := 4 * (node_index * linespacing + opheight) in
    [Circle x center_y (4 * opheight / 2) false;
     Line x x (center_y - 4 * opheight / 2) (center_y + 4 * opheight / 2) (4 * linewidth / 2);
     Line (x - 4 * opheight / 2) (x + 4 * opheight / 2) center_y center_y (4 * linewidth / 2)]) node_indices).
(** :92-108 *)
Definition box_shapes (op_name : str) (x : Z) (node_indices : list Z) : list shape :=
  concat (map (fun node_index =>
    let half_x_width := 4 * font_size * zlen op_name / 2 / 2 + 4 in
    let half_y_width := 4 * opheight / 2 in
    let op_y := 4 * (node_index * linespacing + opheight) in
    [Rect (x - half_x_width) (op_y - half_y_width) (2 * half_x_width) (2 * half_y_width) (4 * opoutlinewidth);
     Label x op_y (4 * font_size) op_name]) node_indices).

(** :34-109 get_op_string for MatrixOps. The class of the node is that of [o]; NotOp and XOp (qip/operators.py:52), which
    are the same [o], are told apart by their names. The name of a COp is "C" and the name of its op
    (qip/operators.py:229-230), so the name of node.op is what follows the C. *)
Fixpoint op_shapes {K} (o : op K) (op_name : str) (x : Z) (node_indices : list Z) : res (list shape) :=
  let s := behind x node_indices in
  match o with
  | OSwap _ => Ok (s ++ swap_shapes x node_indices)
  | OC o =>
      do i0 <- pyget node_indices 0;
      do s' <- op_shapes o (tl op_name) x (tl node_indices);
      Ok (s ++ [Circle x (4 * (i0 * linespacing + opheight)) (4 * opheight / 2) true] ++ s')
  | ONot => if str_eqb op_name (text "Not") then Ok (s ++ not_shapes x node_indices) else Ok (s ++ box_shapes op_name x node_indices)
  | _ => Ok (s ++ box_shapes op_name x node_indices)
  end.
(** :34-109 for any node *)
Definition node_shapes {K} (k : kind K) (op_name : str) (x : Z) (node_indices : list Z) : res (list shape) :=
  match k with
  | KMat o _ => op_shapes o op_name x node_indices
  | _ => Ok (behind x node_indices ++ box_shapes op_name x node_indices)
  end.

(** last_x_max and ops_to_draw (:21-25); last_x_center is never read *)
Record svgacc := mkSvgacc { sa_max : Z; sa_ops : list (list shape) }.
(** the text get_svg_text returns (:146-152): the view box, the wires and the ops *)
Record svg := mkSvg { sv_width : Z; sv_height : Z; sv_wires : list shape; sv_ops : list (list shape) }.

Section Svg.
  Context {K : Type}.
  Variables name tail : nat -> str.
  (** :111-127 feed. qbitindex[node] is the concatenation of the indices of its inputs, for every node that is drawn
      (qip/pipeline.py:222, and :199 for ops and measurements without inputs, whose n is 0). int() of a positive number rounds
      down. *)
  Definition svg_feed (h : heap K) (a : svgacc) (node : nat) (groups : list (list Z)) : st svgacc unit :=
    let nodestr := op_name name tail node in
    if blacklisted nodestr then (a, Ok tt) else
    let stringn := zlen nodestr in
    let total_op_size := 4 * font_size * stringn / 2 + 4 in
    let half := 4 * (total_op_size / 8) in
    let new_x_center := sa_max a + 4 * opbuffer + half in
    let new_x_max := new_x_center + total_op_size - half in
    match node_shapes (nd_kind (nd h node)) nodestr new_x_center (concat groups) with
    | Ok op_str => (mkSvgacc new_x_max (sa_ops a ++ [op_str]), Ok tt)
    | Raise e => (a, Raise e)
    end.

  (** :129-152 *)
  Definition get_svg_text (n : Z) (a : svgacc) : svg :=
    mkSvg (sa_max a + 4 * opbuffer) (4 * (linespacing * n + 2 * opheight))
      (map (fun i => let line_y := 4 * (i * linespacing + opheight) in Line 0 (sa_max a + 4 * opbuffer) line_y line_y (4 * linewidth)) (zrange 0 n))
      (sa_ops a).

  (** :155-165 make_svg without a filename; with one the same text is written to the file *)
  Definition make_svg (ev : env K) (h : heap K) (args : list nat) : res svg :=
    do d <- get_deps ev h args;
    let frontier := sort_by (qid_of h) (fst d) in
    let n := fold_left (fun a f => a + nd_n (nd h f)) frontier 0 in
    match run_graph (svg_feed h) h frontier (snd d) (mkSvgacc 0 []) with
    | (a, Ok _) => Ok (get_svg_text n a)
    | (_, Raise e) => Raise e
    end.
End Svg.
