(** What make_svg should draw. Lengths are in quarters of a pixel. *)
From Coq Require Import Ascii String.
From Verif Require Import Base M_Kron M_Ops M_Graph S_Graph M_Print S_Print M_Svg.
Open Scope Z_scope.

(** ** Symbols *)
(** control; swap; Not; any other op *)
Inductive mark := Dot | Cross | Plus | Box (s : str).
(** at (x, y) *)
Definition symbol (x y : Z) (m : mark) : list shape :=
  match m with
  | Dot => [Circle x y 20 true]
  | Cross => [Line (x - 20) (x + 20) (y - 20) (y + 20) 8; Line (x - 20) (x + 20) (y + 20) (y - 20) 8]
  | Plus => [Circle x y 20 false; Line x x (y - 20) (y + 20) 4; Line (x - 20) (x + 20) y y 4]
  | Box s => [Rect (x - (7 * zlen s + 4)) (y - 20) (2 * (7 * zlen s + 4)) 40 4; Label x y 28 s]
  end.
(** the height of the wire of qubit q: 20 pixels apart *)
Definition wire_y (q : Z) : Z := 80 * q + 40.
(** the vertical line between the qubits of an op *)
Definition lowest (l : list Z) : Z := fold_right Z.min (hd 0 l) l.
Definition highest (l : list Z) : Z := fold_right Z.max (hd 0 l) l.
Definition connector (x : Z) (qs : list Z) : list shape :=
  match qs with _ :: _ :: _ => [Line x x (wire_y (lowest qs)) (wire_y (highest qs)) 4] | _ => [] end.

(** ** Ops *)
(** how often C is applied, and to what *)
Fixpoint n_controls {K} (o : op K) : nat := match o with OC o => S (n_controls o) | _ => O end.
Fixpoint base_op {K} (o : op K) : op K := match o with OC o => base_op o | o => o end.
Definition controls {K} (k : kind K) : nat := match k with KMat o _ => n_controls o | _ => O end.
(** the mark on the qubits that are no controls; its text is the name without one C for each control *)
Definition target {K} (k : kind K) (name : str) : mark :=
  let s := skipn (controls k) name in
  match k with
  | KMat o _ => match base_op o with
                | OSwap _ => Cross
                | ONot => if list_eq_dec ascii_dec s (text "Not") then Plus else Box s
                | _ => Box s
                end
  | _ => Box s
  end.
(** The first qubits are the controls: each is drawn on a connector to the following ones. The marks of the other qubits come
    last, on top of the connectors. *)
Definition drawing {K} (x : Z) (k : kind K) (name : str) (qs : list Z) : list shape :=
  concat (map (fun i => connector x (skipn i qs) ++ symbol x (wire_y (nth i qs 0)) Dot) (seq 0 (controls k)))
  ++ connector x (skipn (controls k) qs)
  ++ concat (map (fun q => symbol x (wire_y q) (target k name)) (skipn (controls k) qs)).

(** ** Extents. Strokes extend half their width to both sides; circles have strokes of one pixel; letters are taken to be
    half as wide as the font size, as the program does. *)
Definition left_of (s : shape) : Z :=
  match s with
  | Line x1 x2 _ _ w => Z.min x1 x2 - w / 2 | Circle x _ r _ => x - r - 2 | Rect x _ _ _ w => x - w / 2
  | Label x _ size s => x - size * zlen s / 4 end.
Definition right_of (s : shape) : Z :=
  match s with
  | Line x1 x2 _ _ w => Z.max x1 x2 + w / 2 | Circle x _ r _ => x + r + 2 | Rect x _ wd _ w => x + wd + w / 2
  | Label x _ size s => x + size * zlen s / 4 end.
Definition top_of (s : shape) : Z :=
  match s with
  | Line _ _ y1 y2 w => Z.min y1 y2 - w / 2 | Circle _ y r _ => y - r - 2 | Rect _ y _ _ w => y - w / 2
  | Label _ y size _ => y - size / 2 end.
Definition bottom_of (s : shape) : Z :=
  match s with
  | Line _ _ y1 y2 w => Z.max y1 y2 + w / 2 | Circle _ y r _ => y + r + 2 | Rect _ y _ ht w => y + ht + w / 2
  | Label _ y size _ => y + size / 2 end.
Definition inside (p : svg) (s : shape) : Prop :=
  0 <= left_of s /\ right_of s <= sv_width p /\ 0 <= top_of s /\ bottom_of s <= sv_height p.
(** all of l is at least d to the left of all of l' *)
Definition before (d : Z) (l l' : list shape) : Prop := forall s s', In s l -> In s' l' -> right_of s + d <= left_of s'.
(** node i is drawn as l, somewhere, on the qubits run applies it to *)
Definition drawn {K} (h : heap K) (srcs : list nat) (name : nat -> str) (i : nat) (l : list shape) : Prop :=
  exists x gs, Forall2 (wires h srcs) (inputs_of h i) gs /\ l = drawing x (nd_kind (nd h i)) (name i) (concat gs).
