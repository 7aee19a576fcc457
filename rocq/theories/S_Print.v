(** What print_circuit should print. *)
From Coq Require Import Ascii String.
From Verif Require Import Base M_Kron M_Ops M_Graph S_Graph M_Print.
Open Scope Z_scope.

(** the number a string of decimal digits stands for *)
Definition digit_value (c : ascii) : Z := Z.of_nat (nat_of_ascii c) - 48.
Definition number (s : str) : Z := fold_left (fun v c => 10 * v + digit_value c) s 0.

(** names of ops *)
Inductive op_label {K} : op K -> str -> Prop :=
| lb_not : op_label ONot (text "Not")
| lb_x : op_label ONot (text "X")
| lb_y : op_label OY (text "Y")
| lb_z : op_label OZ (text "Z")
| lb_h s : op_label (OH s) (text "H")
| lb_r e : op_label (OR e) (text "R")
| lb_rm e m : ~ In "("%char m -> op_label (OR e) (text "R[" ++ m ++ text "]")
| lb_swap k : op_label (OSwap k) (text "Swap")
| lb_c o s : op_label o s -> op_label (OC o) (text "C" ++ s).
Inductive label {K} : kind K -> str -> Prop :=
| lb_qubit : label KQubit (text "Q")
| lb_split idx : label (KSplit idx) (text "SplitQubit")
| lb_op o d s : op_label o s -> label (KMat o d) s
| lb_f func : label (KF func) (text "F")
| lb_measure : label KMeasure (text "M")
| lb_stochastic k : label (KStoch k) (text "SM").
(** plain qubits and the outputs of split are not shown, nor is an op without qubits *)
Definition is_op {K} (h : heap K) (i : nat) : bool := match nd_kind (nd h i) with KQubit | KSplit _ => false | _ => true end.
Definition has_qubits (op : str * list Z) : bool := match snd op with [] => false | _ => true end.
(** node i, on the given name and qubits *)
Definition drawn_as {K} (h : heap K) (srcs : list nat) (name : nat -> str) (i : nat) (op : str * list Z) : Prop :=
  fst op = name i /\ exists gs, Forall2 (wires h srcs) (inputs_of h i) gs /\ snd op = concat gs.

(** ** The picture of an op: rows of cells, one for each qubit of the state *)
(** the wires; the upper and lower edge of the op; a letter of its name; digit l of the positions of its qubits *)
Inductive row := RWires | REdge | RLetter (c : ascii) | RDigit (l : nat).
(** the position of q in the list of the qubits of the op *)
Fixpoint position (q : Z) (indices : list Z) : option Z :=
  match indices with [] => None | i :: l => if q =? i then Some 0 else option_map Z.succ (position q l) end.
(** the number of digits positions are shown with: that of the greatest one *)
Definition places (k : Z) : nat := List.length (str_int (k - 1)).
(** a position, padded on the left *)
Definition padded (k i : Z) : str := repeat " "%char (places k - List.length (str_int i)) ++ str_int i.
Definition centred (w : Z) (l c r : ascii) (fill : ascii) : str :=
  l :: repeat fill (Z.to_nat (w - 1)) ++ [c] ++ repeat fill (Z.to_nat (w - 1)) ++ [r].
Definition cell (w : Z) (indices : list Z) (r : row) (q : Z) : str :=
  let wire := repeat " "%char (Z.to_nat w) ++ "|"%char :: repeat " "%char (Z.to_nat w) in
  match position q indices, r with
  | None, _ | _, RWires => wire
  | Some _, REdge => repeat "-"%char (Z.to_nat (2 * w + 1))
  | Some _, RLetter c => centred w "|" c "|" " "
  | Some i, RDigit l => centred w "|" (nth l (padded (zlen indices) i) " "%char) "|" " "
  end.
Fixpoint separated (sep : str) (l : list str) : str :=
  match l with [] => [] | [x] => x | x :: l => x ++ sep ++ separated sep l end.
(** the line of a row: [n] qubits, cells of width 2w+1 with [s] blanks between them *)
Definition line (n w s : Z) (indices : list Z) (r : row) : str :=
  separated (repeat " "%char (Z.to_nat s)) (map (cell w indices r) (zrange 0 n)).
Definition rows (name : str) (k : Z) : list row :=
  [RWires; REdge] ++ map RLetter name ++ map RDigit (seq 0 (places k)) ++ [REdge].
Definition picture (n w s : Z) (op : str * list Z) : list str :=
  map (line n w s (snd op)) (rows (fst op) (zlen (snd op))).
(** an op on one or more different qubits of the state *)
Definition op_fits (n : Z) (op : str * list Z) : Prop := snd op <> [] /\ NoDup (snd op) /\ forall q, In q (snd op) -> 0 <= q < n.
