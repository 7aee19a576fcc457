(** Model of qip/pipeline.py print_circuit and PrintFeeder (:251-310). Strings are lists of characters; the effect of
    outputfn is to append a line to the output. *)
From Coq Require Import Ascii String.
From Verif Require Import Base M_Bits M_Kron M_Ops M_Feed M_Func M_Measure M_Graph.
Open Scope Z_scope.

Notation str := (list ascii).
Definition text (s : string) : str := list_ascii_of_string s.
(** [c * k] for a string of one character *)
Definition times (c : ascii) (k : Z) : str := repeat c (Z.to_nat k).
(** [sep.join(l)] *)
Fixpoint join (sep : str) (l : list str) : str :=
  match l with [] => [] | [x] => x | x :: l => x ++ sep ++ join sep l end.
(** [str(n)] for a number n >= 0; [fuel] bounds the number of digits *)
Fixpoint decimal (fuel : nat) (n : Z) : str :=
  match fuel with
  | O => []
  | S fuel => let d := [ascii_of_nat (48 + Z.to_nat (n mod 10))] in if n <? 10 then d else decimal fuel (n / 10) ++ d
  end.
Definition str_int (n : Z) : str := decimal (S (Z.to_nat n)) n.
(** [s.find(c)] *)
Fixpoint find (c : ascii) (s : str) : Z :=
  match s with [] => -1 | x :: s => if (x =? c)%char then 0 else let p := find c s in if p =? -1 then -1 else p + 1 end.
Definition str_eqb (s t : str) : bool := if list_eq_dec ascii_dec s t then true else false.

Section Print.
  Context {K : Type} {OK : OrdRing K}.
  (** repr(node) is the class's [name], an opening parenthesis and the rest; both are parameters, because the heap of M_Graph
      does not distinguish Not from X and R from Rm *)
  Variables name tail : nat -> str.
  Definition repr_of (i : nat) : str := name i ++ "("%char :: tail i.
  (** :264-267 *)
  Definition op_name (i : nat) : str :=
    let s := repr_of i in let paren_pos := find "(" s in if 0 <? paren_pos then pyslice s 0 paren_pos else s.
  Definition blacklisted (s : str) : bool := existsb (str_eqb s) [text "SplitQubit"; text "Q"].

  Variables n opwidth linespacing : Z.
  (** :259 *)
  Definition qubit_line : str := times " " opwidth ++ text "|" ++ times " " opwidth.
  (** outputfn((" " * linespacing).join(default_line)) *)
  Definition line_of (default_line : list str) : str := join (times " " linespacing) default_line.
  (** :276, 301 *)
  Definition border : str := times "-" (2 * opwidth + 1).
  (** :282-283, 296-297 *)
  Definition boxed (c : ascii) : str := text "|" ++ times " " (opwidth - 1) ++ [c] ++ times " " (opwidth - 1) ++ text "|".
  (** [for i, index in enumerate(indices): default_line[index] = cell(i)] *)
  Definition fill (cell : Z -> res str) (indices : list Z) (default_line : list str) : res (list str) :=
    mfold (fun d '(i, index) => do s <- cell i; pyset d index s) (combine (zrange 0 (zlen indices)) indices) default_line.
  Definition blank : list str := repeat qubit_line (Z.to_nat n).

  (** :279-284: the lines of the name and the last default_line *)
  Definition letters (nodestr : str) (indices : list Z) (default_line : list str) : res (list str * list str) :=
    mfold (fun '(out, d) c => do d <- fill (fun _ => Ok (boxed c)) indices blank; Ok (out ++ [line_of d], d)) nodestr ([], default_line).
  (** :286-293 *)
  Definition max_len (indices : list Z) : Z :=
    fold_right Z.max 0 (map (fun i => zlen (str_int i)) (zrange 0 (zlen indices))).
  Definition index_strs (indices : list Z) : list str :=
    map (fun i => let index_str := str_int i in let difflen := max_len indices - zlen index_str in
                  if 0 <? difflen then times " " difflen ++ index_str else index_str) (zrange 0 (zlen indices)).
  (** :294-298 *)
  Definition digits (indices : list Z) (default_line : list str) : res (list str * list str) :=
    mfold (fun '(out, d) l =>
      do d <- fill (fun i => do s <- pyget (index_strs indices) i; do c <- pyget s l; Ok (boxed c)) indices d;
      Ok (out ++ [line_of d], d)) (zrange 0 (max_len indices)) ([], default_line).

  (** :261-302 PrintFeeder.feed. Lines printed before an exception are lost in the model (there is no exception when the
      qubits are in range). *)
  Definition op_lines (nodestr : str) (indices : list Z) : res (list str) :=
    do top <- fill (fun _ => Ok border) indices blank;
    do nm <- letters nodestr indices top;
    do ds <- digits indices (snd nm);
    do bottom <- fill (fun _ => Ok border) indices (snd ds);
    Ok ([line_of blank; line_of top] ++ fst nm ++ fst ds ++ [line_of bottom]).
  Definition print_feed (out : list str) (node : nat) (groups : list (list Z)) : st (list str) unit :=
    let indices := concat groups in
    if 0 <? zlen indices then
      if blacklisted (op_name node) then (out, Ok tt) else
      match op_lines (op_name node) indices with Ok lines => (out ++ lines, Ok tt) | Raise e => (out, Raise e) end
    else (out, Ok tt).
End Print.

Section PrintCircuit.
  Context {K : Type} {OK : OrdRing K}.
  (** :305-310 [print_circuit] *)
  Definition print_circuit (name tail : nat -> str) (ev : env K) (h : heap K) (args : list nat) (opwidth linespacing : Z)
    : st (list str) unit :=
    match get_deps ev h args with
    | Raise e => ([], Raise e)
    | Ok (frontier, graphnodes) =>
        let frontier := sort_by (qid_of h) frontier in
        let n := fold_left (fun a f => a + nd_n (nd h f)) frontier 0 in
        run_graph (print_feed name tail n opwidth linespacing) h frontier graphnodes []
    end.
End PrintCircuit.
