(** Specification of feeds that do not fit the circuit: lists of the wrong length, qubits that are fed twice. *)
From Verif Require Import Base S_Bits M_Feed S_Feed M_Graph S_Graph.

Section Malformed.
  Context {K : Type} {OK : OrdRing K}.
  Notation C := (Cx K).
  Implicit Types h : heap K.

  (** some register is fed fewer amplitudes than it has basis states *)
  Definition too_short (init : list (list Z * list C)) : Prop := exists g a, In (g, a) init /\ zlen a < 2 ^ zlen g.
  (** the digits by which the amplitudes of the register [g] are looked up for basis state [x], when the qubits [later] are
      fed again after it: a qubit that is fed again counts as 1, whatever its value is in [x] *)
  Fixpoint digits (n x : Z) (g later : list Z) : list bool :=
    match g with
    | [] => []
    | q :: g => (existsb (Z.eqb q) (g ++ later) || qbit n x q) :: digits n x g later
    end.
  Fixpoint factors (n : Z) (init : list (list Z * list C)) (x : Z) : C :=
    match init with
    | [] => 1%r
    | (g, a) :: init => (znth 0%r a (val (digits n x g (concat (map fst init)))) * factors n init x)%r
    end.
  (** the amplitude of basis state [x]: 0 if a qubit that is not fed is 1 *)
  Definition loose_amp (n : Z) (init : list (list Z * list C)) (x : Z) : C :=
    if forallb (fun q => existsb (Z.eqb q) (concat (map fst init)) || negb (qbit n x q)) (zrange 0 n)
    then factors n init x else 0%r.

  (** a feed dictionary made of sources, with lists as values; [init] are the registers it and the defaults set, of any
      length and possibly with common qubits *)
  Definition sets h srcs (feed : list (fkey * feed_t K)) (init : list (list Z * list C)) : Prop :=
    NoDup (map (fun kv => key_nodes (fst kv)) feed) /\ incl (fed_nodes feed) srcs /\
    exists fs ds, fed_registers h srcs feed fs /\ default_registers h srcs (fed_nodes feed) srcs ds /\ init = fs ++ ds.
End Malformed.
