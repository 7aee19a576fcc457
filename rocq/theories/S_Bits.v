(** Specification vocabulary for bits of basis states. Models no code. *)
From Verif Require Import Base.

(** [val bits]: the number with binary digits [bits], first digit most significant. *)
Definition val (bits : list bool) : Z := fold_left (fun a b => 2 * a + Z.b2z b) bits 0.

(** the value of qubit [q] in basis state [x] of [n] qubits: qubit 0 is the most significant *)
Definition qbit (n x q : Z) : bool := Z.testbit x (n - 1 - q).

(** the value of the register made of the qubits [g] (first listed most significant) *)
Definition reg (n : Z) (g : list Z) (x : Z) : Z := val (map (qbit n x) g).

(** the [k]-digit binary expansion of [v] *)
Definition bits_of (k v : Z) : list bool := map (fun i => Z.testbit v (k - 1 - i)) (zrange 0 k).

(** number of positions below [b] at which [p] holds *)
Definition rank (p : Z -> bool) (b : Z) : Z := zlen (filter p (zrange 0 b)).

(** indices are distinct qubits of an [n]-qubit state *)
Definition qubits_ok (n : Z) (g : list Z) : Prop := NoDup g /\ forall q, In q g -> 0 <= q < n.

(** registers of the given sizes, allocated from qubit [start] on *)
Fixpoint registers (start : Z) (qns : list Z) : list (list Z) :=
  match qns with [] => [] | k :: r => zrange start (start + k) :: registers (start + k) r end.

(** the basis state whose qubit [q] has value [f q] *)
Definition mkstate (n : Z) (f : Z -> bool) : Z := val (map f (zrange 0 n)).

(** position of [q] in [g] *)
Fixpoint idx (q : Z) (g : list Z) : option Z :=
  match g with
  | [] => None
  | q' :: g => if (q =? q') then Some 0 else option_map (Z.add 1) (idx q g)
  end.
(** [setreg n g x v]: basis state [x] with register [g] overwritten by [v] *)
Definition setreg (n : Z) (g : list Z) (x v : Z) : Z :=
  mkstate n (fun q => match idx q g with
                      | Some i => Z.testbit v (zlen g - 1 - i)
                      | None => qbit n x q end).
