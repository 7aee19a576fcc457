(** What a run of registers with given ids is expected to yield. *)
From Coq Require Import Sorted.
From Verif Require Import Base S_Bits S_Feed.

(** the ids of registers created one after the other: the given one, or the next number of the counter *)
Fixpoint ids (counter : Z) (regs : list (Z * option Z)) : list Z :=
  match regs with
  | [] => []
  | (_, Some q) :: regs => q :: ids counter regs
  | (_, None) :: regs => counter :: ids (counter + 1) regs
  end.
(** width and id of register number i *)
Definition reg_width (regs : list (Z * option Z)) (i : nat) : Z := fst (nth i regs (0, None)).
Definition reg_id (regs : list (Z * option Z)) (i : nat) : Z := nth i (ids 0 regs) 0.

(** the registers listed in [order] side by side: how many qubits there are, where register i starts, and the
    qubits each fed register has *)
Fixpoint all_width (w : nat -> Z) (order : list nat) : Z :=
  match order with [] => 0 | j :: r => w j + all_width w r end.
Fixpoint starts_at (w : nat -> Z) (order : list nat) (i : nat) : Z :=
  match order with [] => 0 | j :: r => if Nat.eqb j i then 0 else w j + starts_at w r i end.
Definition side_by_side {V} (w : nat -> Z) (order : list nat) (fs : list (nat * V)) : list (list Z * V) :=
  map (fun f => (zrange (starts_at w order (fst f)) (starts_at w order (fst f) + w (fst f)), snd f)) fs.
(** [order] lists the registers in [args] by increasing ids *)
Definition by_id (regs : list (Z * option Z)) (args order : list nat) : Prop :=
  Permutation order args /\ StronglySorted (fun i j => reg_id regs i <= reg_id regs j) order.
