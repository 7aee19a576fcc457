(** Specification for the printed states. *)
From Verif Require Import Base.

(** a value for each register, in its range *)
Definition values_ok (sizes xs : list Z) : Prop := Forall2 (fun s x => 0 <= x < 2 ^ s) sizes xs.
(** the basis state with these values, the first register being the most significant *)
Fixpoint position (sizes xs : list Z) : Z :=
  match sizes, xs with
  | _ :: sizes, x :: xs => x * 2 ^ fold_right Z.add 0 sizes + position sizes xs
  | _, _ => 0
  end.
