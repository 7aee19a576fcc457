(** Specification of the examples. Nothing from the model is used. *)
From Verif Require Import Base S_Bits.

(** the number whose [k] binary digits are those of [x] in reverse order *)
Definition reversed (k x : Z) : Z := val (rev (bits_of k x)).

Section ExamplesSpec.
  Context {K : Type} {OK : OrdRing K}.
  Notation C := (Cx K).
  (** <a|b> *)
  Definition inner (a b : list C) : C := sum (zrange 0 (zlen a)) (fun x => cconj (znth 0%r a x) * znth 0%r b x)%r.
  (** the probability that the first of [n] qubits is 0: the first half of the amplitudes *)
  Definition first_zero (n : Z) (st : list C) : K := sum (zrange 0 (2 ^ (n - 1))) (fun r => cnorm2 (znth 0%r st r)).
End ExamplesSpec.
