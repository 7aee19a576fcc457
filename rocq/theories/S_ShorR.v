(** Specification of what Shor's circuit measures, over the complex numbers. Models no code. *)
From Coq Require Import Reals.
From Verif Require Import Base BaseR S_Bits.
Local Open Scope Z_scope.

(** amplitude of finding [y] in the first register of [m] qubits and [z] in the second one: 1/q times the sum of
    exp(2 pi i j y / q) over the j < q with x^j mod N = z, where q = 2^m *)
Definition shor_amp (m N x y z : Z) : Cx R :=
  ((1 / IZR (2 ^ m), 0)%R *
   sum (filter (fun j => (x ^ j) mod N =? z) (zrange 0 (2 ^ m))) (fun j =>
     let t := (2 * PI * IZR (j * y) / IZR (2 ^ m))%R in (cos t, sin t)))%r.
(** probability of finding [y] in the first register *)
Definition shor_prob (m N x y : Z) : R := sum (zrange 0 N) (fun z => cnorm2 (shor_amp m N x y z)).
(** probability of finding a value less than [y] *)
Definition shor_below (m N x y : Z) : R := sum (zrange 0 y) (shor_prob m N x).
