(** What examples/context_example.py computes: with the control at 1 the Hadamard on a and then the controlled Not of b. *)
From Verif Require Import Base.

(** the basis state |c a b> of three qubits *)
Definition ket (c a b : bool) : Z := 4 * Z.b2z c + 2 * Z.b2z a + Z.b2z b.
(** amplitude |c a b> after Hadamard on a (entries +-s) and then Not on b where a is 1, both only where c is 1 *)
Definition controlled_bell {K} {RK : CRing K} (s : K) (v : list (Cx K)) (c a b : bool) : Cx K :=
  if c then
    let p := znth 0%r v (ket true false (xorb a b)) in
    let q := znth 0%r v (ket true true (xorb a b)) in
    (creal s * (if a then p - q else p + q))%r
  else znth 0%r v (ket false a b).
