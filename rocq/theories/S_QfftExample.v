(** Specification of the power spectrum. Models no code. *)
From Coq Require Import Reals.
From Verif Require Import Base BaseR.
Local Open Scope Z_scope.

(** the power of [psi] at the frequency y: |1/sqrt(2^n) * sum over x of exp(2 pi i x y / 2^n) psi_x|^2 *)
Definition power (n : Z) (psi : list (Cx R)) (y : Z) : R :=
  cnorm2 ((1 / sqrt (IZR (2 ^ n)), 0)%R * sum (zrange 0 (2 ^ n)) (fun x =>
    let t := (2 * PI * IZR (x * y) / IZR (2 ^ n))%R in (cos t, sin t) * znth 0 psi x))%r.
(** [b] has the [n] binary digits of [a] in the opposite order *)
Definition mirrored (n a b : Z) : Prop :=
  0 <= a < 2 ^ n /\ 0 <= b < 2 ^ n /\ forall j, 0 <= j < n -> Z.testbit b j = Z.testbit a (n - 1 - j).
