(** Specification for measurements with rounding errors. *)
From Coq Require Import Reals.
From Coq Require SpecFloat.
From Verif Require Import Base BaseR S_Bits M_Kron S_Measure.
Local Open Scope Z_scope.

(** the relative error of a probability that is a sum of at most 2^n squares, and its part due to underflow *)
Definition prob_error (u w : R) (n : Z) (p : R) : R := (((1 + u) ^ (5 + 2 ^ Z.to_nat n) - 1) * (p + 2 * w * IZR (2 ^ n)))%R.

(** how far the draws of an outcome reach beyond those of the Born rule: n qubits, k of them measured, total probability T *)
Definition draw_error (u w : R) (n k : Z) (T : R) : R :=
  let W := (2 * w * IZR (2 ^ n) * IZR (2 ^ k + 1))%R in
  (((1 + u) ^ (2 * 2 ^ Z.to_nat n + 2 ^ Z.to_nat k + 11) - 1) * (T + W))%R.

(** the state after outcome m was measured, without rounding: the amplitudes of m, scaled to norm 1 *)
Definition collapsed_state (n : Z) (indices : list Z) (m : Z) (v : list (Cx R)) : list (Cx R) :=
  map (collapsed n indices m (/ sqrt (marginal n (measured_order n indices) (amp_at 0 v) m))%R (amp_at 0 v)) (zrange 0 (2 ^ n)).

(** the value of a double, as a multiple of 2^-k (for doubles that are multiples of it) *)
Definition units (k : Z) (x : SpecFloat.spec_float) : Z :=
  match x with
  | SpecFloat.S754_finite s m e => (if s then -1 else 1) * (Z.pos m * 2 ^ (k + e))
  | _ => 0
  end.

(** what measuring adds to the distance of the state: the measured outcome has probability p *)
Definition collapse_error (u w : R) (n : Z) (p : R) : R :=
  let e := (2 * (prob_error u w n (p / 2) / (p / 2)) + 7 * u)%R in
  (e + ((1 + u) ^ 2 - 1) * (3 / 2 * (1 + e) + 4 * w * IZR (2 ^ n)))%R.
