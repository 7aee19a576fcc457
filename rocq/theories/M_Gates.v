(** The gate objects whose scalars are computed from real numbers: qip/operators.py. *)
From Coq Require Import Reals.
From Verif Require Import Base BaseR M_Kron M_Ops.

(** HOp, qip/operators.py:93-99: 1/numpy.sqrt(2) *)
Definition H_op : op R := OH (1 / sqrt 2)%R.
(** ROp, qip/operators.py:108-115: numpy.exp(1.0j * phi) *)
Definition R_op (phi : R) : op R := OR (cos phi, sin phi).
(** RmOp, qip/operators.py:124-127 *)
Definition Rm_op (m : Z) (negate : bool) : op R :=
  R_op ((if negate then -2 else 2) * PI / powerRZ 2 m)%R.
