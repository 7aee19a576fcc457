(** The numbers of qip/operators.py over the reals. *)
From Coq Require Import Reals.
From Verif Require Import Base BaseR M_Kron M_Ops M_Gates M_Context.

(** qip/operators.py:93-99 (1/numpy.sqrt(2)) and :123-127 (RmOp: 2*numpy.pi / 2**m, negated on request; ROp computes
    numpy.exp(1.0j * phi)) *)
Definition consts_R : consts R :=
  mkConsts (1 / sqrt 2)%R (fun m negate => let phi := ((if negate then -2 else 2) * PI / powerRZ 2 m)%R in (cos phi, sin phi)).
