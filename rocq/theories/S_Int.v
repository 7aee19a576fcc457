(** Specification for the 32-bit kernels: which calls are within reach of C's int. *)
From Verif Require Import Base M_Kron S_Kron.

Section IntSpec.
  Context {K : Type}.

  (** explicit arrays in the matrix have at most 2^15 rows; controls and swaps are not limited *)
  Fixpoint array_rows_small (m : mat K) : Prop :=
    match m with
    | MNum r _ _ => r <= 2 ^ 15
    | MC m => array_rows_small m
    | _ => True
    end.
  (** no group names more than 30 qubits, and arrays act on at most 15 *)
  Definition mats_small (mats : mats_arg K) : Prop :=
    forall k m, In (k, m) mats -> zlen (key_group k) <= 30 /\ array_rows_small m.
End IntSpec.
