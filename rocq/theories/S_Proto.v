(** Specification of the wire format: which objects fit in messages. *)
From Verif Require Import Base M_Kron M_Feed.

Section ProtoSpec.
  Context {K : Type}.
  (** numbers that fit in an int32 and an int64 field *)
  Definition is_int32 (i : Z) : Prop := - 2 ^ 31 <= i < 2 ^ 31.
  Definition is_int64 (i : Z) : Prop := - 2 ^ 63 <= i < 2 ^ 63.
  (** a matrix for [k] indices: an array with rows times columns entries (any size), a swap of two registers of k/2
      qubits, or a controlled matrix for the remaining k - 1 indices *)
  Fixpoint wire_mat (k : Z) (m : mat K) : Prop :=
    match m with
    | MNum r c d => is_int32 r /\ is_int32 c /\ zlen d = r * c
    | MSwap n => k = 2 * n
    | MC m => 1 <= k /\ wire_mat (k - 1) m
    | MOther _ _ _ => False
    end.
  Definition wire_feed (f : feed_t K) : Prop := match f with FInt i => is_int64 i | FArr _ => True end.
End ProtoSpec.
