(** Which nodes of a circuit are computed by the extension modules; values that a type keeps. *)
From Verif Require Import Base M_Kron M_Ops M_Feed M_Graph S_Graph.

Section StateType.
  Context {K : Type} {OK : OrdRing K}.
  Notation C := (Cx K).
  (** the node is an op, an F op or a measurement: neither a register nor a selection of qubits *)
  Definition computes (h : heap K) (i : nat) : Prop :=
    match nd_kind (nd h i) with KQubit | KSplit _ => False | _ => True end.
  (** storing keeps 0, 1, the amplitudes that are given and their products as they are *)
  Definition keeps (store : C -> C) (init : list (list Z * list C)) : Prop := exists P : C -> Prop,
    (forall x, P x -> store x = x) /\ P 0%r /\ P 1%r /\ (forall x y, P x -> P y -> P (x * y)%r) /\
    forall g l x, In (g, l) init -> In x l -> P x.
End StateType.
