(** The calls of a client that wait for the workers. *)
From Verif Require Import Base M_Kron M_Net M_Worker M_Client S_Client.

Section S_StartState.
  Context {K : Type} {OK : OrdRing K}.
  (** the call is one the distributed backend has, and asks for no more outcomes than the manager allows *)
  Definition served (c : call K) : Prop :=
    match c with
    | CKronselectDot _ | CMeasure _ _ _ | CReduceMeasure _ _ _ => True
    | CMeasureProbabilities indices top_k => asked_for indices top_k <= 2048
    | CFuncApply _ _ _ | CSoftMeasure _ _ => False
    end.
End S_StartState.
