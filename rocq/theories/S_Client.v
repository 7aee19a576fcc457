(** What the calls of a distributed client should do. *)
From Verif Require Import Base M_Kron M_Net M_Worker S_Worker M_Client.

Section S_Client.
  Context {K : Type} {OK : OrdRing K}.
  (** call c of a client asks for operation o; a measurement may come with a forced outcome and probability *)
  Definition asks (c : call K) (o : lop K) : Prop :=
    match o with
    | LKron mats _ => c = CKronselectDot mats
    | LMeasure indices => exists measured measured_prob, c = CMeasure indices measured measured_prob
    end.
  (** what the client gets for a result of the local backend *)
  Definition answer (result : mresult K) : value K :=
    match result with Some (inl (bits, prob)) => VOutcome bits prob | Some (inr (is, ps, _)) => VProbs is ps | None => VNone end.
  (** the number of outcomes measure_probabilities returns for top_k *)
  Definition asked_for (indices : list Z) (top_k : Z) : Z := if top_k =? 0 then 2 ^ zlen indices else top_k.
  (** every call but reduce_measure; the calls of kronselect_dot *)
  Definition no_reduce (c : call K) : Prop := match c with CReduceMeasure _ _ _ => False | _ => True end.
  Definition is_kron (c : call K) : Prop := match c with CKronselectDot _ => True | _ => False end.
End S_Client.
