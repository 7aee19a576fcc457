(** Model of qip/distributed/backend.py DistributedBackend: the calls of a client and the messages it sends. The wire format
    is the subject of M_Proto, connecting and setting up the state that of M_Manager. An answer with an error message, or
    none, raises in the client (not modelled). *)
From Verif Require Import Base M_Bits M_Kron M_Feed M_Measure M_Pool M_Top M_Net M_Worker.

Section Client.
  Context {K : Type} {OK : OrdRing K}.

  (** the methods of DistributedBackend with their arguments; input_offset and output_offset are ignored by all of them *)
  Inductive call :=
  | CKronselectDot (mats : mats_arg K)
  | CFuncApply (reg1 reg2 : list Z) (func : Z -> res Z)
  | CMeasure (indices : list Z) (measured : option Z) (measured_prob : option K)
  | CReduceMeasure (indices : list Z) (measured : option Z) (measured_prob : option K)
  | CSoftMeasure (indices : list Z) (measured : option Z)
  | CMeasureProbabilities (indices : list Z) (top_k : Z).

  (** :56-64, 74-76, 78-86, 94-102, 110-112, 114-123: the operation sent, or the exception. raise NotImplemented(...) is a
      TypeError: NotImplemented cannot be called. A field that is not set has the value false or 0. *)
  Definition request (c : call) : res (wop K) :=
    match c with
    | CKronselectDot mats => Ok (OKron mats)
    | CFuncApply _ _ _ => Raise TypeError
    | CMeasure indices _ _ => Ok (OMeasure (mkMeasure indices None false false 0))
    | CReduceMeasure indices _ _ => Ok (OMeasure (mkMeasure indices None false true 0))
    | CSoftMeasure _ _ => Raise TypeError
    | CMeasureProbabilities indices top_k =>
        let top_k := if (top_k =? 0) then 2 ^ zlen indices else top_k in
        Ok (OMeasure (mkMeasure indices None false false top_k))
    end.

  (** what the methods return (:89-92, 105-108, 126-129): nothing, the outcome with its probability, or the outcomes with
      their probabilities; an answer of another kind has these fields unset *)
  Inductive value := VNone | VOutcome (bits : Z) (prob : K) | VProbs (indices : list Z) (probs : list K).
  Definition response (c : call) (r : mresult K) : value :=
    match c with
    | CMeasure _ _ _ | CReduceMeasure _ _ _ => match r with Some (inl (bits, prob)) => VOutcome bits prob | _ => VOutcome 0 0%r end
    | CMeasureProbabilities _ _ => match r with Some (inr (is, ps, _)) => VProbs is ps | _ => VProbs [] [] end
    | _ => VNone
    end.

  (** the operations a client program sends, each with the value random.random() has at the manager *)
  Definition requests (calls : list (call * K)) : list (wop K * K) :=
    concat (map (fun c => match request (fst c) with Ok op => [(op, snd c)] | Raise _ => [] end) calls).
  (** the job of a client: it makes the calls one after the other and closes the connection *)
  Definition client_net (rsqrt : K -> K) (n : Z) (workers : list wid) (calls : list (call * K))
      (cfg : wid -> worker_cfg) (envs : wid -> list (env K)) (b : wid -> backend K) : net pid (msg K) (ending K) :=
    job_net rsqrt n workers (requests calls) cfg envs b.
End Client.
Arguments call K : clear implicits.
Arguments value K : clear implicits.
