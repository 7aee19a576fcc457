(** Specification of circuits that are run on the workers of a manager. *)
From Verif Require Import Base S_Bits M_Kron M_Ops S_Ops M_Feed S_Feed S_Func S_Measure M_Pool M_Net M_Graph S_Graph M_Worker S_Worker M_DistRun.

Section DistRunSpec.
  Context {K : Type} {OK : OrdRing K}.

  (** the circuit consists of what the distributed backend can be sent: qubits, splits, swaps, controlled operations, measurements *)
  Definition sendable (h : heap K) (args : list nat) : Prop := forall i, ancestor h args i ->
    match nd_kind (nd h i) with
    | KQubit | KSplit _ | KMeasure => True
    | KMat o _ => gate_of o = None
    | KF _ | KStoch _ => False
    end.
  (** a draw from (0, 1], written without division: it scales a positive number to a positive number that is not larger *)
  Definition fair (r : K) : Prop := forall t, rlt 0%r t -> rlt 0%r (r * t)%r /\ rle (r * t)%r t.
  (** the outside influences of a worker: fair draws, schedules that run every iteration once, accumulators that start at 0, and
      enough of them for [k] operations of the client *)
  Definition worker_luck (size : Z) (k : nat) (es : list (M_Worker.env K)) : Prop :=
    scheduled size (4 * k) es /\ forall e, In e es -> fair (M_Worker.e_rand e) /\ M_Worker.e_acc0 e = 0%r.

  (** what the nodes of a circuit, executed in the given order, ask the manager for, what it answers, and what they report: one
      operation for every op and every measurement. Answers of the wrong kind have no outcome (0 with probability 0) *)
  Inductive talks (h : heap K) (srcs : list nat) : list nat -> list (wop K) -> list (mresult K) -> list (nat * cval K) -> Prop :=
  | talks_end answers : talks h srcs [] [] answers []
  | talks_qubit i todo ops answers cm : nd_kind (nd h i) = KQubit \/ (exists l, nd_kind (nd h i) = KSplit l) ->
      talks h srcs todo ops answers cm -> talks h srcs (i :: todo) ops answers ((i, CZero) :: cm)
  | talks_op i o d ms r todo ops answers cm : nd_kind (nd h i) = KMat o d ->
      talks h srcs todo ops answers cm -> talks h srcs (i :: todo) (OKron ms :: ops) (r :: answers) ((i, CZero) :: cm)
  | talks_measure i gs r m p todo ops answers cm : nd_kind (nd h i) = KMeasure -> Forall2 (wires h srcs) (inputs_of h i) gs ->
      match r with Some (inl x) => (m, p) = x | _ => (m, p) = (0, 0%r) end -> talks h srcs todo ops answers cm ->
      talks h srcs (i :: todo) (OMeasure (mkMeasure (concat gs) None false false 0) :: ops) (r :: answers) ((i, CMeas m p) :: cm)
  | talks_probs i k gs r outcomes probs todo ops answers cm : nd_kind (nd h i) = KStoch k -> Forall2 (wires h srcs) (inputs_of h i) gs ->
      match r with Some (inr (is_, ps, _)) => (outcomes, probs) = (is_, ps) | _ => (outcomes, probs) = ([], []) end -> talks h srcs todo ops answers cm ->
      talks h srcs (i :: todo) (OMeasure (mkMeasure (concat gs) None false false (if k =? 0 then 2 ^ zlen (concat gs) else k)) :: ops) (r :: answers)
        ((i, CProbs (inr (outcomes, probs))) :: cm).
  (** the worker carries out the operation: measurements as they were asked for *)
  Definition understood (m : wmsg K) (op : wop K) : Prop :=
    match op with OKron _ => exists matrices, m = WKron matrices | op => decode_op m = Ok op end.
End DistRunSpec.
