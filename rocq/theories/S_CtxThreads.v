(** Specification of threads that use contexts: what their code should do. *)
From Verif Require Import Base M_Bits M_Kron M_Ops M_Feed M_Func M_Measure M_Graph M_Context M_CtxObj M_CtxThreads.

Section CtxThreads.
  Context {K : Type} {OK : OrdRing K}.
  Variable cn : consts K.

  (** ** One thread: the code, with the calls and with statements of M_CtxObj (C95) *)
  Fixpoint orun (p : code K) (w : oworld K) : st (oworld K) (list nat) :=
    match p with
    | CEnd r => (w, r)
    | COp c args k => let (w, r) := ocall_op cn w c args in orun (k r) w
    | CWith set body k => let (w, r) := owith_new w set (fun i w => orun (body i) w) in orun (k r) w
    | CLocal i outs k => orun (k (put_in_order (fun i => i) (fst (obj w i)) outs)) w
    end.
  Definition finished (t : cthread K) (r : res (list nat)) : Prop := t = (PRun (CEnd r), []).

  (** ** Threads that take turns *)
  (** a thread that is neither in a call nor in a with statement *)
  Definition outside (t : cthread K) : Prop := exists p, t = (PRun p, []).
  (** when a thread takes a step, all others are outside *)
  Inductive exclusive : oworld K -> list (cthread K) -> list nat -> Prop :=
  | ex_end : forall w ts, exclusive w ts []
  | ex_step : forall w ts j sched t w' t', (forall i u, i <> j -> nth_error ts i = Some u -> outside u) ->
      nth_error ts j = Some t -> cstep cn w t = Some (w', t') -> exclusive w' (upd ts j t') sched -> exclusive w ts (j :: sched).
  (** one call or with statement, as a whole *)
  Definition item (p : code K) (w : oworld K) : oworld K * code K :=
    match p with
    | CEnd r => (w, CEnd r)
    | COp c args k => let (w, r) := ocall_op cn w c args in (w, k r)
    | CWith set body k => let (w, r) := owith_new w set (fun i w => orun (body i) w) in (w, k r)
    | CLocal i outs k => (w, k (put_in_order (fun i => i) (fst (obj w i)) outs))
    end.
  Fixpoint in_turn (w : oworld K) (ps : list (code K)) (who : list nat) : oworld K * list (code K) :=
    match who with
    | [] => (w, ps)
    | j :: who => let (w, p) := item (nth j ps (CEnd (Ok []))) w in in_turn w (upd ps j p) who
    end.

  (** ** Threads whose contexts hold no qubits *)
  Inductive no_qubits : code K -> Prop :=
  | nq_end : forall r, no_qubits (CEnd r)
  | nq_op : forall c args k, (forall r, no_qubits (k r)) -> no_qubits (COp c args k)
  | nq_with : forall body k, (forall i, no_qubits (body i)) -> (forall r, no_qubits (k r)) -> no_qubits (CWith [] body k)
  | nq_local : forall i outs k, (forall l, no_qubits (k l)) -> no_qubits (CLocal i outs k).
  (** a library without contexts: calls are single steps on the circuit, and a block is carried out before what follows it *)
  Definition direct (h : heap K) (c : ctor) (args : list (arg K)) : st (heap K) (list nat) :=
    sbind (build cn h c args no_kw) (fun h q => sbind (split h q None) (fun h outs => (h, match outs with [] => Raise ValueError | _ => Ok outs end))).
  Definition pthread : Type := (code K * list (res (list nat) -> code K))%type.
  Inductive pstep : heap K -> pthread -> heap K -> pthread -> Prop :=
  | ps_op : forall h c args k ks, pstep h (COp c args k, ks) (fst (direct h c args)) (k (snd (direct h c args)), ks)
  | ps_with : forall h set body k ks i, pstep h (CWith set body k, ks) h (body i, k :: ks)
  | ps_leave : forall h r k ks, pstep h (CEnd r, k :: ks) h (k r, ks)
  | ps_local : forall h i outs k ks, pstep h (CLocal i outs k, ks) h (k outs, ks).
  Inductive plain : heap K -> list pthread -> heap K -> list pthread -> Prop :=
  | pl_end : forall h ps, plain h ps h ps
  | pl_step : forall h ps j p h1 p1 h' ps', nth_error ps j = Some p -> pstep h p h1 p1 -> plain h1 (upd ps j p1) h' ps' -> plain h ps h' ps'.
End CtxThreads.
