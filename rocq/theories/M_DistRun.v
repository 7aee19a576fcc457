(** Model of run (qip/pipeline.py:71-135) with backend_constructor=DistributedBackend.make_state: the messages a run sends to the
    manager, and what it returns when the manager answers. *)
From Verif Require Import Base M_Bits M_Kron M_Ops M_Feed M_Measure M_Pool M_Top M_Net M_Worker M_Proto M_Client M_Graph.

Section DistRun.
  Context {K : Type} {OK : OrdRing K}.
  Notation C := (Cx K).

  (** qip/pipeline.py:86-131: what run does before it makes the state: the top level nodes by qid, the nodes it needs, the number of
      qubits, and the arguments of backend_constructor. The same code as the beginning of [M_Graph.run]. *)
  Definition prepare (ev : M_Graph.env K) (h : heap K) (args : list nat) (feed : list (fkey * feed_t K)) (strict : bool)
      (state : state_kw K) : res (list nat * list nat * Z * list (list Z) * list (feed_t K)) :=
    let feed := fold_left (fun d '(k, v) => tdict_set d (fkey_tuple k) v) feed [] in
    let all_qubits_in_feed := concat (map fst feed) in
    do deps <- get_deps ev h args;
    let '(frontier, graphnodes) := deps in
    let feed := add_defaults h frontier all_qubits_in_feed feed in
    let frontier := sort_by (qid_of h) frontier in
    if strict && negb (forallb (fun q => mem q all_qubits_in_feed) frontier) then Raise ValueError else
    let '(qbitindex, n) := assign_indices h frontier in
    do feed_index_groups <- mmap (fun '(qs, _) => do gs <- mmap (odict_get qbitindex) qs; Ok (concat gs)) feed;
    do use_state <- truthy state;
    let '(groups, states) := if use_state then ([zrange 0 n], [state_feed state])
                             else (feed_index_groups, map snd feed) in
    Ok (frontier, graphnodes, n, groups, states).

  (** the operations a client sends (qip/distributed/proto/messages.proto: WorkerOperation with kronprod or measure) *)
  Inductive wmsg := WKron (matrices : list (pbmatop K)) | WMeasure (m : measure_op K).
  (** qip/distributed/backend.py:58-63, 80-83, 96-99, 115-118: the message for an operation *)
  Definition encode_op (op : wop K) : res wmsg :=
    match op with
    | OKron mats => do l <- encode_kronprod mats; Ok (WKron l)
    | OMeasure m => do l <- indices_to_pbindices (m_indices m); Ok (WMeasure (mkMeasure l (m_result m) (m_soft m) (m_reduce m) (m_top_k m)))
    | _ => Raise TypeError
    end.
  (** qip/distributed/worker/worker.py:67-71, 76-90: the operation a worker carries out *)
  Definition decode_op (w : wmsg) : res (wop K) :=
    match w with
    | WKron l => do mats <- decode_kronprod l; Ok (OKron mats)
    | WMeasure m => Ok (OMeasure (mkMeasure (pbindices_to_indices (m_indices m)) (m_result m) (m_soft m) (m_reduce m) (m_top_k m)))
    end.

  (** NodeFeeder (qip/pipeline.py:225-240) with a DistributedBackend: what was sent so far, the answers that are still to come,
      classic_map and the caches of the ops. No feed method removes qubits. *)
  Record dacc := mkDacc { d_sent : list wmsg; d_answers : list (mresult K); d_cm : list (nat * cval K); d_cache : cache K }.

  (** qip/distributed/backend.py:64-72, 85-92, 101-108, 120-129: send, then wait for the answer. When the connection ends instead,
      FormatSocket.recv raises IOError (qip/distributed/formatsock.py:61-62). Answers with an error message, or for another job, are
      not modelled. *)
  Definition talk (a : dacc) (m : wmsg) : st dacc (mresult K) :=
    match d_answers a with
    | [] => (mkDacc (d_sent a ++ [m]) [] (d_cm a) (d_cache a), Raise IOErrorExn)
    | r :: rs => (mkDacc (d_sent a ++ [m]) rs (d_cm a) (d_cache a), Ok r)
    end.
  Definition dist_call (a : dacc) (c : M_Client.call K) : st dacc (value K) :=
    match (do op <- request c; encode_op op) with
    | Raise e => (a, Raise e)
    | Ok m => sbind (talk a m) (fun a r => (a, Ok (response c r)))
    end.

  (** qip/pipeline.py:236-240 with the feed_indices methods (see [node_feed]) *)
  Definition dist_feed (h : heap K) (a : dacc) (i : nat) (groups : list (list Z)) : st dacc unit :=
    let ok a bits := (mkDacc (d_sent a) (d_answers a) (odict_set (d_cm a) i bits) (d_cache a), Ok tt) in
    match nd_kind (nd h i) with
    | KQubit | KSplit _ => ok a CZero
    | KMat o dagger =>
        match op_mats (d_cache a) i o dagger groups with
        | (c, Raise e) => (mkDacc (d_sent a) (d_answers a) (d_cm a) c, Raise e)
        | (c, Ok ms) => sbind (dist_call (mkDacc (d_sent a) (d_answers a) (d_cm a) c) (CKronselectDot ms)) (fun a _ => ok a CZero)
        end
    | KF func =>
        match (do reg1 <- pyget groups 0; do reg2 <- pyget groups 1; Ok (reg1, reg2)) with
        | Raise e => (a, Raise e)
        | Ok (reg1, reg2) => sbind (dist_call a (CFuncApply reg1 reg2 func)) (fun a _ => ok a CZero)
        end
    | KMeasure =>
        sbind (dist_call a (CMeasure (concat groups) None None)) (fun a v =>
          ok a (match v with VOutcome bits prob => CMeas bits prob | _ => CMeas 0 0%r end))
    | KStoch top_k =>
        sbind (dist_call a (CMeasureProbabilities (concat groups) top_k)) (fun a v =>
          ok a (match v with VProbs is_ ps => CProbs (inr (is_, ps)) | _ => CProbs (inr ([], [])) end))
    end.

  (** what a run sends to set up the state (None: it raises before), then the operations; the caches of the ops afterwards; and what
      it returns *)
  Record dist_out := mkOut { o_setup : option (Z * list (pbstate K)); o_sent : list wmsg; o_cache : cache K;
                                o_result : res (Z * list (nat * cval K)) }.
  (** qip/pipeline.py:71-135, 243-248; qip/distributed/backend.py:31-54 [make_state]. [job] is the handle the manager answers to the
      set-up; get_state (qip/backend.py:19-20) returns it: self.state is the handle (backend.py:53). The backend object is not
      kept: when run returns or raises its socket is closed, and the manager ends the job as after close
      (qip/distributed/manager.py:49-89). Connecting and a set-up that fails are not modelled. *)
  Definition dist_run (job : Z) (ev : M_Graph.env K) (c : cache K) (h : heap K) (args : list nat) (feed : list (fkey * feed_t K))
      (strict : bool) (state : state_kw K) (answers : list (mresult K)) : dist_out :=
    match prepare ev h args feed strict state with
    | Raise e => mkOut None [] c (Raise e)
    | Ok (frontier, graphnodes, n, groups, states) =>
        match encode_states groups states with
        | Raise e => mkOut None [] c (Raise e)
        | Ok setup =>
            match run_graph (dist_feed h) h frontier graphnodes (mkDacc [] answers [] c) with
            | (a, Raise e) => mkOut (Some (n, setup)) (d_sent a) (d_cache a) (Raise e)
            | (a, Ok _) => mkOut (Some (n, setup)) (d_sent a) (d_cache a) (Ok (job, d_cm a))
            end
        end
    end.
End DistRun.
Arguments wmsg K : clear implicits.
Arguments dacc K : clear implicits.
Arguments dist_out K : clear implicits.
