(** Model of the argument statetype of run: qip/pipeline.py run, qip/backend.py make_state, and the declared buffer types of
    the extension modules (qip/ext/kronprod.pyx, qip/ext/func_apply.pyx). *)
From Verif Require Import Base M_Bits M_Kron M_Ops M_Feed M_Func M_Measure M_Graph.

Section StateType.
  Context {K : Type} {OK : OrdRing K}.
  Notation C := (Cx K).

  (** the dtype of the arrays: whether it is that of [double complex[:]], and what is kept of a value that is stored in an
      array of this type. Only types that hold complex numbers: numpy raises TypeError when a complex number is stored in
      an array of real numbers (not modelled). *)
  Record statetype := mkType { is_complex128 : bool; stored : C -> C }.
  (** numpy.complex128, the default (qip/pipeline.py:75, qip/backend.py:77). [C] models its values, see Base. *)
  Definition complex128 : statetype := mkType true (fun c => c).

  (** passing arrays of type [t] for parameters declared [double complex[:]] (qip/ext/kronprod.pyx:44, 240, 266, 388 and
      qip/ext/func_apply.pyx:12): the generated code raises ValueError, Buffer dtype mismatch, before the body *)
  Definition as_buffers {A} (t : statetype) (body : res A) : res A := if is_complex128 t then body else Raise ValueError.

  (** qip/backend.py:74-104: [make_state] with its last parameter. Every assignment to an entry of state stores. *)
  Definition make_state_t (t : statetype) (junk : Z -> C) (n : Z) (index_groups : list (list Z)) (feed_list : list (feed_t K))
    : res (backend K) :=
    let state := map (fun _ => 0%r) (zrange 0 (2 ^ n)) in
    do state <- (if zlen feed_list =? 0 then pyset state 0 (stored t 1%r) else Ok state);
    do edits <- gen_edit_indices index_groups (n - 1);
    do state <- mfold (fun state '(index, flips) =>
        if (index <? 0) || (2 ^ n <=? index) then Ok state else
        do state <- pyset state (index - 0) (stored t 1%r);
        mfold (fun state '(qindex, flip) =>
            do s <- pyget state (index - 0);
            do f <- pyget feed_list qindex;
            do a <- feed_get f flip;
            pyset state (index - 0) (stored t (s * a)%r)) (enumerate flips) state) edits state;
    Ok (mkBackend n state (map junk (zrange 0 (2 ^ n)))).

  (** qip/util.py:15-67 called by qip/backend.py:112-116 with cdot_loop: the checks in Python come first *)
  Definition bk_kron_t (t : statetype) (sched : list Z) (b : backend K) (ms : mats_arg K) : res (backend K) :=
    do out <- (if 2 ^ bk_n b <? zlen (bk_state b) + 0 then Raise ValueError else
               if 2 ^ bk_n b <? zlen (bk_arena b) + 0 then Raise ValueError else
               do newmats <- norm_mats ms;
               as_buffers t (cdot_loop sched (map fst newmats) (map snd newmats) (bk_state b) (bk_n b) (bk_arena b) 0 0));
    Ok (mkBackend (bk_n b) out (bk_state b)).
  (** qip/operators.py:287-292, qip/backend.py:118-121, qip/ext/func_apply.pyx:11-13 *)
  Definition fop_feed_t (t : statetype) (m : machine) (sched : list Z) (b : backend K) (index_groups : list (list Z))
      (func : Z -> res Z) : res (backend K) :=
    do reg1 <- pyget index_groups 0;
    do reg2 <- pyget index_groups 1;
    do out <- as_buffers t (func_apply m sched reg1 reg2 func (bk_state b) (bk_n b) (bk_arena b) 0 0 true);
    Ok (mkBackend (bk_n b) out (bk_state b)).

  (** qip/pipeline.py:236-240, see [node_feed]; Measure: qip/backend.py:126-134, StochasticMeasure: qip/backend.py:158-163 *)
  Definition node_feed_t (t : statetype) (ev : env K) (h : heap K) (a : acc K) (i : nat) (groups : list (list Z)) : st (acc K) unit :=
    let ok b c bits := (mkAcc b (a_n a - 0) (odict_set (a_cm a) i bits) c, Ok tt) in
    match nd_kind (nd h i) with
    | KQubit | KSplit _ => ok (a_back a) (a_cache a) CZero
    | KMat o dagger =>
        match op_mats (a_cache a) i o dagger groups with
        | (c, Raise e) => (mkAcc (a_back a) (a_n a) (a_cm a) c, Raise e)
        | (c, Ok ms) =>
            match bk_kron_t t (e_sched ev i) (a_back a) ms with
            | Raise e => (mkAcc (a_back a) (a_n a) (a_cm a) c, Raise e)
            | Ok b => ok b c CZero
            end
        end
    | KF func =>
        match fop_feed_t t (e_mach ev) (e_sched ev i) (a_back a) groups func with
        | Raise e => (a, Raise e)
        | Ok b => ok b (a_cache a) CZero
        end
    | KMeasure =>
        match as_buffers t (bk_measure (e_rsqrt ev) (e_rand ev i) (e_acc0 ev i) (a_back a) (concat groups) None None 0 0) with
        | Raise e => (a, Raise e)
        | Ok ((m, p), b) => ok b (a_cache a) (CMeas m p)
        end
    | KStoch top_k =>
        match as_buffers t (bk_measure_probabilities (a_back a) (concat groups) top_k) with
        | Raise e => (a, Raise e)
        | Ok p => ok (a_back a) (a_cache a) (CProbs p)
        end
    end.

  (** qip/pipeline.py:71-135: [run] with the argument statetype, default backend *)
  Definition run_t (t : statetype) (ev : env K) (c : cache K) (h : heap K) (args : list nat) (feed : list (fkey * feed_t K))
      (strict : bool) (state : state_kw K) : st (cache K) (list C * list (nat * cval K)) :=
    let feed := fold_left (fun d '(k, v) => tdict_set d (fkey_tuple k) v) feed [] in
    let all_qubits_in_feed := concat (map fst feed) in
    match get_deps ev h args with
    | Raise e => (c, Raise e)
    | Ok (frontier, graphnodes) =>
        let feed := add_defaults h frontier all_qubits_in_feed feed in
        let frontier := sort_by (qid_of h) frontier in
        if strict && negb (forallb (fun q => mem q all_qubits_in_feed) frontier) then (c, Raise ValueError) else
        let '(qbitindex, n) := assign_indices h frontier in
        match (do feed_index_groups <- mmap (fun '(qs, _) => do gs <- mmap (odict_get qbitindex) qs; Ok (concat gs)) feed;
               do use_state <- truthy state;
               let '(groups, states) := if use_state then ([zrange 0 n], [state_feed state])
                                        else (feed_index_groups, map snd feed) in
               make_state_t t (e_junk ev) n groups states) with
        | Raise e => (c, Raise e)
        | Ok b =>
            match run_graph (node_feed_t t ev h) h frontier graphnodes
                    (mkAcc b (fold_left (fun s f => s + nd_n (nd h f)) frontier 0) [] c) with
            | (a, Raise e) => (a_cache a, Raise e)
            | (a, Ok _) => (a_cache a, Ok (bk_state (a_back a), a_cm a))
            end
        end
    end.
End StateType.
Arguments statetype K : clear implicits.
