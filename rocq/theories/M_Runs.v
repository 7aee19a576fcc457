(** Model of runs (qip/pipeline.py:71-135) that several threads make at the same time. What they share is self.ms of the ops
    (qip/operators.py:15-26): a thread may be switched between any two accesses to it. Everything else a run changes, the state, the
    positions of the qubits and the results, belongs to it alone; the objects are not changed by runs. *)
From Verif Require Import Base M_Kron M_Ops M_Feed M_Graph M_DistRun.

Section Runs.
  Context {K : Type} {OK : OrdRing K}.
  Notation C := (Cx K).

  (** a thread, up to its accesses to shared attributes: it has returned or raised, it reads self.ms of node i, or it writes it *)
  Inductive prog (A : Type) :=
  | PRet (a : A)
  | PRead (i : nat) (k : option (mats_arg K) -> prog A)
  | PWrite (i : nat) (ms : mats_arg K) (k : prog A).
  Arguments PRet {A} a.
  Arguments PRead {A} i k.
  Arguments PWrite {A} i ms k.

  (** NodeFeeder.feed (qip/pipeline.py:236-240) of a node, with what follows. For an op MatrixOp.feed_indices
      (qip/operators.py:15-26): the test (:17), the assignment (:18), with dagger self.ms.items() and the second assignment (:19-23), and
      the argument of kronselect_dot (:25). All other classes access nothing shared ([node_feed]). kronselect_dot(None) would raise
      TypeError. The caches in [acc] are not used. *)
  Definition feed_p {A} (ev : env K) (h : heap K) (a : acc K) (i : nat) (groups : list (list Z)) (next : res (acc K) -> prog A) : prog A :=
    match nd_kind (nd h i) with
    | KMat o dagger =>
        let use := PRead i (fun v =>
          match v with
          | None => next (Raise TypeError)
          | Some ms =>
              match bk_kron (e_sched ev i) (a_back a) ms with
              | Raise e => next (Raise e)
              | Ok b => next (Ok (mkAcc b (a_n a - 0) (odict_set (a_cm a) i CZero) (a_cache a)))
              end
          end) in
        PRead i (fun v =>
          match v with
          | Some _ => use
          | None =>
              match makemats o groups with
              | Raise e => next (Raise e)
              | Ok ms =>
                  PWrite i ms (if dagger then
                    PRead i (fun v =>
                      match v with
                      | None => next (Raise TypeError)
                      | Some ms => match adj_ms ms with Raise e => next (Raise e) | Ok ms => PWrite i ms use end
                      end)
                  else use)
              end
          end)
    | _ => match node_feed ev h a i groups with (a, Ok _) => next (Ok a) | (_, Raise e) => next (Raise e) end
    end.

  (** the nodes run_graph (qip/pipeline.py:186-222) feeds, with the positions of their inputs, and how it ends if no feed raises: neither
      depends on what the feeds do *)
  Definition visits (h : heap K) (frontier graphnodes : list nat) : list (nat * list (list Z)) * res unit :=
    run_graph (fun l i groups => (l ++ [(i, groups)], Ok tt)) h frontier graphnodes [].
  Fixpoint feeds_p (ev : env K) (h : heap K) (l : list (nat * list (list Z))) (fin : res unit) (a : acc K) : prog (res (list C * list (nat * cval K))) :=
    match l with
    | [] => PRet (match fin with Ok _ => Ok (bk_state (a_back a), a_cm a) | Raise e => Raise e end)
    | (i, groups) :: l => feed_p ev h a i groups (fun r => match r with Ok a => feeds_p ev h l fin a | Raise e => PRet (Raise e) end)
    end.
  (** qip/pipeline.py:71-135 [run]; [prepare] is its beginning (:86-131) *)
  Definition run_p (ev : env K) (h : heap K) (args : list nat) (feed : list (fkey * feed_t K)) (strict : bool) (state : state_kw K)
      : prog (res (list C * list (nat * cval K))) :=
    match prepare ev h args feed strict state with
    | Raise e => PRet (Raise e)
    | Ok (frontier, graphnodes, n, groups, states) =>
        match make_state (e_junk ev) n groups states None None None None with
        | Raise e => PRet (Raise e)
        | Ok b =>
            let '(l, fin) := visits h frontier graphnodes in
            feeds_p ev h l fin (mkAcc b (fold_left (fun s f => s + nd_n (nd h f)) frontier 0) [] cache0)
        end
    end.

  (** self.ms of the ops, and the threads; a schedule lists whose turn it is (turns of threads that have ended are skipped) *)
  Record runs A := mkRuns { r_cache : cache K; r_threads : list (prog A) }.
  Arguments mkRuns {A} r_cache r_threads.
  Arguments r_cache {A} r.
  Arguments r_threads {A} r.
  Definition advance {A} (s : runs A) (t : nat) : runs A :=
    match nth_error (r_threads s) t with
    | Some (PRead i k) => mkRuns (r_cache s) (upd (r_threads s) t (k (r_cache s i)))
    | Some (PWrite i ms k) => mkRuns (cache_set (r_cache s) i ms) (upd (r_threads s) t k)
    | _ => s
    end.
  Definition advances {A} (s : runs A) (sched : list nat) : runs A := fold_left advance sched s.

  (** the arguments of a call of run; [j_env] is what its result depends on besides *)
  Record job := mkJob { j_env : env K; j_args : list nat; j_feed : list (fkey * feed_t K); j_strict : bool; j_state : state_kw K }.
  Definition start (h : heap K) (c : cache K) (jobs : list job) : runs (res (list C * list (nat * cval K))) :=
    mkRuns c (map (fun j => run_p (j_env j) h (j_args j) (j_feed j) (j_strict j) (j_state j)) jobs).
End Runs.
Arguments prog K A : clear implicits.
Arguments runs K A : clear implicits.
Arguments job K : clear implicits.
Arguments PRet {K A} a.
Arguments PRead {K A} i k.
Arguments PWrite {K A} i ms k.
Arguments mkRuns {K A} r_cache r_threads.
Arguments r_cache {K A} r.
Arguments r_threads {K A} r.
