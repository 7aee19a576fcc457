(** Model of the start of a job: the states the client of qip/distributed/backend.py sends, and what the workers make of
    them in qip/distributed/worker/worker.py. *)
From Verif Require Import Base M_Bits M_Kron M_Feed M_Proto M_Pool M_Net M_Worker M_Client.

Section StartState.
  Context {K : Type} {OK : OrdRing K}.
  Notation C := (Cx K).

  (** qip/distributed/backend.py:31-54 [DistributedBackend.make_state]: the state handle and the states sent. The manager
      (manager.py:38-44, 94-110) sends the workers their set-up and answers with a new handle; it does not wait for the
      workers. Simplified: enough workers are free (S_Pool), so that it does not answer with an error message. *)
  Definition dist_make_state (handle : Z) (index_groups : list (list Z)) (feed_list : list (feed_t K)) : res (Z * list (pbstate K)) :=
    do states <- encode_states index_groups feed_list; Ok (handle, states).

  (** worker.py:36-37, 50-55 the end of [WorkerInstance.__init__]: the state the worker holds. The connections to the
      partners (:39-48) are the subject of M_Connect. *)
  Definition worker_state (junk : Z -> C) (n : Z) (w : wid) (states : list (pbstate K)) : res (backend K) :=
    do gf <- decode_states states;
    make_state junk n (fst gf) (snd gf) (Some (fst (fst w))) (Some (snd (fst w))) (Some (fst (snd w))) (Some (snd (snd w))).
  (** worker.py:438-447: the thread of the worker makes a WorkerInstance and runs it; an exception of the first ends the
      thread *)
  Definition worker_start (rsqrt : K -> K) (c : worker_cfg) (junk : Z -> C) (n : Z) (states : list (pbstate K)) (envs : list (env K)) :
      proc pid (msg K) (ending K) :=
    match worker_state junk n (c_id c) states with
    | Ok b => worker_run rsqrt c envs b
    | Raise e => Fail e
    end.
  (** the job of a client whose make_state has sent [states] and which then makes [calls] *)
  Definition start_net (rsqrt : K -> K) (n : Z) (workers : list wid) (states : list (pbstate K)) (calls : list (call K * K))
      (cfg : wid -> worker_cfg) (junk : wid -> Z -> C) (envs : wid -> list (env K)) : net pid (msg K) (ending K) :=
    mkNet (fun p => match p with
                    | Mgr => manager_run n workers (requests calls) [] []
                    | Wk w => if existsb (wid_eqb w) workers then worker_start rsqrt (cfg w) (junk w) n states (envs w) else Ret EIdle
                    end) (fun _ _ => []).
  (** the next job on the same workers, after [s]: a thread that has been ended by an exception does not come back
      (worker.py:438-447) *)
  Definition next_net (rsqrt : K -> K) (n : Z) (workers : list wid) (states : list (pbstate K)) (calls : list (call K * K))
      (cfg : wid -> worker_cfg) (junk : wid -> Z -> C) (envs : wid -> list (env K)) (s : net pid (msg K) (ending K)) : net pid (msg K) (ending K) :=
    let fresh := start_net rsqrt n workers states calls cfg junk envs in
    mkNet (fun p => match procs s p, p with Fail e, Wk _ => Fail e | _, _ => procs fresh p end) (fun _ _ => []).
End StartState.
