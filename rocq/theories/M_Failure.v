(** A job in which a worker is lost, and a job on workers whose earlier confirmations were never read. *)
From Verif Require Import Base M_Net M_Kron M_Feed M_Measure M_Worker.

Section Failure.
  Context {K : Type} {OK : OrdRing K}.
  Notation msg := (msg K).
  Notation proc := (proc pid msg (ending K)).
  Notation net := (net pid msg (ending K)).

  (** formatsock.py:58-60: recv raises IOError when the connection has ended. The manager then receives what is no
      confirmation, and leaves receive_from_each_of (manager.py:447-455) with an exception. Simplified: the exception
      of the model is GenericException; the finally clause of serve_client (manager.py:82-91) is the same for both. *)
  Definition gone : msg := MAccept 0 0 0.
  (** a worker that is lost before it confirms its first operation; [read]: it has received the operation. What the
      manager sends to it afterwards is accepted and never read: the first send after the other side has ended does not
      fail. *)
  Definition lost (read : bool) : proc :=
    if read then Recv Mgr (fun _ => Send Mgr gone (Ret EIdle)) else Send Mgr gone (Ret EIdle).
  (** the job of M_Worker, whose worker [e] is lost *)
  Definition failing_net (rsqrt : K -> K) (n : Z) (workers : list wid) (ops : list (wop K * K))
      (cfg : wid -> worker_cfg) (envs : wid -> list (env K)) (b : wid -> backend K) (e : wid) (read : bool) : net :=
    mkNet (fun p => if pid_eqb p (Wk e) then lost read else procs (job_net rsqrt n workers ops cfg envs b) p) (fun _ _ => []).

  (** the job of M_Worker; the manager has not read the confirmations [left w], which worker w sent in an earlier job over
      the connection that it uses for all its jobs (worker.py:438-449 WorkerRunner; manager.py:31-33 add_worker). The
      job_id of a confirmation is not looked at (manager.py:447-455). *)
  Definition next_net (rsqrt : K -> K) (n : Z) (workers : list wid) (ops : list (wop K * K))
      (cfg : wid -> worker_cfg) (envs : wid -> list (env K)) (b : wid -> backend K) (left : wid -> list (conf K)) : net :=
    mkNet (procs (job_net rsqrt n workers ops cfg envs b))
          (fun x y => match x, y with Wk w, Mgr => map MConf (left w) | _, _ => [] end).
End Failure.
