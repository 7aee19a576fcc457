(** Model of the shutdown of the manager: qip/distributed/manager.py Manager.close (:112-120), called by ManagerServer.stop
    (:537-539), together with the threads of the clients (M_Manager). *)
From Verif Require Import Base M_Pool M_Manager.

(** where the thread that calls close is: not in it; in the loop over job_pools (:116-117), with both locks, [todo] being the
    pools not closed yet; or before the loop over free_workers (:118), with worker_lock only *)
Inductive closing := Idle | Pools (todo : list nat) | Sockets.

(** [st_listed]: the client threads whose pool is in job_pools, in the order of insertion (nothing removes an entry);
    [st_closed]: the workers whose connection the manager has closed *)
Record site := mkSite { st_manager : manager; st_listed : list nat; st_closed : list worker; st_closing : closing }.
(** Manager.__init__ *)
Definition site_init : site := mkSite manager_init [] [] Idle.

Inductive sevent :=
| Thread (e : event)        (* a section of a client thread or of add_worker *)
| CloseBegin                (* close takes worker_lock and pool_lock (:114-115) *)
| ClosePools (sent : bool)  (* :116-117: the next pool is closed, or the loop is over; [sent]: no worker.sock.send raised *)
| CloseSockets.             (* :118-119 *)

(** free_workers is only touched with worker_lock (:32, :63, :88, :96), job_pools is only extended with pool_lock (:104). The
    lookups of job_pools (:58, :83) are not blocked here: the thread may have made them before *)
Definition blocked (c : closing) (e : event) : bool :=
  match c, e with
  | Idle, _ => false
  | _, (AddWorker _ | MakeState _ | GiveBack _) => true
  | Pools _, Allocate _ true => true
  | _, _ => false
  end.

(** :105: what a section adds to job_pools; [m]: the state after the section *)
Definition listing (m : manager) (e : event) : list nat :=
  match e with
  | Allocate j true => match nth_error (mg_jobs m) j with
      | Some x => match jb_status x with Allocated => [j] | _ => [] end
      | None => [] end
  | _ => [] end.

(** :117, WorkerPool.close (:462-471) without exception. Simplification: the closing of one pool is atomic *)
Definition empty_pool (m : manager) (j : nat) : manager :=
  match nth_error (mg_jobs m) j with
  | Some x => mkManager (mg_free m ++ map en_worker (jb_pool x))
      (upd (mg_jobs m) j (mkJob (jb_n x) (jb_min x) (jb_unallocated x) [] (jb_returned x) (jb_status x)))
  | None => m end.

(** one step; None when it cannot happen in the state *)
Definition sstep (s : site) (e : sevent) : option site :=
  match e with
  | Thread e => if blocked (st_closing s) e then None else
      match step (st_manager s) e with
      | Some m => Some (mkSite m (st_listed s ++ listing m e) (st_closed s) (st_closing s))
      | None => None end
  | CloseBegin => match st_closing s with
      | Idle => Some (mkSite (st_manager s) (st_listed s) (st_closed s) (Pools (st_listed s)))
      | _ => None end
  | ClosePools sent => match st_closing s with
      | Pools [] => Some (mkSite (st_manager s) (st_listed s) (st_closed s) Sockets)
      | Pools (j :: todo) =>
          if sent then Some (mkSite (empty_pool (st_manager s) j) (st_listed s) (st_closed s) (Pools todo))
          else Some (mkSite (st_manager s) (st_listed s) (st_closed s) Idle) (* the exception leaves close *)
      | _ => None end
  | CloseSockets => match st_closing s with
      | Sockets => Some (mkSite (st_manager s) (st_listed s) (st_closed s ++ mg_free (st_manager s)) Idle)
      | _ => None end
  end.
Fixpoint srun (s : site) (es : list sevent) : option site :=
  match es with [] => Some s | e :: es => match sstep s e with Some s' => srun s' es | None => None end end.
