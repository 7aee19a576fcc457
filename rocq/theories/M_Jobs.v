(** Model of several jobs on the workers of one manager: the threads of the clients (qip/distributed/manager.py:38-110
    serve_client and make_state, one thread per client: :542-549), the worker processes that serve one job after another
    (qip/distributed/worker/worker.py:438-449 WorkerRunner.run) and all their connections. A job by itself is
    M_Worker.job_net.
    - The manager has one connection to each worker process, used for all jobs of that worker (manager.py:31-33); the
      connections between workers are made for a job and closed with it (worker.py:167, 374-403).
    - A worker process is a number; which process plays which worker of a job is a parameter of the job ([j_at]): M_Pool
      models the choice (draw_workers, allocate_workers).
    - Simplified: the workers that a reduce_measure gives back early (:61-64) are free only when the job has ended. *)
From Coq Require Import String.
From Verif Require Import Base M_Bits M_Kron M_Feed M_Measure M_Net M_Worker.
Local Open Scope string_scope.

(** ** The commands of an idle worker *)
(** messages.proto:95-100 WorkerCommand: the fields of the message, and which of them is set (oneof) *)
Definition command_fields : list string := ["setup"; "shutdown"].
(** protobuf's HasField: ValueError for a name that is no field of the message *)
Definition has_field (fields : list string) (set : option string) (name : string) : res bool :=
  if existsb (String.eqb name) fields then Ok (match set with Some s => String.eqb s name | None => false end)
  else Raise ValueError.
(** what an idle worker does next *)
Inductive todo := DoSetup | DoStop | DoWait.
(** worker.py:443-449: the branches of the loop; [set]: the field that is set in the command *)
Definition runner_branch (set : option string) : res todo :=
  do s <- has_field command_fields set "setup";
  if s then Ok DoSetup else
  do c <- has_field command_fields set "close";
  if c then Ok DoStop else Ok DoWait.
Local Close Scope string_scope.
Local Open Scope Z_scope.

Section Jobs.
  Context {K : Type} {OK : OrdRing K}.
  Notation proc := (proc pid (msg K) (ending K)).

  (** a job: the workers of its pool, the process of each, the operations with the draws of the manager, and for each
      worker its configuration, the outside influences on its operations and its initial state *)
  Record job := mkJob { j_n : Z; j_ws : list wid; j_at : wid -> Z; j_ops : list (wop K * K);
                        j_cfg : wid -> worker_cfg; j_envs : wid -> list (env K); j_bs : wid -> backend K }.
  Variable rsqrt : K -> K.
  (** manager.py:49-89, after the setup *)
  Definition j_manager (x : job) : proc := manager_run (j_n x) (j_ws x) (j_ops x) [] [].
  (** worker.py:446-447: WorkerInstance(...).run() *)
  Definition j_worker (x : job) (w : wid) : proc := worker_run rsqrt (j_cfg x w) (j_envs x w) (j_bs x w).
  (** the job by itself *)
  Definition j_net (x : job) : net pid (msg K) (ending K) :=
    job_net rsqrt (j_n x) (j_ws x) (j_ops x) (j_cfg x) (j_envs x) (j_bs x).

  (** what the manager sends to a worker process: the command that makes it worker [w] of job [j] (manager.py:184-195),
      the command to shut down (messages.proto:98; sent nowhere), an operation *)
  Inductive down := DSetup (j : nat) (w : wid) | DShutdown | DOp (m : msg K).
  (** the thread of a client: allocate_workers has still to send the setup to some workers (manager.py:190-195); it serves
      the client (:46-89); it has given the workers back (:88-89). [p] is what is left of it. *)
  Inductive thread := Setting (rest : list wid) | Serving (p : proc) | Returned (p : proc).
  (** a worker process: in WorkerRunner.run, in WorkerInstance.run as worker w of job j, or ended by an exception *)
  Inductive wstate := WIdle | WJob (j : nat) (w : wid) (p : proc) | WStopped (e : exn).

  (** everything: the free workers (manager.py:26), the threads (None: the client has not come yet), the worker processes,
      the messages in transit to and from each worker process, and those between the workers of each job *)
  Record world := mkWorld { free : Z -> bool; threads : nat -> option thread; workers : Z -> wstate;
                            downs : Z -> list down; ups : Z -> list (msg K); data : nat -> wid -> wid -> list (msg K) }.

  Definition zset {A} (f : Z -> A) (i : Z) (a : A) : Z -> A := fun k => if k =? i then a else f k.
  Definition nset {A} (f : nat -> A) (i : nat) (a : A) : nat -> A := fun k => if Nat.eqb k i then a else f k.
  Definition dset {A} (f : nat -> wid -> wid -> A) (j : nat) (w v : wid) (a : A) : nat -> wid -> wid -> A :=
    fun j' w' v' => if Nat.eqb j' j && (wid_eqb w' w && wid_eqb v' v) then a else f j' w' v'.

  (** how many messages fit into the connections: to a worker process, from it, and between the workers of a job *)
  Variables (capd capu : Z -> option nat) (capw : nat -> wid -> wid -> option nat) (jobs : nat -> job).

  (** manager.py:94-99: the workers of the pool are taken from the free ones *)
  Definition start (W : world) (j : nat) : option world :=
    let x := jobs j in
    match threads W j with
    | None =>
        if forallb (fun w => free W (j_at x w)) (j_ws x) then
          Some (mkWorld (fun i => free W i && negb (existsb (fun w => i =? j_at x w) (j_ws x)))
                        (nset (threads W) j (Some (Setting (j_ws x)))) (workers W) (downs W) (ups W) (data W))
        else None
    | Some _ => None
    end.

  (** one step of the thread of client j *)
  Definition thread_step (W : world) (j : nat) : option world :=
    let x := jobs j in
    let go t := nset (threads W) j (Some t) in
    match threads W j with
    | Some (Setting (w :: rest)) =>
        let i := j_at x w in
        if has_room (capd i) (downs W i)
        then Some (mkWorld (free W) (go (Setting rest)) (workers W) (zset (downs W) i (downs W i ++ [DSetup j w])) (ups W) (data W))
        else None
    | Some (Setting []) => Some (mkWorld (free W) (go (Serving (j_manager x))) (workers W) (downs W) (ups W) (data W))
    | Some (Serving (Send (Wk w) m k)) =>
        let i := j_at x w in
        if existsb (wid_eqb w) (j_ws x) && has_room (capd i) (downs W i)
        then Some (mkWorld (free W) (go (Serving k)) (workers W) (zset (downs W) i (downs W i ++ [DOp m])) (ups W) (data W))
        else None
    | Some (Serving (Recv (Wk w) k)) =>
        let i := j_at x w in
        if existsb (wid_eqb w) (j_ws x) then
          match ups W i with
          | m :: l => Some (mkWorld (free W) (go (Serving (k m))) (workers W) (downs W) (zset (ups W) i l) (data W))
          | [] => None
          end
        else None
    | Some (Serving ((Ret _ | Fail _) as p)) =>
        Some (mkWorld (fun i => free W i || existsb (fun w => i =? j_at x w) (j_ws x)) (go (Returned p)) (workers W) (downs W) (ups W) (data W))
    | _ => None
    end.

  (** one step of worker process i *)
  Definition worker_step (W : world) (i : Z) : option world :=
    let go s := zset (workers W) i s in
    match workers W i with
    | WStopped _ => None
    | WIdle =>
        match downs W i with
        | [] => None
        | d :: l =>
            let s := match d with
                     | DSetup j w =>
                         match runner_branch (Some "setup"%string) with
                         | Ok DoSetup => WJob j w (j_worker (jobs j) w)
                         | Ok _ => WIdle
                         | Raise e => WStopped e
                         end
                     | DShutdown =>
                         match runner_branch (Some "shutdown"%string) with
                         | Ok _ => WIdle
                         | Raise e => WStopped e
                         end
                     (* an operation that is read as a command *)
                     | DOp _ => WStopped GenericException
                     end in
            Some (mkWorld (free W) (threads W) (go s) (zset (downs W) i l) (ups W) (data W))
        end
    | WJob j w p =>
        match p with
        | Ret _ => Some (mkWorld (free W) (threads W) (go WIdle) (downs W) (ups W) (data W))
        | Fail e => Some (mkWorld (free W) (threads W) (go (WStopped e)) (downs W) (ups W) (data W))
        | Send Mgr m k =>
            if has_room (capu i) (ups W i)
            then Some (mkWorld (free W) (threads W) (go (WJob j w k)) (downs W) (zset (ups W) i (ups W i ++ [m])) (data W))
            else None
        | Send (Wk v) m k =>
            if has_room (capw j w v) (data W j w v)
            then Some (mkWorld (free W) (threads W) (go (WJob j w k)) (downs W) (ups W) (dset (data W) j w v (data W j w v ++ [m])))
            else None
        | Recv Mgr k =>
            match downs W i with
            | [] => None
            (* worker.py:161: a command that is read as an operation is none of the known ones; raise NotImplemented(...) *)
            | d :: l => Some (mkWorld (free W) (threads W) (go (match d with DOp m => WJob j w (k m) | _ => WStopped TypeError end)) (zset (downs W) i l) (ups W) (data W))
            end
        | Recv (Wk v) k =>
            match data W j v w with
            | [] => None
            | m :: l => Some (mkWorld (free W) (threads W) (go (WJob j w (k m))) (downs W) (ups W) (dset (data W) j v w l))
            end
        end
    end.

  (** who moves: a client comes, the thread of a client, a worker process *)
  Inductive act := AStart (j : nat) | AThread (j : nat) | AWorker (i : Z).
  Definition wexec (W : world) (a : act) : option world :=
    match a with AStart j => start W j | AThread j => thread_step W j | AWorker i => worker_step W i end.
  Fixpoint wruns (W : world) (acts : list act) : option world :=
    match acts with [] => Some W | a :: acts => match wexec W a with Some W' => wruns W' acts | None => None end end.
  (** all workers are connected and free, no client has come *)
  Definition world0 : world := mkWorld (fun _ => true) (fun _ => None) (fun _ => WIdle) (fun _ => []) (fun _ => []) (fun _ _ _ => []).
End Jobs.
Arguments job K : clear implicits.
Arguments world K : clear implicits.
Arguments thread K : clear implicits.
Arguments down K : clear implicits.
Arguments wstate K : clear implicits.
