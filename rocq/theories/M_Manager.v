(** Model of the worker bookkeeping of qip/distributed/manager.py:13-110 [Manager]: every client is served by its own
    thread ([handle], :542-549); the events below are the atomic sections of those threads. Outcomes that depend on
    the network (a send or recv that fails) are parameters of the events. [Manager.close] (:112-120, shutdown of the
    whole server) is in M_Close. *)
From Verif Require Import Base M_Pool.

(** where the thread of a client is:
    - [Drawn]: the pool has drawn its workers (:99);
    - [Allocated]: pool in job_pools, make_state has returned the handle (:105-107);
    - [Serving]: in the loop (:49-73), waiting for the next operation;
    - [Closing]: in the finally clause (:82), before pool.close;
    - [Returning]: pool.close has returned (:85);
    - [Finished]: the workers have been given back (:89);
    - [Dead]: an exception has ended the thread. *)
Inductive status := Drawn | Allocated | Serving | Closing | Returning | Finished | Dead.

(** the local state of a client thread: its WorkerPool (n, min_worker_n, unallocated_workers, workers) and the list
    returned_workers not yet appended to free_workers *)
Record job := mkJob { jb_n : Z; jb_min : Z; jb_unallocated : list worker; jb_pool : list entry; jb_returned : list worker; jb_status : status }.
(** free_workers, and all threads *)
Record manager := mkManager { mg_free : list worker; mg_jobs : list job }.

(** what an operation of the client does to the pool *)
Inductive op_kind :=
| OpPlain                     (* kronprod, measure, top_k: send_op returns no workers *)
| OpReduce (indices : list Z) (* send_reduce_measure *)
| OpClose                     (* op.HasField("close"), :55-56 *)
| OpFails.                    (* any exception in the body of the loop, e.g. the client or a worker disconnects *)

Inductive event :=
| AddWorker (w : worker)            (* :31-33 *)
| MakeState (n : Z)                 (* a client sends its StateSetup; :94-99 *)
| Allocate (j : nat) (sent : bool)  (* :103-107; [sent]: no worker.sock.send raised *)
| Reply (j : nat) (sent : bool)     (* :44 *)
| Operation (j : nat) (op : op_kind) (* :50-60 *)
| GiveBack (j : nat)                (* :63-64 or :88-89 *)
| ClosePool (j : nat) (sent : bool). (* :85; [sent]: no worker.sock.send raised *)

Definition set_job (m : manager) (j : nat) (x : job) : manager := mkManager (mg_free m) (upd (mg_jobs m) j x).
Definition with_status (x : job) (s : status) : job := mkJob (jb_n x) (jb_min x) (jb_unallocated x) (jb_pool x) (jb_returned x) s.

(** one atomic section; None when the event cannot happen in the state *)
Definition step (m : manager) (e : event) : option manager :=
  match e with
  | AddWorker w => Some (mkManager (mg_free m ++ [w]) (mg_jobs m))
  | MakeState n =>
      match draw_workers n (mg_free m) with
      | Ok (unallocated, min_n, rest) => Some (mkManager rest (mg_jobs m ++ [mkJob n min_n unallocated [] [] Drawn]))
      | Raise _ => Some (mkManager (mg_free m) (mg_jobs m ++ [mkJob n 0 [] [] [] Dead]))
      end
  | Allocate j sent =>
      match nth_error (mg_jobs m) j with
      | Some x => match jb_status x with
        | Drawn => match allocate_workers (jb_n x) (jb_min x) (jb_unallocated x) with
            | Ok (workers, _) => Some (set_job m j (mkJob (jb_n x) (jb_min x) [] workers [] (if sent then Allocated else Dead)))
            (* ValueError: the handle with the error message is returned (:108-110), the pool is not in job_pools and
               the finally clause raises KeyError (:84); other exceptions end the thread at once *)
            | Raise _ => Some (set_job m j (with_status x Dead))
            end
        | _ => None end
      | None => None end
  | Reply j sent =>
      match nth_error (mg_jobs m) j with
      | Some x => match jb_status x with
        | Allocated => Some (set_job m j (with_status x (if sent then Serving else Dead)))
        | _ => None end
      | None => None end
  | Operation j op =>
      match nth_error (mg_jobs m) j with
      | Some x => match jb_status x, jb_returned x with
        | Serving, [] =>
            match op with
            | OpPlain => Some m
            | OpReduce indices => let (p, done) := pool_reduce (mkPool (jb_n x) (jb_pool x)) indices in
                Some (set_job m j (mkJob (jb_n x) (jb_min x) (jb_unallocated x) (p_workers p) done Serving))
            | OpClose | OpFails => Some (set_job m j (with_status x Closing))
            end
        | _, _ => None end
      | None => None end
  | GiveBack j =>
      match nth_error (mg_jobs m) j with
      | Some x => match jb_status x with
        | Serving | Returning =>
            Some (mkManager (mg_free m ++ jb_returned x)
              (upd (mg_jobs m) j (mkJob (jb_n x) (jb_min x) (jb_unallocated x) (jb_pool x) []
                                    (match jb_status x with Returning => Finished | s => s end))))
        | _ => None end
      | None => None end
  | ClosePool j sent =>
      match nth_error (mg_jobs m) j with
      | Some x => match jb_status x with
        | Closing => Some (set_job m j (if sent then mkJob (jb_n x) (jb_min x) (jb_unallocated x) [] (map en_worker (jb_pool x)) Returning
                                        else with_status x Dead))
        | _ => None end
      | None => None end
  end.

Fixpoint run (m : manager) (es : list event) : option manager :=
  match es with [] => Some m | e :: es => match step m e with Some m' => run m' es | None => None end end.
(** Manager.__init__ *)
Definition manager_init : manager := mkManager [] [].
