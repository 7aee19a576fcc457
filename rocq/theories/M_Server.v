(** Model of the accepting thread of the manager: qip/distributed/manager.py ManagerServer.run (:505-535) and handle
    (:542-549), without TLS. A host is named by the number of its connection. *)
From Verif Require Import Base.

(** the first message of a host: a HostInformation with worker_info (:543) or client_info (:546) or neither, or bytes that
    are not a HostInformation *)
Inductive intro := IWorker (n_qubits : Z) | IClient | INobody | IGarbage.

(** the thread waits in tcpsock.accept() (:510), or in recv() for the introduction of a host (:525); or an exception that is
    not an IOError has ended it: FromString raises DecodeError for bytes it cannot read *)
Inductive accepting := Free | Greeting (c : Z) | Ended.

Record server := mkServer {
  sv_thread : accepting;
  sv_queue : list Z;                 (* connections not accepted yet; listen(5) does not bound them here *)
  sv_mail : list (Z * intro);        (* introductions that have arrived and have not been read *)
  sv_left : list Z;                  (* hosts that have closed their connection *)
  sv_handled : list (Z * intro) }.   (* the threads started (:528-529), in order *)
Definition server_init : server := mkServer Free [] [] [] [].

Definition mail (c : Z) (l : list (Z * intro)) : option intro := option_map snd (find (fun e => fst e =? c) l).
Definition gone (c : Z) (l : list Z) : bool := existsb (Z.eqb c) l.

Inductive event :=
| Arrive (c : Z)             (* a host connects *)
| Introduce (c : Z) (i : intro) (* its first message arrives completely *)
| Leave (c : Z)              (* it closes the connection *)
| Serve (sent : bool).       (* the thread makes a step; [sent]: clientsock.send (:515) does not fail, which it may for a host that has left *)

(** one step; None when the thread has to wait or has ended *)
Definition step (s : server) (e : event) : option server :=
  match e with
  | Arrive c => Some (mkServer (sv_thread s) (sv_queue s ++ [c]) (sv_mail s) (sv_left s) (sv_handled s))
  | Introduce c i => Some (mkServer (sv_thread s) (sv_queue s) (sv_mail s ++ [(c, i)]) (sv_left s) (sv_handled s))
  | Leave c => Some (mkServer (sv_thread s) (sv_queue s) (sv_mail s) (c :: sv_left s) (sv_handled s))
  | Serve sent =>
      match sv_thread s with
      | Free =>
          match sv_queue s with
          | [] => None
          | c :: q =>
              (* an IOError: the connection is closed (:530-535) *)
              if negb sent && gone c (sv_left s) then Some (mkServer Free q (sv_mail s) (sv_left s) (sv_handled s))
              else Some (mkServer (Greeting c) q (sv_mail s) (sv_left s) (sv_handled s))
          end
      | Greeting c =>
          match mail c (sv_mail s) with
          | Some IGarbage => Some (mkServer Ended (sv_queue s) (sv_mail s) (sv_left s) (sv_handled s))
          | Some i => Some (mkServer Free (sv_queue s) (sv_mail s) (sv_left s) (sv_handled s ++ [(c, i)]))
          | None => (* recv raises IOError when the host has left, and waits otherwise (settimeout(None), :524) *)
              if gone c (sv_left s) then Some (mkServer Free (sv_queue s) (sv_mail s) (sv_left s) (sv_handled s)) else None
          end
      | Ended => None
      end
  end.
Fixpoint run (s : server) (es : list event) : option server :=
  match es with [] => Some s | e :: es => match step s e with Some s' => run s' es | None => None end end.
