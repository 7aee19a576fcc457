(** Model of the start of a connection to the manager: qip/distributed/manager.py:484-501, 505-526 (ManagerServer),
    qip/distributed/backend.py:13-29 (DistributedBackend.__init__) and qip/distributed/worker/worker.py:407-436
    (WorkerRunner.__init__). Names, certificates, the content of the messages and what TLS does with the bytes are left
    out; the loop of the manager around this is in M_Stop. *)
From Coq Require Import String.
From Verif Require Import Base M_Sock.
Local Close Scope string_scope.

(** manager.py:496: [certfile and keyfile], each None or a string, used as a condition (:515-516) *)
Definition given (file : option string) : bool := match file with None | Some EmptyString => false | Some _ => true end.
Definition server_ssl (certfile keyfile : option string) : bool := if given certfile then given keyfile else false.

(** manager.py:515: the byte the manager sends before anything else *)
Definition greeting (ssl : bool) : list Z := if ssl then [1] else [0].

(** [sock.recv(1)] on the bytes to come, given as the pieces the network delivers them in: one byte is taken, the rest
    of the piece stays; no byte when the connection has been closed *)
Definition recv_byte (incoming : list (list Z)) : list Z * list (list Z) :=
  match incoming with
  | [] => ([], [])
  | [] :: rest => ([], rest)
  | [b] :: rest => ([b], rest)
  | (b :: piece) :: rest => ([b], piece :: rest)
  end.

(** the connection a host goes on with: the plain socket, or one wrapped by ssl.wrap_socket *)
Inductive transport := Plain (c : conn) | Wrapped (incoming : list (list Z)).

(** backend.py:18-24 and worker.py:417-422: the host wraps its socket unless the byte is 0 *)
Definition connect (incoming : list (list Z)) : transport :=
  let '(b, rest) := recv_byte incoming in
  match b with
  | [0] => Plain (mkConn [] rest)
  | _ => Wrapped rest
  end.

(** backend.py:26-29, worker.py:427-432 and manager.py:523-525: the host introduces itself with one message, which the
    manager reads from a new FormatSocket; [cut] are the pieces the bytes arrive in *)
Definition introduce (info : list Z) (cut : list Z -> list (list Z)) : res (list Z) :=
  do bytes <- send info; snd (recv (mkConn [] (cut bytes))).
