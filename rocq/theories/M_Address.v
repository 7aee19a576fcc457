(** Model of the addresses by which workers find each other: qip/distributed/worker/worker.py:179-194 (WorkerPoolServer),
    407-432 (WorkerRunner), 452-463 (the main program), 359-373 (make_connection), qip/distributed/manager.py:31-33, 160-195 (allocate_workers) and
    526-527. M_Connect names a worker by a number and takes for granted that its address leads to it; here the address
    is what the code makes of it. Hosts are numbers; firewalls and more than one network interface are left out. *)
From Coq Require Import String.
From Verif Require Import Base.
Local Close Scope string_scope.

(** a running worker: the host it is on, the bindaddr it was started with, the port its pool listens on *)
Record process := mkProcess { p_host : nat; p_bind : string; p_port : Z }.

(** worker.py:408: the default of bindaddr *)
Definition default_bindaddr : string := "localhost"%string.

(** worker.py:452-463: a worker started from the command line; its arguments are the manager's address and port and the
    number of qubits, so bindaddr keeps its default. [port] is the one chosen by the system. *)
Definition main_process (host : nat) (port : Z) : process := mkProcess host default_bindaddr port.

(** the names of the asking host itself: connecting to them stays on the host *)
Definition own_name (name : string) : bool := String.eqb name "localhost" || String.eqb name "127.0.0.1" || String.eqb name "0.0.0.0".
(** name resolution on host [asking]; [dns] is what other names stand for *)
Definition resolve (dns : string -> option nat) (asking : nat) (name : string) : option nat :=
  if own_name name then Some asking else dns name.

(** worker.py:193-194, 427-430 and manager.py:183-184: what the partners of a worker are told. The address from which the
    manager sees the worker (manager.py:526-527, host_info.address) is not used. *)
Definition told (p : process) : string * Z := (p_bind p, p_port p).

(** sock.bind (worker.py:192): a pool bound to 0.0.0.0 listens under every name of its host, one bound to another own
    name only under own names, one bound to a public name only under public names (a host has one network interface) *)
Definition listens (name : string) (p : process) : bool :=
  String.eqb (p_bind p) "0.0.0.0" || Bool.eqb (own_name name) (own_name (p_bind p)).
(** worker.py:369-370: the process a worker on host [asking] is connected to *)
Definition connected (dns : string -> option nat) (procs : list process) (asking : nat) (addr : string * Z) : option process :=
  match resolve dns asking (fst addr) with
  | None => None
  | Some h => find (fun p => Nat.eqb (p_host p) h && (p_port p =? snd addr) && listens (fst addr) p) procs
  end.
