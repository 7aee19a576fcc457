(** When the addresses of workers are what they should be. *)
From Coq Require Import String.
From Verif Require Import Base.
From Verif Require Import M_Address.

(** the names under which a host knows itself *)
Definition local_names : list string := ["localhost"%string; "127.0.0.1"%string; "0.0.0.0"%string].
(** no two pools listen on the same port of a host *)
Definition ports_apart (procs : list process) : Prop :=
  forall p q, In p procs -> In q procs -> p_host p = p_host q -> p_port p = p_port q -> p = q.
(** every worker can find every other one *)
Definition all_found (dns : string -> option nat) (procs : list process) : Prop :=
  forall p q, In p procs -> In q procs -> connected dns procs (p_host q) (told p) = Some p.
(** the bindaddr of the worker is a public name of its host *)
Definition public (dns : string -> option nat) (p : process) : Prop :=
  dns (p_bind p) = Some (p_host p) /\
  ~ In (p_bind p) local_names.
