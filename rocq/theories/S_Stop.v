(** Specification: the hosts that connect before and after the end is requested. *)
From Verif Require Import Base M_Server S_Server M_Stop.

(** what the hosts and the accepting thread do *)
Definition host_events (es : list levent) : list event := flat_map (fun e => match e with Host e => [e] | Stop => [] end) es.
(** the hosts a thread has been started for *)
Definition handled (s : loop) : list Z := map fst (sv_handled (lp_server s)).
(** run() is in tcpsock.accept() and nobody is waiting to be accepted *)
Definition waits (s : loop) : Prop := lp_returned s = false /\ sv_thread (lp_server s) = Free /\ sv_queue (lp_server s) = [].
