(** Specification: who connects to the manager. *)
From Verif Require Import Base M_Server.

(** the hosts that connect, in order *)
Definition arrivals (es : list event) : list Z := flat_map (fun e => match e with Arrive c => [c] | _ => [] end) es.
(** the first message of a host *)
Definition first_message (c : Z) (es : list event) : option intro :=
  hd_error (flat_map (fun e => match e with Introduce d i => if d =? c then [i] else [] | _ => [] end) es).
Definition leaves (c : Z) (es : list event) : Prop := In (Leave c) es.
(** [c] comes before [d] in the list *)
Definition before (c d : Z) (l : list Z) : Prop := exists x y z, l = x ++ c :: y ++ d :: z.
(** a thread has been started for the host *)
Definition served (c : Z) (s : server) : Prop := exists i, In (c, i) (sv_handled s).
(** the number of steps of the accepting thread *)
Definition steps (es : list event) : Z := zlen (filter (fun e => match e with Serve _ => true | _ => false end) es).
