(** The connections of a job. *)
From Verif Require Import Base M_Pool M_Worker M_Connect.

(** the connections and closings of a job in a history *)
Definition of_job (job : Z) (ev : event) : bool :=
  match ev with EConnect _ j _ _ | EClose _ j => j =? job | ENote _ | EAccept _ => false end.
(** all connections the workers of a pool make *)
Definition all_connects (job : Z) (pool : list entry) : list event := concat (map (connects job pool) pool).
(** no connection of the job waits to be accepted or registered *)
Definition settled (job : Z) (cl : cluster) : Prop :=
  forall p c w, ~ In (c, (job, w)) (cl_queue cl p) /\ ~ In (c, (job, w)) (cl_dialled cl p).
(** the workers registered with a worker for a job, in the order of registration *)
Definition registered (sv : server) (job : Z) : list wid :=
  map (fun e => snd (fst e)) (filter (fun e => fst (fst e) =? job) (sv_workers sv)).
(** the socket for the worker with ranges w; the connections to workers by input range and by output range *)
Definition socket_to (sv : server) (job : Z) (w : wid) : option sock := dget fkey_eqb (sv_workers sv) (job, w).
Definition to_inputs (sv : server) (job : Z) (r : range) : list (sock * range) :=
  match dget rkey_eqb (sv_inputs sv) (job, r) with Some l => l | None => [] end.
Definition to_outputs (sv : server) (job : Z) (r : range) : list (sock * range) :=
  match dget rkey_eqb (sv_outputs sv) (job, r) with Some l => l | None => [] end.
(** an operation of the job could use the socket *)
Definition uses (sv : server) (job : Z) (s : sock) : Prop :=
  (exists w, In ((job, w), s) (sv_workers sv)) \/
  (exists r l o, In ((job, r), l) (sv_inputs sv) /\ In (s, o) l) \/
  (exists r l i, In ((job, r), l) (sv_outputs sv) /\ In (s, i) l).
(** events that are not connections, or closings at worker p, of the job *)
Definition no_connect (job : Z) (ev : event) : Prop := match ev with EConnect _ j _ _ => j <> job | _ => True end.
Definition no_close (p job : Z) (ev : event) : Prop := match ev with EClose p' j => ~ (p' = p /\ j = job) | _ => True end.
