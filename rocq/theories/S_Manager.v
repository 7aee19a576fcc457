(** Specification: where the workers are. *)
From Verif Require Import Base M_Pool M_Manager.

(** the workers a history has registered *)
Definition registered (es : list event) : list worker := flat_map (fun e => match e with AddWorker w => [w] | _ => [] end) es.
(** the workers a client thread holds *)
Definition held (x : job) : list worker := jb_unallocated x ++ map en_worker (jb_pool x) ++ jb_returned x.
(** the job has ended *)
Definition ended (x : job) : Prop := jb_status x = Finished \/ jb_status x = Dead.
