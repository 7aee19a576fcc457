(** Specification: the shutdown of the manager. *)
From Verif Require Import Base M_Pool M_Manager S_Manager M_Close.

(** the workers a history has registered *)
Definition site_registered (es : list sevent) : list worker := flat_map (fun e => match e with Thread (AddWorker w) => [w] | _ => [] end) es.
(** nobody calls close *)
Definition no_call (es : list sevent) : Prop := ~ In CloseBegin es.
(** the event needs a message to worker [w] to be sent: the worker is in the pool that is reduced or closed *)
Definition in_pool (w : worker) (m : manager) (j : nat) : Prop := exists x, nth_error (mg_jobs m) j = Some x /\ In w (map en_worker (jb_pool x)).
Definition reaches (w : worker) (s : site) (e : sevent) : Prop :=
  match e with
  | Thread (ClosePool j true) | Thread (Operation j (OpReduce _)) => in_pool w (st_manager s) j
  | ClosePools true => match st_closing s with Pools (j :: _) => in_pool w (st_manager s) j | _ => False end
  | _ => False
  end.
(** from [s] on, every message to [w] fails *)
Fixpoint unreachable (w : worker) (s : site) (es : list sevent) : Prop :=
  match es with
  | [] => True
  | e :: es => ~ reaches w s e /\ forall s', sstep s e = Some s' -> unreachable w s' es
  end.
