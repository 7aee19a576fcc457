(** Model of the end of the accepting loop: qip/distributed/manager.py ManagerServer.run (:505-535) and stop (:537-538), on top
    of M_Server. The part of stop after :538, Manager.close, is in M_Close. *)
From Verif Require Import Base M_Server.

(** [lp_running]: self.running; [lp_returned]: run() has returned *)
Record loop := mkLoop { lp_server : server; lp_running : bool; lp_returned : bool }.
(** __init__ (:503) and the first check of the condition (:508); a stop before run() is not modelled *)
Definition loop_init : loop := mkLoop server_init true false.

Inductive levent := Host (e : event) | Stop.

(** at the top of the loop again (:508) *)
Definition at_top (s : server) : bool := match sv_thread s with Free => true | _ => false end.
Definition lstep (s : loop) (e : levent) : option loop :=
  match e with
  | Stop => Some (mkLoop (lp_server s) false (lp_returned s)) (* :538 *)
  | Host (Serve sent) =>
      if lp_returned s then None else
      match step (lp_server s) (Serve sent) with
      | Some v => Some (mkLoop v (lp_running s) (at_top v && negb (lp_running s)))
      | None => None end
  | Host e => match step (lp_server s) e with Some v => Some (mkLoop v (lp_running s) (lp_returned s)) | None => None end
  end.
Fixpoint lrun (s : loop) (es : list levent) : option loop :=
  match es with [] => Some s | e :: es => match lstep s e with Some s' => lrun s' es | None => None end end.
