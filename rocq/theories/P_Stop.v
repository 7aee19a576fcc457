(** The end of the accepting loop: C86. *)
From Verif Require Import Base M_Server S_Server M_Stop S_Stop L_Stop.

(** ** C86 *)
(** run does not return before the stop, whatever the hosts do, *)
Theorem C86_not_before : forall es s, lrun loop_init es = Some s -> ~ In Stop es -> lp_returned s = false.
Proof. exact (fun es s E N => not_before es loop_init s eq_refl eq_refl N E). Qed.
Print Assumptions C86_not_before.
(** after the stop at most one more host is handed to a thread, *)
Theorem C86_one_more : forall s es s', lrun s (Stop :: es) = Some s' -> zlen (handled s') <= zlen (handled s) + 1.
Proof. exact one_more. Qed.
Print Assumptions C86_one_more.
(** and run returns as soon as a host connects: when the accepting thread cannot go on, all hosts have introduced themselves or
    have left, and one has connected after the stop, then run has returned. Missing in the property: a stop nobody connects after *)
Theorem C86_returns_partial : forall es es' s, lrun loop_init (es ++ Stop :: es') = Some s -> lstep s (Host (Serve true)) = None -> arrivals (host_events es') <> [] ->
  (forall c, In c (arrivals (host_events (es ++ es'))) -> leaves c (host_events (es ++ es')) \/ exists i, first_message c (host_events (es ++ es')) = Some i) ->
  (forall c, In c (arrivals (host_events (es ++ es'))) -> first_message c (host_events (es ++ es')) <> Some IGarbage) ->
  lp_returned s = true.
Proof. exact returns. Qed.
Print Assumptions C86_returns_partial.
(** The property is false: a server that waits for connections when it is stopped does not return before somebody connects, *)
Theorem C86_waits_refuted : forall s es s', waits s -> arrivals (host_events es) = [] -> lrun s (Stop :: es) = Some s' -> lp_returned s' = false.
Proof. exact (fun s es s' Hw Ha => never_returns (Stop :: es) s s' Hw Ha). Qed.
Print Assumptions C86_waits_refuted.
(** and the host that connects then is served although the server has been stopped *)
Theorem C86_late_refuted : forall s c i, waits s -> mail c (sv_mail (lp_server s)) = None -> i <> IGarbage ->
  exists s', lrun s [Stop; Host (Arrive c); Host (Introduce c i); Host (Serve true); Host (Serve true)] = Some s' /\ handled s' = handled s ++ [c] /\ lp_returned s' = true.
Proof. exact late_host. Qed.
Print Assumptions C86_late_refuted.

Definition exst_before : list levent := map Host [Arrive 1; Introduce 1 (IWorker 3); Serve true; Serve true].
Definition exst_after : list levent := map Host [Arrive 2; Arrive 3; Introduce 3 IClient; Introduce 2 IClient; Serve true; Serve true].
Definition exst_view (s : loop) := (handled s, lp_returned s, sv_queue (lp_server s)).
(** host 2 is served after the stop, host 3 is not *)
Example C86_ex : option_map exst_view (lrun loop_init (exst_before ++ Stop :: exst_after)) = Some ([1; 2], true, [3]) /\
  option_map (fun s => lstep s (Host (Serve true))) (lrun loop_init (exst_before ++ Stop :: exst_after)) = Some None /\
  arrivals (host_events exst_after) = [2; 3].
Proof. split; [vm_compute; reflexivity|]. split; vm_compute; reflexivity. Qed.
Example C86_waits_ex : exists s, lrun loop_init exst_before = Some s /\ waits s /\ mail 2 (sv_mail (lp_server s)) = None.
Proof. eexists. split; [vm_compute; reflexivity|]. split; [repeat split|reflexivity]. Qed.
