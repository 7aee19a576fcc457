(** The hosts that connect to the manager: C80. *)
From Verif Require Import Base M_Server S_Server L_Server.

(** ** C80 *)
(** in every history: at most one thread is started for a host that has connected, with the first message of the host, in the
    order of the connections; and the accepting thread makes at most two steps per host *)
Theorem C80_in_order : forall es s, run server_init es = Some s -> NoDup (arrivals es) ->
  NoDup (map fst (sv_handled s)) /\
  (forall c d, before c d (map fst (sv_handled s)) -> before c d (arrivals es)) /\
  (forall c i, In (c, i) (sv_handled s) -> In c (arrivals es) /\ first_message c es = Some i) /\
  steps es <= 2 * zlen (arrivals es).
Proof. exact served_in_order. Qed.
Print Assumptions C80_in_order.
(** when the accepting thread waits or has ended, and all hosts have introduced themselves or have left, then all hosts that
    have not left are served. Missing in the property: the introductions of the other hosts *)
Theorem C80_served_partial : forall es s, run server_init es = Some s -> step s (Serve true) = None ->
  (forall c, In c (arrivals es) -> leaves c es \/ exists i, first_message c es = Some i /\ i <> IGarbage) ->
  (forall c, In c (arrivals es) -> first_message c es <> Some IGarbage) ->
  forall c, In c (arrivals es) -> ~ leaves c es -> served c s.
Proof. exact all_served. Qed.
Print Assumptions C80_served_partial.
(** The property is false: a host that connects, sends nothing and stays connected keeps all hosts that connect later from
    being served, *)
Theorem C80_silent_refuted : forall es s c d, run server_init es = Some s -> NoDup (arrivals es) -> before c d (arrivals es) ->
  first_message c es = None -> ~ leaves c es -> ~ served d s.
Proof. exact (fun es s c d H Hn Hb Hm Hl => waiting_for es s c d H Hn Hb Hl (or_introl Hm)). Qed.
Print Assumptions C80_silent_refuted.
(** and so does a host whose first message is not a HostInformation: the accepting thread ends *)
Theorem C80_garbage_refuted : forall es s c d, run server_init es = Some s -> NoDup (arrivals es) -> before c d (arrivals es) ->
  first_message c es = Some IGarbage -> ~ leaves c es -> ~ served d s.
Proof. exact (fun es s c d H Hn Hb Hm Hl => waiting_for es s c d H Hn Hb Hl (or_intror Hm)). Qed.
Print Assumptions C80_garbage_refuted.

(** a worker and two clients; one client leaves without a word *)
Definition exs_good : list event :=
  [Arrive 1; Serve true; Arrive 2; Introduce 2 IClient; Introduce 1 (IWorker 3); Serve true; Arrive 3; Serve true; Serve true; Leave 3; Serve true; Serve true].
Example C80_run : option_map (fun s => (sv_thread s, sv_handled s, step s (Serve true))) (run server_init exs_good) = Some (Free, [(1, IWorker 3); (2, IClient)], None) /\
  arrivals exs_good = [1; 2; 3] /\ before 1 2 (arrivals exs_good).
Proof. split; [vm_compute; reflexivity|]. split; [reflexivity|]. exists [], [], [3]. reflexivity. Qed.
(** host 1 says nothing: host 2 is not served; host 1 says something else: the thread ends *)
Definition exs_silent : list event := [Arrive 1; Arrive 2; Introduce 2 IClient; Serve true].
Definition exs_garbage : list event := [Arrive 1; Introduce 1 IGarbage; Arrive 2; Introduce 2 IClient; Serve true; Serve true].
Example C80_silent_run : option_map (fun s => (sv_thread s, sv_handled s, step s (Serve true))) (run server_init exs_silent) = Some (Greeting 1, [], None) /\
  NoDup (arrivals exs_silent) /\ before 1 2 (arrivals exs_silent) /\ first_message 1 exs_silent = None /\ ~ leaves 1 exs_silent.
Proof.
  split; [vm_compute; reflexivity|]. split; [cbn; apply NoDup_cons; [intros [H|[]]; discriminate|apply NoDup_cons; [intros []|apply NoDup_nil]]|].
  split; [exists [], [], []; reflexivity|]. split; [reflexivity|]. intros [H|[H|[H|[H|[]]]]]; discriminate.
Qed.
Example C80_garbage_run : option_map (fun s => (sv_thread s, sv_handled s, step s (Serve true))) (run server_init exs_garbage) = Some (Ended, [], None) /\
  before 1 2 (arrivals exs_garbage) /\ first_message 1 exs_garbage = Some IGarbage.
Proof. split; [vm_compute; reflexivity|]. split; [exists [], [], []; reflexivity|reflexivity]. Qed.
