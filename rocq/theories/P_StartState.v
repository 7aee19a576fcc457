(** Initial states of a distributed job: C106. *)
From Verif Require Import Base M_Bits M_Kron S_Kron M_Feed S_Feed M_Proto S_Proto M_Measure M_Pool S_Pool M_Net S_Net M_Worker S_Worker M_Client S_Client P_Pool P_Worker P_Reject.
From Verif Require Import S_StartState.
From Verif Require Import M_StartState L_StartState.

(** ** C106 *)
(** The property is false: when the local backend raises an exception for the initial states, make_state of the
    distributed backend returns a handle all the same. The exception ends the worker that has to compute the amplitude, and
    nobody tells the manager. Whatever the order of events, the first call of the client that needs the workers is
    neither answered nor refused: the client waits for ever. *)
Theorem C106_refuted (K : Type) (OK : OrdRing K) n bq pool cap (rsqrt : K -> K) cfg job groups (feeds : list (feed_t K)) handle junk x c r calls junks envs :
  0 <= bq <= n -> tiles (2 ^ n) pool -> blocks (2 ^ bq) pool -> configured job (map fst pool) cfg ->
  zlen groups = zlen feeds -> (forall g i, In g groups -> In i g -> is_int32 i) -> (forall f, In f feeds -> wire_feed f) ->
  make_state junk n groups feeds None None None None = Raise x -> served c ->
  exists states, dist_make_state handle groups feeds = Ok (handle, states) /\
  forall sched s', runs pid_eqb cap (start_net rsqrt n (map fst pool) states ((c, r) :: calls) cfg junks envs) sched = Some s' ->
  (forall y, procs s' Mgr <> Ret y) /\ (forall y, procs s' Mgr <> Fail y).
Proof. exact (fun Hbq Ht Hb => start_refused n bq pool Hbq Ht Hb cap rsqrt cfg job groups feeds handle junk x c r calls junks envs). Qed.
Print Assumptions C106_refuted.
(** What is true: the states the client has sent are refused by some worker exactly when the local backend refuses them.
    Missing: the client is told. *)
Theorem C106_partial (K : Type) (OK : OrdRing K) n bq pool groups (feeds : list (feed_t K)) handle states junk junks :
  0 <= bq <= n -> tiles (2 ^ n) pool -> blocks (2 ^ bq) pool ->
  zlen groups = zlen feeds -> dist_make_state handle groups feeds = Ok (handle, states) ->
  (exists b, make_state junk n groups feeds None None None None = Ok b) <->
  (forall w : wid, In w (map fst pool) -> exists b, worker_state (junks w) n w states = Ok b).
Proof. exact (fun Hbq Ht Hb => accepted_iff n bq pool Hbq Ht Hb groups feeds handle states junk junks). Qed.
Print Assumptions C106_partial.
(** four workers and two qubits; the array given for qubit 0 has one amplitude instead of two *)
Definition exss_groups : list (list Z) := [[0]; [1]].
Definition exss_feeds : list (feed_t Z) := [FArr [(1, 0)]; FArr [(1, 0); (0, 0)]].
Definition exss_states : list (pbstate Z) := match dist_make_state 7 exss_groups exss_feeds with Ok (_, s) => s | _ => [] end.
Definition exss_net (c : call Z) : net pid (msg Z) (ending Z) :=
  start_net (fun r => r) 2 exw_ws exss_states [(c, 0)] exw_cfg (fun _ => exw_junk) exw_envs.
Example C106_hypotheses :
  tiles (2 ^ 2) exw_pool /\ blocks (2 ^ 1) exw_pool /\ configured 7 exw_ws exw_cfg /\
  zlen exss_groups = zlen exss_feeds /\ (forall g i, In g exss_groups -> In i g -> is_int32 i) /\ (forall f, In f exss_feeds -> wire_feed f) /\
  make_state exw_junk 2 exss_groups exss_feeds None None None None = Raise IndexError /\ served (CReduceMeasure (K := Z) [0] None None).
Proof.
  destruct C78_hypotheses as (Ht & Hb & Hc & _). split; [exact Ht|]. split; [exact Hb|]. split; [exact Hc|]. split; [reflexivity|].
  split; [intros g i [<-|[<-|[]]] [<-|[]]; split; vm_compute; congruence|]. split; [intros f [<-|[<-|[]]]; exact I|]. split; [reflexivity|exact I].
Qed.
(** two workers have made their state, the other two have ended; the manager waits *)
Example C106_run :
  map (fun c => option_map (fun s' => map (fun p => match procs s' p with Ret _ => 0 | Fail _ => 1 | Send _ _ _ => 2 | Recv _ _ => 3 end) (Mgr :: map Wk exw_ws))
    (runs pid_eqb (fun _ _ => None) (exss_net c) (exw_drive (fun _ _ => None) 500 (exss_net c) (Mgr :: map Wk exw_ws))))
    [CKronselectDot [(KInt 1, MNum 2 2 [(0, 0); (1, 0); (1, 0); (0, 0)])]; CMeasure [0] None None; CReduceMeasure [0] None None]
  = repeat (Some [3; 3; 3; 1; 1]) 3.
Proof. vm_compute. reflexivity. Qed.
Example C106_ex : forall w, In w exw_ws -> exists b, worker_state exw_junk 2 w (match dist_make_state 7 (fed_groups exw_fs) (fed_list exw_fs) with Ok (_, s) => s | _ => [] end) = Ok b.
Proof. intros w Hw. vm_compute in Hw. destruct Hw as [<-|[<-|[<-|[<-|[]]]]]; vm_compute; eauto. Qed.

(** And the damage stays: if the client closes the connection without a call, its job ends well and all its workers are
    given back. On the next job that gets them (C79_refuted: a job of the same size does) the first call waits for ever,
    whatever its initial states are. *)
Theorem C106_next_refuted (K : Type) (OK : OrdRing K) n bq pool cap room (rsqrt : K -> K) cfg job groups (feeds : list (feed_t K)) handle states junk x junks envs :
  0 <= bq <= n -> tiles (2 ^ n) pool -> blocks (2 ^ bq) pool ->
  configured job (map fst pool) cfg -> capacities cap (map fst pool) room -> zlen groups = zlen feeds -> dist_make_state handle groups feeds = Ok (handle, states) ->
  make_state junk n groups feeds None None None None = Raise x ->
  (exists sched s', runs pid_eqb cap (start_net rsqrt n (map fst pool) states [] cfg junks envs) sched = Some s' /\ procs s' Mgr = Ret (EManager [] (map fst pool))) /\
  forall sched s', runs pid_eqb cap (start_net rsqrt n (map fst pool) states [] cfg junks envs) sched = Some s' ->
    forall job' cfg' states' c r calls junks' envs', configured job' (map fst pool) cfg' -> served c ->
    forall sched' s'', runs pid_eqb cap (next_net rsqrt n (map fst pool) states' ((c, r) :: calls) cfg' junks' envs' s') sched' = Some s'' ->
    (forall y, procs s'' Mgr <> Ret y) /\ (forall y, procs s'' Mgr <> Fail y).
Proof. exact (fun Hbq Ht Hb => start_next n bq pool Hbq Ht Hb cap room rsqrt cfg job groups feeds handle states junk x junks envs). Qed.
Print Assumptions C106_next_refuted.
(** the job of [exss_states] without a call, then one with the states of C46 *)
Definition exss_first : net pid (msg Z) (ending Z) := start_net (fun r => r) 2 exw_ws exss_states [] exw_cfg (fun _ => exw_junk) exw_envs.
Definition exss_next (s : net pid (msg Z) (ending Z)) : net pid (msg Z) (ending Z) :=
  next_net (fun r => r) 2 exw_ws (match dist_make_state 8 (fed_groups exw_fs) (fed_list exw_fs) with Ok (_, s) => s | _ => [] end) [(CMeasure [0] None None, 0)] exw_cfg (fun _ => exw_junk) exw_envs s.
Example C106_next_run :
  let drive net := runs pid_eqb (fun _ _ => None) net (exw_drive (fun _ _ => None) 500 net (Mgr :: map Wk exw_ws)) in
  let shape s := map (fun p => match procs s p with Ret _ => 0 | Fail _ => 1 | Send _ _ _ => 2 | Recv _ _ => 3 end) (Mgr :: map Wk exw_ws) in
  match drive exss_first with
  | Some s => (shape s, option_map shape (drive (exss_next s)))
  | None => ([], None)
  end = ([0; 0; 0; 1; 1], Some [3; 3; 3; 1; 1]).
Proof. vm_compute. reflexivity. Qed.
