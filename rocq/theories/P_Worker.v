(** Distributed jobs: C46, C47, C48. *)
From Verif Require Import Base M_Bits M_Kron S_Kron M_Feed S_Feed M_Measure M_Pool S_Pool M_Net S_Net M_Worker S_Worker L_Worker2 L_Worker5 L_Worker6 L_Worker7 L_Worker8 P_Pool.

(** ** A job used in the examples: two qubits, four workers with two amplitudes each, chunks of one amplitude, window 2 *)
Definition exw_workers : list worker := map (fun i => mkWorker i 1) (zrange 0 4).
Definition exw_pool : list entry := match make_pool 2 exw_workers with Ok (p, _, _) => p | _ => [] end.
Definition exw_ws : list wid := map fst exw_pool.
Definition exw_cfg (w : wid) : worker_cfg := mkCfg 7 w (filter (partner w) exw_ws) 1 2.
Definition exw_envs (w : wid) : list (env Z) := repeat (mkEnv 0 0 (zrange 0 2)) 6.
Definition exw_X : mat Z := MNum 2 2 [(0, 0); (1, 0); (1, 0); (0, 0)].
Definition exw_Y : mat Z := MNum 2 2 [(0, 0); (0, -1); (0, 1); (0, 0)].
Definition exw_fs : list (list Z * list (Cx Z)) := [([0], [(1, 0); (3, 0)]); ([1], [(1, 0); (2, 0)])].
Definition exw_junk (i : Z) : Cx Z := (9, i).
Definition exw_make (fs : list (list Z * list (Cx Z))) (w : wid) : res (backend Z) :=
  make_state exw_junk 2 (fed_groups fs) (fed_list fs) (Some (fst (fst w))) (Some (snd (fst w))) (Some (fst (snd w))) (Some (snd (snd w))).
Definition exw_bs (w : wid) : backend Z := match exw_make exw_fs w with Ok b => b | _ => mkBackend 0 [] [] end.
Definition exw_lops : list (mats_arg Z * list Z) :=
  [([(KInt 0, exw_X)], [3; 1; 0; 2]); ([(KInt 1, exw_Y)], [0; 1; 2; 3]); ([(KInt 0, exw_Y); (KInt 1, exw_X)], [0; 1; 2; 3])].
Definition exw_jops : list (wop Z * Z) := map (fun o => (OKron (fst o), 0)) exw_lops.
Definition exw_net : net pid (msg Z) (ending Z) := job_net (fun r => r) 2 exw_ws exw_jops exw_cfg exw_envs exw_bs.
Definition exw_start : backend Z := match make_state exw_junk 2 (fed_groups exw_fs) (fed_list exw_fs) None None None None with Ok b => b | _ => mkBackend 0 [] [] end.
Definition exw_final : backend Z := match local_run exw_start exw_lops with Ok b => b | _ => mkBackend 0 [] [] end.
(** whoever can move first in the order manager, workers, moves *)
Fixpoint exw_first (cap : pid -> pid -> option nat) (s : net pid (msg Z) (ending Z)) (ps : list pid) : option (pid * net pid (msg Z) (ending Z)) :=
  match ps with [] => None | p :: ps => match exec pid_eqb cap s p with Some s' => Some (p, s') | None => exw_first cap s ps end end.
Fixpoint exw_drive (cap : pid -> pid -> option nat) (fuel : nat) (s : net pid (msg Z) (ending Z)) (ps : list pid) : list pid :=
  match fuel with O => [] | S fuel => match exw_first cap s ps with Some (p, s') => p :: exw_drive cap fuel s' ps | None => [] end end.

(** ** C46 *)
(** The workers of a pool hold their parts of the state of a local backend and are connected. Kronprod operations the
    local backend carries out (with success) are then carried out by the workers, under every schedule of the processes
    and of the parallel loops: every execution comes to an end, the client has its answers, and every worker holds its
    part of the state of the local backend. C42 says that pools have [tiles] and [blocks]. Connections between workers
    hold one message per amplitude and operation (or any number). *)
Theorem C46_kronprod_partial : forall {K} {OK : OrdRing K} cap (rsqrt : K -> K) cfg job room n bq pool lops jops envs bs local final,
  0 <= bq <= n -> tiles (2 ^ n) pool -> blocks (2 ^ bq) pool ->
  configured job (map fst pool) cfg -> connected (map fst pool) cfg -> capacities cap (map fst pool) room ->
  (length lops * Z.to_nat (2 ^ bq) + 1 <= room)%nat ->
  map fst jops = map (fun o => OKron (fst o)) lops ->
  bk_n local = n -> zlen (bk_state local) = 2 ^ n -> zlen (bk_arena local) = 2 ^ n ->
  (forall w : wid, In w (map fst pool) -> holds n (bk_state local) w (bs w)) ->
  (forall o, In o lops -> mats_wf n (fst o) /\ Permutation (snd o) (zrange 0 (2 ^ n))) ->
  local_run local lops = Ok final ->
  (forall w : wid, In w (map fst pool) -> scheduled (2 ^ bq) (2 * length lops) (envs w)) ->
  always_ends pid_eqb cap (job_net rsqrt n (map fst pool) jops cfg envs bs) (fun s' =>
    procs s' Mgr = Ret (EManager (map (fun _ => None) lops) (map fst pool)) /\
    forall w : wid, In w (map fst pool) -> exists b, procs s' (Wk w) = Ret (EWorker b) /\ holds n (bk_state final) w b).
Proof. exact (fun K OK cap rsqrt cfg job room n bq pool lops jops envs bs local final Hb Ht Hbl Hc Hr Hcap => job_ends cap rsqrt cfg job room n bq pool Hb Ht Hbl Hc Hr Hcap lops jops envs bs local final). Qed.
Print Assumptions C46_kronprod_partial.

(** The same from the beginning of the job: the manager draws the pool, the local backend and the workers make their
    states from the client's feeds. *)
Theorem C46_whole_job_partial : forall {K} {OK : OrdRing K} cap (rsqrt : K -> K) cfg job n workers pool msgs rest
    (fs : list (list Z * list (Cx K))) junk0 junk (start final : backend K) (bs : wid -> backend K) lops jops envs,
  make_pool n workers = Ok (pool, msgs, rest) ->
  configured job (map fst pool) cfg -> connected (map fst pool) cfg -> (forall a b, cap a b = None) ->
  fs <> [] -> feeds_ok n fs ->
  make_state junk0 n (fed_groups fs) (fed_list fs) None None None None = Ok start ->
  (forall w : wid, In w (map fst pool) ->
     make_state (junk w) n (fed_groups fs) (fed_list fs) (Some (fst (fst w))) (Some (snd (fst w))) (Some (fst (snd w))) (Some (snd (snd w))) = Ok (bs w)) ->
  map fst jops = map (fun o => OKron (fst o)) lops ->
  (forall o, In o lops -> mats_wf n (fst o) /\ Permutation (snd o) (zrange 0 (2 ^ n))) ->
  local_run start lops = Ok final ->
  (forall w : wid, In w (map fst pool) -> scheduled (snd (fst w) - fst (fst w)) (2 * length lops) (envs w)) ->
  always_ends pid_eqb cap (job_net rsqrt n (map fst pool) jops cfg envs bs) (fun s' =>
    procs s' Mgr = Ret (EManager (map (fun _ => None) lops) (map fst pool)) /\
    forall w : wid, In w (map fst pool) -> exists b, procs s' (Wk w) = Ret (EWorker b) /\ holds n (bk_state final) w b).
Proof. exact (@whole_job). Qed.
Print Assumptions C46_whole_job_partial.

Example C46_hypotheses :
  (exists msgs rest, make_pool 2 exw_workers = Ok (exw_pool, msgs, rest)) /\
  configured 7 exw_ws exw_cfg /\ connected exw_ws exw_cfg /\ feeds_ok 2 exw_fs /\
  make_state exw_junk 2 (fed_groups exw_fs) (fed_list exw_fs) None None None None = Ok exw_start /\
  (forall w, In w exw_ws -> exw_make exw_fs w = Ok (exw_bs w)) /\
  map fst exw_jops = map (fun o => OKron (fst o)) exw_lops /\
  (forall o, In o exw_lops -> mats_wf 2 (fst o) /\ Permutation (snd o) (zrange 0 (2 ^ 2))) /\
  local_run exw_start exw_lops = Ok exw_final /\
  (forall w, In w exw_ws -> scheduled (snd (fst w) - fst (fst w)) (2 * length exw_lops) (exw_envs w)).
Proof.
  split; [do 2 eexists; vm_compute; reflexivity|]. split; [intros w _; repeat split; cbn; lia|]. split; [intros w _; apply Permutation_refl|].
  split; [|split; [vm_compute; reflexivity|split; [|split; [vm_compute; reflexivity|split; [|split; [vm_compute; reflexivity|]]]]]].
  - split; [split|].
    + cbn. repeat (apply NoDup_cons; [cbn; lia|]). apply NoDup_nil.
    + intros q. cbn. lia.
    + intros g a [E|[E|[]]]; inversion E; reflexivity.
  - intros w Hw. vm_compute in Hw. destruct Hw as [<-|[<-|[<-|[<-|[]]]]]; vm_compute; reflexivity.
  - intros o [<-|[<-|[<-|[]]]]; (split; [|try (cbn; apply Permutation_refl)]).
    1, 3: split; [split; [intros k m [E|[]]; inversion E; discriminate|cbn; apply NoDup_cons; [intros []|apply NoDup_nil]]|]; intros k m [E|[]]; inversion E; subst; (split; [intros q [<-|[]]; lia|repeat split; vm_compute; congruence]).
    + apply perm_range_ok. reflexivity.
    + split; [split|]; [intros k m [E|[E|[]]]; inversion E; discriminate|cbn; apply NoDup_cons; [intros [E|[]]; discriminate|apply NoDup_cons; [intros []|apply NoDup_nil]]|].
      intros k m [E|[E|[]]]; inversion E; subst; (split; [intros q [<-|[]]; lia|repeat split; vm_compute; congruence]).
  - intros w Hw. vm_compute in Hw. destruct Hw as [<-|[<-|[<-|[<-|[]]]]]; (split; [cbn; lia|]); intros e He; apply repeat_spec in He; subst; apply Permutation_refl.
Qed.
Example C46_run :
  bk_state exw_final = [(1, 0); (-2, 0); (-3, 0); (6, 0)] /\
  option_map (fun s' => map (fun w => match procs s' (Wk w) with Ret (EWorker b) => bk_state b | _ => [] end) exw_ws)
    (runs pid_eqb (fun _ _ => None) exw_net (exw_drive (fun _ _ => None) 500 exw_net (Mgr :: map Wk exw_ws)))
  = Some [[(1, 0); (-2, 0)]; [(1, 0); (-2, 0)]; [(-3, 0); (6, 0)]; [(-3, 0); (6, 0)]].
Proof. split; vm_compute; reflexivity. Qed.

(** The claim is false when the client feeds nothing: the local backend is in state |0>, but every worker sets the first
    amplitude of its own part to 1. Even with no operation the workers end with something else. *)
Theorem C46_nothing_fed_refuted : forall {K} {OK : OrdRing K} cap (rsqrt : K -> K) cfg job n workers pool msgs rest
    junk0 junk (start : backend K) (bs : wid -> backend K) envs,
  make_pool n workers = Ok (pool, msgs, rest) -> (2 <= length pool)%nat ->
  configured job (map fst pool) cfg -> connected (map fst pool) cfg -> (forall a b, cap a b = None) ->
  make_state junk0 n [] [] None None None None = Ok start ->
  (forall w : wid, In w (map fst pool) ->
     make_state (junk w) n [] [] (Some (fst (fst w))) (Some (snd (fst w))) (Some (fst (snd w))) (Some (snd (snd w))) = Ok (bs w)) ->
  always_ends pid_eqb cap (job_net rsqrt n (map fst pool) [] cfg envs bs) (fun s' =>
    exists (w : wid) b, In w (map fst pool) /\ procs s' (Wk w) = Ret (EWorker b) /\ bk_state b <> slice (fst w) (bk_state start)).
Proof. exact (@unfed_job). Qed.
Print Assumptions C46_nothing_fed_refuted.
Example C46_nothing_fed_hypotheses : (2 <= length exw_pool)%nat /\
  (exists b, make_state exw_junk 2 [] [] None None None None = Ok b /\ bk_state b = [(1, 0); (0, 0); (0, 0); (0, 0)]) /\
  forall w, In w exw_ws -> exists b, exw_make [] w = Ok b /\ bk_state b = [(1, 0); (0, 0)].
Proof.
  split; [vm_compute; lia|]. split; [eexists; split; vm_compute; reflexivity|].
  intros w Hw. vm_compute in Hw. destruct Hw as [<-|[<-|[<-|[<-|[]]]]]; eexists; split; vm_compute; reflexivity.
Qed.

(** ** C47 *)
(** One sync of all workers of a pool, registered with each other in any order: every execution comes to an end, and
    always with the same states. Worker w then holds the sum of what the workers with output range fst w held (or what
    the diagonal worker held). Connections between workers hold one message per amplitude of a worker (or any number). *)
Theorem C47_sync_partial : forall {K} {OK : OrdRing K} cap (rsqrt : K -> K) cfg job room n bq pool up_to overwrite envs (b : wid -> backend K),
  0 <= bq <= n -> tiles (2 ^ n) pool -> blocks (2 ^ bq) pool ->
  configured job (map fst pool) cfg -> connected (map fst pool) cfg -> capacities cap (map fst pool) room ->
  (Z.to_nat (2 ^ bq) + 1 <= room)%nat -> up_to = None \/ up_to = Some 0 ->
  (forall w : wid, In w (map fst pool) -> zlen (bk_state (b w)) = 2 ^ bq) -> (forall w : wid, In w (map fst pool) -> envs w <> []) ->
  always_ends pid_eqb cap (sync_net rsqrt (map fst pool) up_to overwrite cfg envs b) (fun s' =>
    procs s' Mgr = Ret (EManager [] (map fst pool)) /\
    forall w : wid, In w (map fst pool) -> exists vec, procs s' (Wk w) = Ret (EWorker (set_state (b w) vec)) /\ zlen vec = 2 ^ bq /\
      forall i, znth 0%r vec i = sync_amp overwrite (map fst pool) (fun w => bk_state (b w)) (fst w) i).
Proof.
  exact (fun K OK cap rsqrt cfg job room n bq pool up_to ow envs b Hb Ht Hbl Hc Hr Hcap Hroom Hup =>
    sync_ends cap rsqrt cfg job room n bq pool Hb Ht Hbl Hc Hr Hcap up_to ow envs b Hroom
      (match Hup with or_introl E => eq_trans (f_equal threshold_of E) eq_refl | or_intror E => eq_trans (f_equal threshold_of E) eq_refl end)).
Qed.
Print Assumptions C47_sync_partial.
Definition exw_sync : net pid (msg Z) (ending Z) := sync_net (fun r => r) exw_ws (Some 0) false exw_cfg exw_envs exw_bs.
(** block 0 holds (1, 2) twice as input; the workers with output block 0 hold (1, 2) and (3, 6) *)
Example C47_run :
  map (fun w => bk_state (exw_bs w)) exw_ws = [[(1, 0); (2, 0)]; [(1, 0); (2, 0)]; [(3, 0); (6, 0)]; [(3, 0); (6, 0)]] /\
  option_map (fun s' => map (fun w => match procs s' (Wk w) with Ret (EWorker b) => bk_state b | _ => [] end) exw_ws)
    (runs pid_eqb (fun _ _ => Some 3%nat) exw_sync (exw_drive (fun _ _ => Some 3%nat) 500 exw_sync (Mgr :: map Wk exw_ws)))
  = Some [[(4, 0); (8, 0)]; [(4, 0); (8, 0)]; [(4, 0); (8, 0)]; [(4, 0); (8, 0)]].
Proof. split; vm_compute; reflexivity. Qed.

(** Acknowledgements pile up (C44). With connections that hold one message the job of C46_run comes to a stop where nobody
    can move and the manager has not ended, *)
Example C47_bounded_run :
  option_map (fun t => (forallb (fun p => match exec pid_eqb (fun _ _ => Some 1%nat) t p with None => true | _ => false end) (Mgr :: map Wk exw_ws),
                        match procs t Mgr with Ret _ => true | _ => false end))
    (runs pid_eqb (fun _ _ => Some 1%nat) (job_net (fun r => r) 2 exw_ws exw_jops exw_cfg exw_envs exw_bs)
      (exw_drive (fun _ _ => Some 1%nat) 500 exw_net (Mgr :: map Wk exw_ws))) = Some (true, false).
Proof. vm_compute. reflexivity. Qed.
(** ... and in no other execution does the manager end. *)
Theorem C47_bounded_connections_refuted : forall sched s',
  runs pid_eqb (fun _ _ => Some 1%nat) (job_net (fun r => r) 2 exw_ws exw_jops exw_cfg exw_envs exw_bs) sched = Some s' ->
  forall e, procs s' Mgr <> Ret e.
Proof. exact (stuck_check (fun _ _ => Some 1%nat) (fun r => r) 2 exw_ws exw_jops exw_cfg exw_envs exw_bs _ C47_bounded_run). Qed.
Print Assumptions C47_bounded_connections_refuted.

(** ** C48 *)
(** When the connections are registered before the sync begins, in whatever order they were accepted, every amplitude
    after it is the sum of the contributions of all workers with that output range. *)
Theorem C48_registered_partial : forall {K} {OK : OrdRing K} (rsqrt : K -> K) cfg job n workers pool msgs rest envs (b : wid -> backend K),
  make_pool n workers = Ok (pool, msgs, rest) -> configured job (map fst pool) cfg -> connected (map fst pool) cfg ->
  (forall w : wid, In w (map fst pool) -> zlen (bk_state (b w)) = snd (fst w) - fst (fst w)) -> (forall w : wid, In w (map fst pool) -> envs w <> []) ->
  always_ends pid_eqb (fun _ _ => None) (sync_net rsqrt (map fst pool) (Some 0) false cfg envs b) (fun s' =>
    forall w : wid, In w (map fst pool) -> exists vec, procs s' (Wk w) = Ret (EWorker (set_state (b w) vec)) /\
      forall i, znth 0%r vec i = sum (filter (fun v => range_eqb (snd v) (fst w)) (map fst pool)) (fun v => znth 0%r (bk_state (b v)) i)).
Proof. exact (@registered_sync). Qed.
Print Assumptions C48_registered_partial.
(** Nothing makes the operations wait for the connections. If the first operation is a kronprod and, when they come to
    sync, the diagonal worker of the output range of w has not yet registered the connection of w, then in no execution
    does the client get an answer: w waits for an acknowledgement that is never sent, and the manager waits for w. *)
Theorem C48_unregistered_refuted : forall {K} {OK : OrdRing K} cap (rsqrt : K -> K) cfg job n bq pool mats r jops envs (bs : wid -> backend K) full (w : wid),
  0 <= bq <= n -> tiles (2 ^ n) pool -> blocks (2 ^ bq) pool -> configured job (map fst pool) cfg -> capacities cap (map fst pool) 1 ->
  In w (map fst pool) -> fst w <> snd w ->
  In (snd w, snd w) (c_reg (cfg w)) -> ~ In w (c_reg (cfg (snd w, snd w))) ->
  zlen full = 2 ^ n -> (forall w : wid, In w (map fst pool) -> holds n full w (bs w)) ->
  mats_wf n mats -> (forall km, In km mats -> shape_ok km) -> rectangular (map fst (mats_groups mats)) = true ->
  (forall w : wid, In w (map fst pool) -> scheduled (2 ^ bq) 2 (envs w)) ->
  forall sched s', runs pid_eqb cap (job_net rsqrt n (map fst pool) ((OKron mats, r) :: jops) cfg envs bs) sched = Some s' ->
  forall e, procs s' Mgr <> Ret e.
Proof. exact (fun K OK cap rsqrt cfg job n bq pool mats r jops envs bs full w Hb Ht Hbl Hc Hcap => unregistered_blocks cap rsqrt cfg job n bq pool Hb Ht Hbl Hc Hcap mats r jops envs bs full w). Qed.
Print Assumptions C48_unregistered_refuted.
(** four workers as above, but worker ((2,4),(0,2)) is not registered with worker ((0,2),(0,2)) *)
Definition exw_late : wid := ((2, 4), (0, 2)).
Definition exw_cfg' (w : wid) : worker_cfg := mkCfg 7 w (filter (fun v => partner w v && negb (wid_eqb v exw_late)) exw_ws) 1 2.
Example C48_unregistered_hypotheses :
  tiles (2 ^ 2) exw_pool /\ blocks (2 ^ 1) exw_pool /\ configured 7 exw_ws exw_cfg' /\ capacities (fun _ _ => None) exw_ws 1 /\
  In exw_late exw_ws /\ fst exw_late <> snd exw_late /\ In (snd exw_late, snd exw_late) (c_reg (exw_cfg' exw_late)) /\
  ~ In exw_late (c_reg (exw_cfg' (snd exw_late, snd exw_late))) /\
  (forall w, In w exw_ws -> holds 2 (bk_state exw_start) w (exw_bs w)) /\
  (forall km, In km [(KInt 0, exw_X)] -> shape_ok km) /\ rectangular (map fst (mats_groups [(KInt 0, exw_X)])) = true /\
  forall w, In w exw_ws -> scheduled (2 ^ 1) 2 (exw_envs w).
Proof.
  destruct C46_hypotheses as ((msgs & rest & Ep) & _). destruct (C42_tiles _ _ _ _ _ Ep) as (_ & Ht & _).
  split; [exact Ht|]. split; [intros e He; vm_compute in He; destruct He as [<-|[<-|[<-|[<-|[]]]]]; [exists 0, 0|exists 0, 1|exists 1, 0|exists 1, 1]; split; reflexivity|].
  split; [intros w _; repeat split; cbn; lia|]. split; [repeat split|]. split; [vm_compute; auto|]. split; [discriminate|]. split; [vm_compute; auto|].
  split; [vm_compute; intros [E|[]]; discriminate|]. split; [intros w Hw; vm_compute in Hw; destruct Hw as [<-|[<-|[<-|[<-|[]]]]]; vm_compute; auto|].
  split; [intros km [<-|[]]; reflexivity|]. split; [reflexivity|]. intros w _. split; [cbn; lia|]. intros e He. apply repeat_spec in He. subst. apply Permutation_refl.
Qed.
(** the same job: all processes have stopped, the workers with output block 0 are left without an answer *)
Example C48_unregistered_run :
  option_map (fun s' => map (fun p => match procs s' p with Ret _ => true | _ => false end) (Mgr :: map Wk exw_ws))
    (runs pid_eqb (fun _ _ => None) (job_net (fun r => r) 2 exw_ws exw_jops exw_cfg' exw_envs exw_bs)
      (exw_drive (fun _ _ => None) 500 (job_net (fun r => r) 2 exw_ws exw_jops exw_cfg' exw_envs exw_bs) (Mgr :: map Wk exw_ws)))
  = Some [false; false; false; false; false].
Proof. vm_compute. reflexivity. Qed.
