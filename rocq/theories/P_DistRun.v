(** Property C97: circuits on the distributed backend. *)
From Coq Require Import Sorted.
From Verif Require Import Base M_Bits S_Bits M_Kron S_Kron M_Ops S_Ops M_Feed S_Feed M_Func S_Func M_Measure S_Measure M_Pool S_Pool M_Net S_Net M_Worker S_Worker
  M_Proto S_Proto M_Client M_Graph S_Graph L_Graph1 L_Graph2 L_Graph5 L_Graph7 L_Graph8 L_Graph9 L_Graph10 L_Graph11 L_Graph12 S_Born S_Order L_Order7 M_DistRun S_DistRun L_DistRun3 L_DistRun4 L_DistRun5 P_Worker P_Measured P_Order.

(** ** Data for the example
    q = Qubit(); p = Qubit(); c = C(Not)(q, p); m = Measure(c); run(m, state=[0, 0, 1, 0], backend_constructor=...) with a manager
    that has four workers of one qubit *)
Definition exd_calls : list (M_Graph.call Z) := [NewQubit None None; NewQubit None None; Gate (GC GNot true) [0; 1]%nat false; Meas [3]%nat].
Definition exd : heap Z * list nat := Eval vm_compute in exo_prog exd_calls.
Definition exd_state : list (Cx Z) := [(0, 0); (0, 0); (1, 0); (0, 0)].
Definition exd_envs (w : wid) : list (M_Worker.env Z) := repeat (M_Worker.mkEnv 1 0 [1; 0]) 8.
Definition exd_answers : list (mresult Z) := [None; Some (inl (3, 1))].
Definition exd_out : dist_out Z := dist_run 7 (exo_ev 2) cache0 (fst exd) [4]%nat [] false (SList exd_state) exd_answers.
Definition exd_groups : list (list Z) * list (feed_t Z) :=
  match o_setup exd_out with Some (_, s) => match decode_states s with Ok x => x | Raise _ => ([], []) end | None => ([], []) end.
Definition exd_ops : list (wop Z) := match mmap decode_op (o_sent exd_out) with Ok l => l | Raise _ => [] end.
Definition exd_bs (w : wid) : backend Z :=
  match make_state exw_junk 2 (fst exd_groups) (snd exd_groups) (Some (fst (fst w))) (Some (snd (fst w))) (Some (fst (snd w))) (Some (snd (snd w))) with
  | Ok b => b | Raise _ => mkBackend 0 [] [] end.
Definition exd_net : net pid (msg Z) (ending Z) := job_net (fun _ => 1) 2 exw_ws (combine exd_ops [1; 1]) exw_cfg exd_envs exd_bs.

(** A circuit of qubits, splits, swaps, controlled operations and measurements (with the initial amplitudes of some qubits given or
    a state given, normalised) is run on a manager which has enough workers. What the run sends does not depend on the answers, and
    every list of answers of the right length makes it return. The workers decode it to a start state and operations; whatever the
    draws of the manager and the workers, in every execution of this job (all schedules of the workers and of the messages) the
    manager comes to the same answers, and with these the run returns the outcomes and probabilities of a local run of the circuit with some draws from (0, 1]
    in place of those of [ev]; the operations' caches are those of the local run, and in the end the workers hold the state of
    the local run. Missing: the run returns the handle of the job, which has ended, in place of the state; uncontrolled gates, F and
    StochasticMeasure (see below); circuits without initial amplitudes (C46_nothing_fed_refuted); accumulators start at 0 (C20); the
    amplitudes are exact. *)
Theorem C97_run_partial : forall {K} {OK : OrdRing K} (h : heap K) vis c l args srcs ev feed strict state init job workers pool msgs rest cfg,
  prepared h vis c l args srcs -> let n := widths h srcs in
  circuit_ok h args srcs n -> sendable h args -> gates_exact h args -> n < 2 ^ 31 ->
  starts h srcs n ev feed state init -> draws_ok ev -> init <> [] -> (forall g v, In (g, v) init -> total v = 1%r) ->
  (strict = true -> incl srcs (fed_nodes feed)) ->
  make_pool n workers = Ok (pool, msgs, rest) -> configured job (map fst pool) cfg -> connected (map fst pool) cfg ->
  exists setup groups feeds sent ops, decode_states setup = Ok (groups, feeds) /\ mmap decode_op sent = Ok ops /\
    (forall answers, length answers = length sent -> exists d cm, dist_run job ev c h args feed strict state answers = mkOut (Some (n, setup)) sent d (Ok (job, cm))) /\
    forall junk (bs : wid -> backend K) rs envs,
      (forall w : wid, In w (map fst pool) ->
         make_state (junk w) n groups feeds (Some (fst (fst w))) (Some (snd (fst w))) (Some (fst (snd w))) (Some (snd (snd w))) = Ok (bs w)) ->
      length rs = length sent -> (forall r, In r rs -> fair r) ->
      (forall w : wid, In w (map fst pool) -> worker_luck (snd (fst w) - fst (fst w)) (length sent) (envs w)) ->
      exists answers st_ cm d u,
        always_ends pid_eqb (fun _ _ => None) (job_net (M_Graph.e_rsqrt ev) n (map fst pool) (combine ops rs) cfg envs bs) (fun s' =>
          procs s' Mgr = Ret (EManager answers (map fst pool)) /\
          forall w : wid, In w (map fst pool) -> exists b, procs s' (Wk w) = Ret (EWorker b) /\ holds n st_ w b) /\
        dist_run job ev c h args feed strict state answers = mkOut (Some (n, setup)) sent d (Ok (job, cm)) /\
        draws_ok (with_draws ev u) /\ run (with_draws ev u) c h args feed strict state = (d, Ok (st_, cm)).
Proof. exact (@dist_results). Qed.
Print Assumptions C97_run_partial.
(** every circuit that has been run, also with StochasticMeasure: the nodes are executed in the order of creation; every op and every
    measurement has sent one operation and got one answer; the worker decodes what a measurement asked for, with the positions of its
    qubits and the number of outcomes, and the node reports what was answered *)
Theorem C97_messages : forall {K} {OK : OrdRing K} (h : heap K) vis args srcs ev c feed strict state job answers job' cm,
  built h vis -> splits_in_range h vis -> incl args vis -> sources h args srcs -> enum_ok ev ->
  o_result (dist_run job ev c h args feed strict state answers) = Ok (job', cm) ->
  exists order ops, StronglySorted lt order /\ (forall i, In i order <-> ancestor h args i) /\ talks h srcs order ops answers cm /\
    Forall2 understood (o_sent (dist_run job ev c h args feed strict state answers)) ops.
Proof. exact (@dist_messages). Qed.
Print Assumptions C97_messages.
(** the same circuits with X, Y, Z, H or R on its own, or with F: the local run returns, the distributed one raises, whatever the
    manager answers *)
Theorem C97_gates_refuted : forall {K} {OK : OrdRing K} (h : heap K) vis c l args srcs ev feed strict state init job i,
  prepared h vis c l args srcs -> let n := widths h srcs in
  circuit_ok h args srcs n -> gates_exact h args -> starts h srcs n ev feed state init -> draws_ok ev ->
  (forall g v, In (g, v) init -> total v = 1%r) -> (strict = true -> incl srcs (fed_nodes feed)) ->
  ancestor h args i -> (exists o d, nd_kind (nd h i) = KMat o d /\ gate_of o <> None) \/ (exists f, nd_kind (nd h i) = KF f) ->
  (exists c' r, run ev c h args feed strict state = (c', Ok r)) /\
  forall answers, exists e, o_result (dist_run job ev c h args feed strict state answers) = Raise e.
Proof. exact (@gates_refused). Qed.
Print Assumptions C97_gates_refuted.
(** StochasticMeasure without top_k reports the probabilities of all outcomes locally, and a pair of lists on the distributed
    backend, whatever the manager answers *)
Theorem C97_probs_refuted : forall {K} {OK : OrdRing K} (h : heap K) vis c l args srcs ev feed strict state init job i c' st_ cm answers cm',
  prepared h vis c l args srcs -> let n := widths h srcs in
  circuit_ok h args srcs n -> starts h srcs n ev feed state init -> (strict = true -> incl srcs (fed_nodes feed)) ->
  ancestor h args i -> nd_kind (nd h i) = KStoch 0 ->
  run ev c h args feed strict state = (c', Ok (st_, cm)) -> o_result (dist_run job ev c h args feed strict state answers) = Ok (job, cm') ->
  exists ps is_ ps', In (i, CProbs (inl ps)) cm /\ In (i, CProbs (inr (is_, ps'))) cm'.
Proof. exact (@probs_refused). Qed.
Print Assumptions C97_probs_refuted.

(** ** Examples *)
Lemma exd_needed : forall i, ancestor (fst exd) [4]%nat i <-> In i [0; 1; 3; 4]%nat.
Proof. apply needed_ok. vm_compute. reflexivity. Qed.
Lemma exd_prepared : prepared (fst exd) (snd exd) cache0 [] [4]%nat [0; 1]%nat.
Proof. prepared exd_calls [0; 1; 3; 4]%nat. Qed.
Lemma exd_ok : circuit_ok (fst exd) [4]%nat [0; 1]%nat 2.
Proof.
  destruct exd_prepared as (_ & Hs & _ & Ha & _ & Hsrc).
  apply (circuit_ok_iff _ (snd exd) _ [0; 1; 3; 4]%nat); [apply (program_built exd_calls empty_heap []); [constructor|vm_compute; reflexivity]|exact Ha|exact Hs|exact exd_needed|exact Hsrc|].
  repeat (apply Forall_cons; [vm_compute; try exact I; (split; [discriminate|split; [|auto]]);
    repeat (constructor; [cbn; intuition discriminate|]); constructor|]). constructor.
Qed.
Lemma exd_draws : draws_ok (exo_ev 2).
Proof.
  split; [intros i; split; reflexivity|]. split; [reflexivity|]. intros p H0 H1.
  change ((p <=? 0) = false) in H0. change ((p <=? 1) = true) in H1. apply Z.leb_gt in H0. apply Z.leb_le in H1. assert (p = 1) as -> by lia. reflexivity.
Qed.
Lemma exd_fair : fair (1 : Z).
Proof. intros t Ht. change (1 * t)%r with (Z.mul 1 t). rewrite Z.mul_1_l. split; auto. apply Z.leb_refl. Qed.
Lemma exd_starts : starts (fst exd) [0; 1]%nat 2 (exo_ev 2) [] (SList exd_state) [(zrange 0 2, exd_state)].
Proof.
  destruct (exo_env 2 (fst exd)) as [A B]; [intros i func; do 6 (destruct i as [|i]; [cbn; discriminate|]); destruct i; cbn; discriminate|].
  split; auto. split; auto. apply initial_state; [constructor|intros i []|reflexivity].
Qed.
Example C97_hypotheses :
  prepared (fst exd) (snd exd) cache0 [] [4]%nat [0; 1]%nat /\ widths (fst exd) [0; 1]%nat = 2 /\
  circuit_ok (fst exd) [4]%nat [0; 1]%nat 2 /\ sendable (fst exd) [4]%nat /\ gates_exact (fst exd) [4]%nat /\
  starts (fst exd) [0; 1]%nat 2 (exo_ev 2) [] (SList exd_state) [(zrange 0 2, exd_state)] /\ draws_ok (exo_ev 2) /\ total exd_state = 1 /\
  (exists msgs rest, make_pool 2 exw_workers = Ok (exw_pool, msgs, rest)) /\ configured 7 exw_ws exw_cfg /\ connected exw_ws exw_cfg /\
  (forall w, In w exw_ws -> make_state exw_junk 2 (fst exd_groups) (snd exd_groups) (Some (fst (fst w))) (Some (snd (fst w))) (Some (fst (snd w))) (Some (snd (snd w))) = Ok (exd_bs w)) /\
  (forall r : Z, In r [1; 1] -> fair r) /\
  (forall w, In w exw_ws -> worker_luck (snd (fst w) - fst (fst w)) 2 (exd_envs w)).
Proof.
  split; [exact exd_prepared|]. split; [reflexivity|]. split; [exact exd_ok|]. split.
  { intros i Hi. apply exd_needed in Hi. cbn in Hi. destruct Hi as [<-|[<-|[<-|[<-|[]]]]]; cbn; auto. }
  split. { intros i o d Hi Hk. apply exd_needed in Hi. cbn in Hi. repeat destruct Hi as [<-|Hi]; cbn in Hk; try discriminate; try (destruct Hi; fail); inversion Hk; reflexivity || exact I. }
  split; [exact exd_starts|]. split; [exact exd_draws|]. split; [reflexivity|]. split; [eexists; eexists; vm_compute; reflexivity|].
  split; [intros w _; repeat split; cbn; lia|]. split; [intros w _; apply Permutation_refl|]. split.
  { intros w Hw. vm_compute in Hw. destruct Hw as [<-|[<-|[<-|[<-|[]]]]]; vm_compute; reflexivity. }
  split. { intros r [<-|[<-|[]]]; exact exd_fair. }
  intros w Hw. split.
  - split; [cbn; lia|]. intros e He. apply repeat_spec in He. subst. cbn [M_Worker.e_sched]. vm_compute in Hw. destruct Hw as [<-|[<-|[<-|[<-|[]]]]]; apply (Permutation_trans (perm_swap 0 1 []) (Permutation_refl _)).
  - intros e He. apply repeat_spec in He. subst. split; [exact exd_fair|reflexivity].
Qed.
(** the messages, what the run returns, an execution of the job and the local run *)
Example C97_example :
  o_setup exd_out = Some (2, [mkState [0; 1] (PSVector (vec_to_pbvec exd_state))]) /\
  exd_ops = [OKron [(KTuple [0; 1], MC (MNum 2 2 [(0, 0); (1, 0); (1, 0); (0, 0)]))]; OMeasure (mkMeasure [0; 1] None false false 0)] /\
  o_result exd_out = Ok (7, [(0%nat, CZero); (1%nat, CZero); (3%nat, CZero); (4%nat, CMeas 3 1)]) /\
  option_map (fun s' => (match procs s' Mgr with Ret (EManager results _) => results | _ => [] end,
                         map (fun w => match procs s' (Wk w) with Ret (EWorker b) => bk_state b | _ => [] end) exw_ws))
    (runs pid_eqb (fun _ _ => None) exd_net (exw_drive (fun _ _ => None) 500 exd_net (Mgr :: map Wk exw_ws)))
  = Some (exd_answers, [[(0, 0); (0, 0)]; [(0, 0); (0, 0)]; [(0, 0); (1, 0)]; [(0, 0); (1, 0)]]) /\
  snd (run (exo_ev 2) cache0 (fst exd) [4]%nat [] false (SList exd_state))
  = Ok ([(0, 0); (0, 0); (0, 0); (1, 0)], [(0%nat, CZero); (1%nat, CZero); (3%nat, CZero); (4%nat, CMeas 3 1)]).
Proof. split; [vm_compute; reflexivity|]. split; [vm_compute; reflexivity|]. split; [vm_compute; reflexivity|]. split; vm_compute; reflexivity. Qed.
(** the circuit of the examples of C96 contains R(i) *)
Example C97_gates_example :
  ancestor (fst exo_m) exo_args 6%nat /\ nd_kind (nd (fst exo_m) 6%nat) = KMat (OR (0, 1)) false /\ gate_of (OR (0, 1) : op Z) <> None /\
  o_result (dist_run 7 (exo_ev 3) cache0 (fst exo_m) exo_args [] false (SList exo_w) [None; Some (inl (3, 1)); None; Some (inl (1, 1))]) = Raise TypeError.
Proof. split; [apply exo_needed_anc; cbn; auto 10|]. split; [reflexivity|]. split; [discriminate|]. vm_compute. reflexivity. Qed.
(** the same circuit as above with m = StochasticMeasure(c) *)
Definition exp_ : heap Z * list nat := Eval vm_compute in exo_prog [NewQubit None None; NewQubit None None; Gate (GC GNot true) [0; 1]%nat false; Stoch [3]%nat 0].
Example C97_probs_example :
  snd (run (exo_ev 2) cache0 (fst exp_) [4]%nat [] false (SList exd_state))
  = Ok ([(0, 0); (0, 0); (0, 0); (1, 0)], [(0%nat, CZero); (1%nat, CZero); (3%nat, CZero); (4%nat, CProbs (inl [0; 0; 0; 1]))]) /\
  o_result (dist_run 7 (exo_ev 2) cache0 (fst exp_) [4]%nat [] false (SList exd_state) [None; Some (inr ([3; 0; 1; 2], [1; 0; 0; 0], []))])
  = Ok (7, [(0%nat, CZero); (1%nat, CZero); (3%nat, CZero); (4%nat, CProbs (inr ([3; 0; 1; 2], [1; 0; 0; 0])))]).
Proof. split; vm_compute; reflexivity. Qed.
(** StochasticMeasure(c, top_k=2) *)
Definition exk : heap Z * list nat := Eval vm_compute in exo_prog [NewQubit None None; NewQubit None None; Gate (GC GNot true) [0; 1]%nat false; Stoch [3]%nat 2].
Example C97_messages_example :
  let out := dist_run 7 (exo_ev 2) cache0 (fst exk) [4]%nat [] false (SList exd_state) [None; Some (inr ([3; 0], [1; 0], []))] in
  o_result out = Ok (7, [(0%nat, CZero); (1%nat, CZero); (3%nat, CZero); (4%nat, CProbs (inr ([3; 0], [1; 0])))]) /\
  match o_sent out with [_; m] => decode_op m = Ok (OMeasure (mkMeasure [0; 1] None false false 2)) | _ => False end.
Proof. split; vm_compute; reflexivity. Qed.
(** every measurement a client can ask for is decoded to itself *)
Theorem C97_measurements_decoded : forall {K} {OK : OrdRing K} (m : measure_op K) (w : wmsg K), encode_op (OMeasure m) = Ok w -> decode_op w = Ok (OMeasure m).
Proof. exact (fun K OK m w E => encoded_understood (OMeasure m) w E). Qed.
Print Assumptions C97_measurements_decoded.
Example C97_measurements_ex : exists w : wmsg Z, encode_op (OMeasure (mkMeasure [2; 0] (Some (1, 5)) true false 3)) = Ok w /\ decode_op w = Ok (OMeasure (mkMeasure [2; 0] (Some (1, 5)) true false 3)).
Proof. eexists. split; vm_compute; reflexivity. Qed.
