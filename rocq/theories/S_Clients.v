(** Specification of clients that run circuits on the workers of one manager at the same time. *)
From Verif Require Import Base M_Bits S_Bits M_Kron S_Kron M_Ops S_Ops M_Feed S_Feed M_Func S_Func M_Measure S_Measure M_Pool S_Pool M_Net S_Net M_Worker S_Worker
  M_Proto S_Proto M_Client M_Graph S_Graph S_Born S_Order M_DistRun S_DistRun M_Jobs S_Jobs.

Section Clients.
  Context {K : Type} {OK : OrdRing K}.
  (** a client: its objects and ops' caches, earlier runs, the arguments of run, the qubits the circuit starts from with their
      initial amplitudes, the outside influences on its own process, and the handle of the job *)
  Record client := mkClient {
    cl_heap : heap K; cl_vis : list nat; cl_cache : cache K; cl_runs : list (list nat); cl_args : list nat; cl_srcs : list nat;
    cl_ev : M_Graph.env K; cl_feed : list (fkey * feed_t K); cl_strict : bool; cl_state : state_kw K;
    cl_init : list (list Z * list (Cx K)); cl_job : Z }.
  Definition cl_n (x : client) : Z := widths (cl_heap x) (cl_srcs x).
  (** the circuit of the client is one of C97_run_partial *)
  Definition client_ok (x : client) : Prop :=
    prepared (cl_heap x) (cl_vis x) (cl_cache x) (cl_runs x) (cl_args x) (cl_srcs x) /\
    circuit_ok (cl_heap x) (cl_args x) (cl_srcs x) (cl_n x) /\ sendable (cl_heap x) (cl_args x) /\ gates_exact (cl_heap x) (cl_args x) /\
    cl_n x < 2 ^ 31 /\ starts (cl_heap x) (cl_srcs x) (cl_n x) (cl_ev x) (cl_feed x) (cl_state x) (cl_init x) /\ draws_ok (cl_ev x) /\
    cl_init x <> [] /\ (forall g v, In (g, v) (cl_init x) -> total v = 1%r) /\ (cl_strict x = true -> incl (cl_srcs x) (fed_nodes (cl_feed x))).
  (** its run on the distributed backend, for given answers of the manager, and on the local backend, for given draws *)
  Definition run_dist (x : client) (answers : list (mresult K)) : dist_out K :=
    dist_run (cl_job x) (cl_ev x) (cl_cache x) (cl_heap x) (cl_args x) (cl_feed x) (cl_strict x) (cl_state x) answers.
  Definition run_local (x : client) (u : nat -> K) : st (cache K) (list (Cx K) * list (nat * cval K)) :=
    run (with_draws (cl_ev x) u) (cl_cache x) (cl_heap x) (cl_args x) (cl_feed x) (cl_strict x) (cl_state x).
  (** job [j] is what the manager and a pool of connected workers do when they receive the messages of this run *)
  Definition job_of_client (x : client) (j : job K) : Prop :=
    exists workers pool msgs rest setup groups feeds sent ops junk rs,
      make_pool (cl_n x) workers = Ok (pool, msgs, rest) /\ configured (cl_job x) (map fst pool) (j_cfg j) /\ connected (map fst pool) (j_cfg j) /\
      (forall answers, (length sent <= length answers)%nat -> o_setup (run_dist x answers) = Some (cl_n x, setup) /\ o_sent (run_dist x answers) = sent) /\
      decode_states setup = Ok (groups, feeds) /\ mmap decode_op sent = Ok ops /\
      j_n j = cl_n x /\ j_ws j = map fst pool /\ j_ops j = combine ops rs /\ length rs = length sent /\ (forall r, In r rs -> fair r) /\
      (forall w : wid, In w (map fst pool) ->
         make_state (junk w) (cl_n x) groups feeds (Some (fst (fst w))) (Some (snd (fst w))) (Some (fst (snd w))) (Some (snd (snd w))) = Ok (j_bs j w)) /\
      (forall w : wid, In w (map fst pool) -> worker_luck (snd (fst w) - fst (fst w)) (length sent) (j_envs j w)).
End Clients.
Arguments client K : clear implicits.
