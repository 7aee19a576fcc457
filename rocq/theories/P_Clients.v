(** Circuits of several clients on one manager: C101, C97. *)
From Verif Require Import Base M_Bits S_Bits M_Kron S_Kron M_Ops S_Ops M_Feed S_Feed M_Func S_Func M_Measure S_Measure M_Pool S_Pool M_Net S_Net M_Worker S_Worker
  M_Proto S_Proto M_Client M_Graph S_Graph L_Graph1 S_Born S_Order L_Order7 M_DistRun S_DistRun L_DistRun3 M_Jobs S_Jobs S_Clients L_Clients P_Worker P_Order P_DistRun P_Jobs.

(** Any number of clients run circuits on one manager at the same time, each in its own process, on workers that are given to
    one job after another. Whatever the schedule, no worker ends with an exception; when the thread of a job has ended, its
    answers make the client's run return what a local run of its own circuit returns, with some draws from (0, 1]; nobody waits
    for ever, and the executions of finitely many clients are bounded. Missing: the circuits are those of C97_run_partial; the
    pool of every job is given, and consists of different workers. *)
Theorem C101_circuits_partial : forall {K} {OK : OrdRing K} (rsqrt : K -> K) (jobs : nat -> job K) (clients : nat -> client K),
  (forall j w v, In w (j_ws (jobs j)) -> In v (j_ws (jobs j)) -> j_at (jobs j) w = j_at (jobs j) v -> w = v) ->
  (forall j, client_ok (clients j) /\ M_Graph.e_rsqrt (cl_ev (clients j)) = rsqrt /\ job_of_client (clients j) (jobs j)) ->
  let none := fun _ => None in let nonew := fun _ _ _ => None in
  (forall acts W, wruns rsqrt none none nonew jobs world0 acts = Some W ->
     (forall i e, workers W i <> WStopped e) /\
     (forall j p, threads W j = Some (Returned p) -> exists answers st_ cm d u,
        p = Ret (EManager answers (j_ws (jobs j))) /\
        o_result (run_dist (clients j) answers) = Ok (cl_job (clients j), cm) /\ o_cache (run_dist (clients j) answers) = d /\
        draws_ok (with_draws (cl_ev (clients j)) u) /\ run_local (clients j) u = (d, Ok (st_, cm))) /\
     ((forall j, wexec rsqrt none none nonew jobs W (AThread j) = None) -> (forall i, wexec rsqrt none none nonew jobs W (AWorker i) = None) -> settled W)) /\
  forall M, exists bound, forall acts W, (forall j, In (AStart j) acts -> (j < M)%nat) -> wruns rsqrt none none nonew jobs world0 acts = Some W -> (length acts <= bound)%nat.
Proof. exact (@clients_local). Qed.
Print Assumptions C101_circuits_partial.

(** ** Example: the circuit of the example of C97, with the state |10> for client 0 and |01> for all others; the workers of client
    0 are the processes 0-3, those of the others the processes 2-5 *)
Definition exc_state (j : nat) : list (Cx Z) := match j with O => exd_state | _ => [(0, 0); (1, 0); (0, 0); (0, 0)] end.
Definition exc_client (j : nat) : client Z :=
  mkClient (fst exd) (snd exd) cache0 [] [4]%nat [0; 1]%nat (exo_ev 2) [] false (SList (exc_state j)) [(zrange 0 2, exc_state j)] (Z.of_nat j).
Definition exc_answers (j : nat) : list (mresult Z) := [None; Some (inl (match j with O => 3 | _ => 1 end, 1))].
Definition exc_groups (j : nat) : list (list Z) * list (feed_t Z) := ([[0; 1]], [FArr (exc_state j)]).
Definition exc_bs (j : nat) (w : wid) : backend Z :=
  match make_state exw_junk 2 (fst (exc_groups j)) (snd (exc_groups j)) (Some (fst (fst w))) (Some (snd (fst w))) (Some (fst (snd w))) (Some (snd (snd w))) with
  | Ok b => b | Raise _ => mkBackend 0 [] [] end.
Definition exc_jobs (j : nat) : job Z :=
  mkJob 2 exw_ws (exj_at (match j with O => 0 | _ => 2 end)) (combine exd_ops [1; 1]) (exj_cfg j) exd_envs (exc_bs j).
Lemma exc_ok j : client_ok (exc_client j).
Proof.
  destruct C97_hypotheses as (H1 & H2 & H3 & H4 & H5 & H6 & H7 & _). unfold client_ok, cl_n, exc_client. cbn [cl_heap cl_vis cl_cache cl_runs cl_args cl_srcs cl_ev cl_feed cl_strict cl_state cl_init].
  rewrite H2. split; [exact H1|]. split; [exact H3|]. split; [exact H4|]. split; [exact H5|]. split; [lia|]. split.
  { destruct H6 as [A [B _]]. split; auto. split; auto. apply initial_state; [constructor|intros i []|destruct j; reflexivity]. }
  split; [exact H7|]. split; [discriminate|]. split; [|discriminate]. intros g v [E|[]]. injection E as _ <-. destruct j; reflexivity.
Qed.
Example C101_clients : 
  (forall j w v, In w (j_ws (exc_jobs j)) -> In v (j_ws (exc_jobs j)) -> j_at (exc_jobs j) w = j_at (exc_jobs j) v -> w = v) /\
  forall j, client_ok (exc_client j) /\ M_Graph.e_rsqrt (cl_ev (exc_client j)) = M_Graph.e_rsqrt (exo_ev 2) /\ job_of_client (exc_client j) (exc_jobs j).
Proof.
  split; [intros j; exact (proj2 (C101_placed j))|]. intros j. split; [apply exc_ok|]. split; [reflexivity|].
  destruct C97_hypotheses as (H1 & H2 & H3 & H4 & H5 & H6 & H7 & _ & (msgs & rest & Hp) & _ & _ & _ & Hr & Hw).
  destruct (exc_ok j) as (G1 & G2 & G3 & G4 & G5 & G6 & G7 & G8 & G9 & G10).
  destruct (dist_job _ _ _ _ _ _ _ _ _ _ _ (Z.of_nat j) exw_workers exw_pool msgs rest G1 G2 G3 G4 G5 G6 G7 G8 G9 G10 Hp) as (setup & groups & feeds & sent & ops & D1 & D2 & D3 & _).
  destruct (D3 (exc_answers j ++ repeat None (length sent))) as (d & cm & E); [rewrite app_length, repeat_length; lia|].
  assert (Es : Some (cl_n (exc_client j), setup) = Some (2, [mkState [0; 1] (PSVector (vec_to_pbvec (exc_state j)))]) /\ sent = o_sent exd_out).
  { apply (f_equal (fun o => (o_setup o, o_sent o))) in E. cbn [o_setup o_sent] in E. clear - E. revert E.
    generalize (repeat (@None (Z * Z + list Z * list Z * Z)) (length sent)). intros tl E0.
    destruct j; cbn [exc_client cl_heap cl_args cl_ev cl_feed cl_strict cl_state cl_cache exc_answers exc_state] in *; vm_compute in E0; injection E0 as <- <-; vm_compute; auto. }
  destruct Es as [Es ->]. injection Es as ->.
  exists exw_workers, exw_pool, msgs, rest, [mkState [0; 1] (PSVector (vec_to_pbvec (exc_state j)))], (fst (exc_groups j)), (snd (exc_groups j)), (o_sent exd_out), exd_ops, (fun _ => exw_junk), [1; 1].
  split; [exact Hp|]. split; [intros w _; repeat split; cbn; lia|]. split; [intros w _; apply Permutation_refl|]. split.
  { intros answers Ha. destruct (D3 answers Ha) as (d' & cm' & E'). unfold run_dist. cbn [exc_client cl_job cl_heap cl_args cl_ev cl_feed cl_strict cl_state cl_cache] in *. rewrite E'. auto. }
  split; [destruct j; vm_compute; reflexivity|]. split; [vm_compute; reflexivity|]. split; [reflexivity|]. split; [reflexivity|]. split; [reflexivity|]. split; [reflexivity|]. split; [exact Hr|]. split; [|exact Hw].
  intros w Hi. vm_compute in Hi. destruct Hi as [<-|[<-|[<-|[<-|[]]]]]; destruct j; vm_compute; reflexivity.
Qed.
(** an execution of the jobs of three clients *)
Definition exc_none : Z -> option nat := fun _ => None.
Definition exc_nonew : nat -> wid -> wid -> option nat := fun _ _ _ => None.
Fixpoint exc_first (W : world Z) (l done : list act) : option (act * world Z * list act) :=
  match l with
  | [] => None
  | a :: l => match wexec (fun _ => 1) exc_none exc_none exc_nonew exc_jobs W a with Some W' => Some (a, W', l ++ done ++ [a]) | None => exc_first W l (done ++ [a]) end
  end.
Fixpoint exc_drive (fuel : nat) (W : world Z) (l : list act) : list act :=
  match fuel with O => [] | S fuel => match exc_first W l [] with Some (a, W', l') => a :: exc_drive fuel W' l' | None => [] end end.
Example C101_clients_run :
  option_map (fun W => map (fun j => match threads W j with Some (Returned (Ret (EManager answers _))) => Some (answers, o_result (run_dist (exc_client j) answers)) | _ => None end) [0; 1; 2; 3]%nat)
    (wruns (fun _ => 1) exc_none exc_none exc_nonew exc_jobs world0
       (exc_drive 2000 world0 (map AStart [0; 1; 2]%nat ++ map AThread [0; 1; 2]%nat ++ map AWorker (zrange 0 6))))
  = Some [Some (exc_answers 0, Ok (0, [(0%nat, CZero); (1%nat, CZero); (3%nat, CZero); (4%nat, CMeas 3 1)]));
          Some (exc_answers 1, Ok (1, [(0%nat, CZero); (1%nat, CZero); (3%nat, CZero); (4%nat, CMeas 1 1)]));
          Some (exc_answers 1, Ok (2, [(0%nat, CZero); (1%nat, CZero); (3%nat, CZero); (4%nat, CMeas 1 1)])); None].
Proof. vm_compute. reflexivity. Qed.
