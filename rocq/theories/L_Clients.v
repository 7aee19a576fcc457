(** Clients that run circuits at the same time. *)
From Verif Require Import Base M_Bits S_Bits M_Kron S_Kron M_Ops S_Ops M_Feed S_Feed M_Func S_Func M_Measure S_Measure M_Pool S_Pool M_Net S_Net L_Net M_Worker S_Worker L_Worker1 L_Worker5
  M_Proto S_Proto M_Client M_Graph S_Graph S_Born S_Order M_DistRun S_DistRun L_DistRun3 M_Jobs S_Jobs S_Clients L_Jobs5 L_Jobs6 L_Jobs7.

Section Clients.
  Context {K : Type} {OK : OrdRing K}.
  Variables (rsqrt : K -> K) (jobs : nat -> job K) (clients : nat -> client K).
  Notation none := (fun _ : Z => @None nat).
  Notation nonew := (fun (_ : nat) (_ _ : wid) => @None nat).

  Lemma client_local j : client_ok (clients j) -> M_Graph.e_rsqrt (cl_ev (clients j)) = rsqrt -> job_of_client (clients j) (jobs j) ->
    exists answers st_ cm d u, job_of_local rsqrt none none nonew jobs j answers /\
      o_result (run_dist (clients j) answers) = Ok (cl_job (clients j), cm) /\ o_cache (run_dist (clients j) answers) = d /\
      draws_ok (with_draws (cl_ev (clients j)) u) /\ run_local (clients j) u = (d, Ok (st_, cm)).
  Proof.
    intros (HP & Hok & Hsend & Hg & Hb & Hs & Hd & Hne & Ht & Hst) Hrs (workers & pool & msgs & rest & setup & groups & feeds & sent & ops & junk & rs & Hpool & Hcfg & Hcon & Hrun & Ed & Eo & En & Ews & Eops & Hl & Hr & Hbs & Hw).
    set (x := clients j) in *.
    destruct (dist_job _ _ _ _ _ _ (cl_ev x) (cl_feed x) (cl_strict x) (cl_state x) (cl_init x) (cl_job x) workers pool msgs rest HP Hok Hsend Hg Hb Hs Hd Hne Ht Hst Hpool) as (setup' & groups' & feeds' & sent' & ops' & H1 & H2 & H3 & H4).
    set (long := repeat (@None (Z * K + list Z * list K * K)) (length sent + length sent')).
    assert (Es : setup' = setup /\ sent' = sent).
    { destruct (Hrun (repeat None (length sent + length sent'))) as [R1 R2]; [rewrite repeat_length; lia|]. destruct (H3 (repeat None (length sent + length sent'))) as (d0 & cm0 & R3); [rewrite repeat_length; lia|].
      unfold run_dist in R1, R2. rewrite R3 in R1, R2. cbn in R1, R2. split; congruence. }
    destruct Es as [-> ->]. rewrite Ed in H1. injection H1 as <- <-. rewrite Eo in H2. injection H2 as <-. clear long.
    destruct (H4 junk (j_bs (jobs j)) rs (j_envs (jobs j)) Hbs Hl Hr Hw) as (answers & st_ & cm & d & u & bq & lops & lb & final & (A1 & Hbq & Htl & Hbl & A2 & Fn & Fs & Fa & Fh & A3 & A4) & _ & _ & E1 & E2 & E3).
    exists answers, st_, cm, d, u. unfold run_dist, run_local. fold x. rewrite E1. split; [|auto].
    exists (cl_job x), (length lops * Z.to_nat (2 ^ bq) + 1)%nat, bq, pool, (fun a : range => map M_Worker.e_rand (j_envs (jobs j) (a, a))), lops, lb, final.
    rewrite En, Ews, Eops. rewrite <- Hrs. unfold cl_n in *. split; [reflexivity|]. split; [exact A1|]. split; [exact Hbq|]. split; [exact Htl|]. split; [exact Hbl|]. split; [exact Hcfg|]. split; [exact Hcon|].
    split; [intros w w' _ _; unfold job_cap; cbn; auto|]. split; [lia|]. split; [exact A2|]. split; [exact Fn|]. split; [exact Fs|]. split; [exact Fa|]. split; [exact Fh|]. split; [exact A3|]. split; [exact A4|]. reflexivity.
  Qed.

  Lemma clients_local :
    (forall j w v, In w (j_ws (jobs j)) -> In v (j_ws (jobs j)) -> j_at (jobs j) w = j_at (jobs j) v -> w = v) ->
    (forall j, client_ok (clients j) /\ M_Graph.e_rsqrt (cl_ev (clients j)) = rsqrt /\ job_of_client (clients j) (jobs j)) ->
    (forall acts W, wruns rsqrt none none nonew jobs world0 acts = Some W ->
       (forall i e, workers W i <> WStopped e) /\
       (forall j p, threads W j = Some (Returned p) -> exists answers st_ cm d u,
          p = Ret (EManager answers (j_ws (jobs j))) /\
          o_result (run_dist (clients j) answers) = Ok (cl_job (clients j), cm) /\ o_cache (run_dist (clients j) answers) = d /\
          draws_ok (with_draws (cl_ev (clients j)) u) /\ run_local (clients j) u = (d, Ok (st_, cm))) /\
       ((forall j, wexec rsqrt none none nonew jobs W (AThread j) = None) -> (forall i, wexec rsqrt none none nonew jobs W (AWorker i) = None) -> settled W)) /\
    forall M, exists bound, forall acts W, (forall j, In (AStart j) acts -> (j < M)%nat) -> wruns rsqrt none none nonew jobs world0 acts = Some W -> (length acts <= bound)%nat.
  Proof.
    intros Hat H. assert (Hl : forall j, exists answers st_ cm d u, job_of_local rsqrt none none nonew jobs j answers /\
      o_result (run_dist (clients j) answers) = Ok (cl_job (clients j), cm) /\ o_cache (run_dist (clients j) answers) = d /\
      draws_ok (with_draws (cl_ev (clients j)) u) /\ run_local (clients j) u = (d, Ok (st_, cm))) by (intros j; destruct (H j) as (H1 & H2 & H3); exact (client_local j H1 H2 H3)).
    assert (Hplaced : forall j, placed jobs j) by (intros j; split; [destruct (Hl j) as (a & ? & ? & ? & ? & Ha & _); exact (local_nodup _ _ _ _ _ j a Ha)|apply Hat]).
    assert (Hclean : forall j, clean rsqrt none none nonew jobs j) by (intros j; destruct (Hl j) as (a & ? & ? & ? & ? & Ha & _); exact (local_clean _ _ _ _ _ j a Ha)).
    split; [|exact (jobs_finite rsqrt none none nonew jobs Hplaced Hclean)]. intros acts W HW.
    destruct (jobs_alone rsqrt none none nonew jobs Hplaced Hclean acts W HW) as [H1 H2]. split; [exact H1|]. split.
    - intros j p Ht. destruct (H2 j) as (s & Ha & Hp & He & _). destruct (Hl j) as (a & st_ & cm & d & u & Hloc & R). exists a, st_, cm, d, u. split; [|exact R].
      rewrite <- (Hp p (or_intror Ht)).
      apply (end_unique (job_cap none none nonew jobs j) (j_net rsqrt (jobs j))); [|exact Ha|rewrite (Hp p (or_intror Ht)); exact (He p Ht)].
      exact (ends_weaker _ _ _ _ (fun s Hs => proj1 Hs) (local_ends _ _ _ _ _ j _ Hloc)).
    - apply (jobs_settled rsqrt none none nonew jobs Hplaced Hclean) with (acts := acts); [intros i; exact Logic.I|exact HW].
  Qed.
End Clients.
