(** Several jobs of kronprods and measurements. *)
From Coq Require Import String.
From Verif Require Import Base M_Bits S_Bits M_Kron S_Kron M_Feed S_Feed M_Measure S_Measure M_Pool S_Pool M_Net S_Net L_Net M_Worker S_Worker L_Worker1 L_Worker5 L_Failure2 M_Jobs S_Jobs L_Jobs1 L_Jobs2 L_Jobs3 L_Jobs4 L_Jobs5 L_Jobs6.

Section Local.
  Context {K : Type} {OK : OrdRing K}.
  Variables (rsqrt : K -> K) (capd capu : Z -> option nat) (capw : nat -> wid -> wid -> option nat) (jobs : nat -> job K).
  Notation cap := (job_cap capd capu capw jobs).

  Lemma local_ends j results : job_of_local rsqrt capd capu capw jobs j results ->
    always_ends pid_eqb (cap j) (j_net rsqrt (jobs j)) (fun s => procs s Mgr = Ret (EManager results (j_ws (jobs j))) /\
      forall w, In w (j_ws (jobs j)) -> (exists b, procs s (Wk w) = Ret (EWorker b)) /\ chans s Mgr (Wk w) = [] /\ chans s (Wk w) Mgr = []).
  Proof.
    intros (jb & room & bq & pool & draws & lops & lb & final & Hws & Hops & H1 & H2 & H3 & H4 & H5 & H6 & H7 & H8 & H9 & H10 & H11 & H12 & H13 & H14 & H15).
    unfold j_net. rewrite Hws, Hops. apply (mixed_clean (cap j) rsqrt (j_cfg (jobs j)) jb room (j_n (jobs j)) bq pool draws lops results (j_envs (jobs j)) (j_bs (jobs j)) lb final); auto.
  Qed.
  Lemma ends_weaker (c : pid -> pid -> option nat) (s0 : net pid (msg K) (ending K)) (P Q : net pid (msg K) (ending K) -> Prop) :
    (forall s, P s -> Q s) -> always_ends pid_eqb c s0 P -> always_ends pid_eqb c s0 Q.
  Proof. intros HPQ [b H]. exists b. intros sched s' Hr. destruct (H sched s' Hr) as [Hl [Hp|Hx]]; auto. Qed.
  Lemma local_clean j results : job_of_local rsqrt capd capu capw jobs j results -> clean rsqrt capd capu capw jobs j.
  Proof. intros H. refine (ends_weaker _ _ _ _ _ (local_ends j results H)). intros s [Hs Hw]. split; [rewrite Hs; exact Logic.I|exact Hw]. Qed.
  Lemma local_nodup j results : job_of_local rsqrt capd capu capw jobs j results -> NoDup (j_ws (jobs j)).
  Proof.
    intros (jb & room & bq & pool & draws & lops & lb & final & Hws & Hops & H1 & H2 & H3 & _). rewrite Hws. exact (Hnd (j_n (jobs j)) bq pool H1 H2 H3).
  Qed.

  Lemma local_jobs (results : nat -> list (mresult K)) :
    (forall i, fits (capd i) 1) ->
    (forall j w v, In w (j_ws (jobs j)) -> In v (j_ws (jobs j)) -> j_at (jobs j) w = j_at (jobs j) v -> w = v) ->
    (forall j, job_of_local rsqrt capd capu capw jobs j (results j)) ->
    (forall acts W, wruns rsqrt capd capu capw jobs world0 acts = Some W ->
       (forall i e, workers W i <> WStopped e) /\
       (forall j p, threads W j = Some (Returned p) -> p = Ret (EManager (results j) (j_ws (jobs j)))) /\
       ((forall j, wexec rsqrt capd capu capw jobs W (AThread j) = None) -> (forall i, wexec rsqrt capd capu capw jobs W (AWorker i) = None) -> settled W)) /\
    forall M, exists bound, forall acts W, (forall j, In (AStart j) acts -> (j < M)%nat) -> wruns rsqrt capd capu capw jobs world0 acts = Some W -> (length acts <= bound)%nat.
  Proof.
    intros Hroom Hat Hl. assert (Hplaced : forall j, placed jobs j) by (intros j; split; [exact (local_nodup j _ (Hl j))|apply Hat]).
    assert (Hclean : forall j, clean rsqrt capd capu capw jobs j) by (intros j; exact (local_clean j _ (Hl j))).
    split; [|exact (jobs_finite rsqrt capd capu capw jobs Hplaced Hclean)]. intros acts W H.
    destruct (jobs_alone rsqrt capd capu capw jobs Hplaced Hclean acts W H) as [H1 H2]. split; [exact H1|]. split.
    - intros j p Ht. destruct (H2 j) as (s & Ha & Hp & He & _). rewrite <- (Hp p (or_intror Ht)).
      apply (end_unique (cap j) (j_net rsqrt (jobs j))); [|exact Ha|rewrite (Hp p (or_intror Ht)); exact (He p Ht)].
      exact (ends_weaker _ _ _ _ (fun s Hs => proj1 Hs) (local_ends j _ (Hl j))).
    - exact (jobs_settled rsqrt capd capu capw jobs Hplaced Hclean Hroom acts W H).
  Qed.
End Local.

Lemma shutdown {K} {OK : OrdRing K} (rsqrt : K -> K) (jobs : nat -> job K) capu capw (W : world K) i rest :
  workers W i = WIdle -> downs W i = DShutdown :: rest ->
  (exists W', worker_step rsqrt capu capw jobs W i = Some W' /\ workers W' i = WStopped ValueError /\
     worker_step rsqrt capu capw jobs W' i = None) /\
  forall set, set <> Some "setup"%string -> runner_branch set = Raise ValueError.
Proof.
  intros Hw Hd. split.
  - unfold worker_step at 1. rewrite Hw, Hd. eexists. split; [reflexivity|]. cbn [workers]. rewrite zset_eq. split; [reflexivity|]. unfold worker_step. cbn [workers]. rewrite zset_eq. reflexivity.
  - intros set Hs. unfold runner_branch, has_field. cbn. destruct set as [f|]; [|reflexivity]. destruct (String.eqb f "setup") eqn:E; [apply String.eqb_eq in E; congruence|reflexivity].
Qed.
