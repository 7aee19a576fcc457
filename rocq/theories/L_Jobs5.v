(** Several jobs: results, and no deadlock. *)
From Coq Require Import Sorted.
From Verif Require Import Base M_Kron M_Measure M_Net S_Net L_Net M_Worker S_Worker L_Worker1 M_Jobs S_Jobs L_Jobs1 L_Jobs2 L_Jobs3 L_Jobs4.

Section Progress.
  Context {K : Type} {OK : OrdRing K}.
  Variables (rsqrt : K -> K) (capd capu : Z -> option nat) (capw : nat -> wid -> wid -> option nat) (jobs : nat -> job K).
  Notation net := (net pid (msg K) (ending K)).
  Notation proc := (proc pid (msg K) (ending K)).
  Notation world := (world K).
  Notation cap := (job_cap capd capu capw jobs).
  Notation at_ j w := (j_at (jobs j) w).
  Notation ws j := (j_ws (jobs j)).
  Notation exec j := (exec pid_eqb (cap j)).
  Notation wexec := (wexec rsqrt capd capu capw jobs).
  Notation inv := (inv rsqrt capd capu capw jobs).
  Hypothesis Hplaced : forall j, placed jobs j.
  Hypothesis Hclean : forall j, clean rsqrt capd capu capw jobs j.

  Lemma jobs_alone acts W : wruns rsqrt capd capu capw jobs world0 acts = Some W ->
    (forall i e, workers W i <> WStopped e) /\
    forall j, exists s, alone rsqrt capd capu capw jobs j s /\
      (forall p, threads W j = Some (Serving p) \/ threads W j = Some (Returned p) -> procs s Mgr = p) /\
      (forall p, threads W j = Some (Returned p) -> ended p) /\
      (forall i w p, workers W i = WJob j w p -> procs s (Wk w) = p) /\
      forall w v, data W j w v = chans s (Wk w) (Wk v).
  Proof.
    intros H. destruct (inv_reached rsqrt capd capu capw jobs Hplaced Hclean acts W H) as (S & segs & T & N & I).
    split; [apply (i_alive _ _ _ _ _ _ _ _ _ _ I)|]. intros j. exists (S j). split; [apply (i_alone _ _ _ _ _ _ _ _ _ _ I)|].
    assert (Ht := i_thread _ _ _ _ _ _ _ _ _ _ I j). split; [|split; [|split]].
    - intros p [E|E]; rewrite E in Ht; tauto.
    - intros p E. rewrite E in Ht. tauto.
    - intros i w p. apply (i_worker _ _ _ _ _ _ _ _ _ _ I).
    - apply (i_data _ _ _ _ _ _ _ _ _ _ I).
  Qed.

  (** the end of the manager's thread is that of every execution of the job by itself *)
  Lemma end_unique (c : pid -> pid -> option nat) (s0 : net) r : always_ends pid_eqb c s0 (fun s => procs s Mgr = r) ->
    forall s, (exists sched, runs pid_eqb c s0 sched = Some s) -> ended (procs s Mgr) -> procs s Mgr = r.
  Proof.
    intros H s Hs He.
    destruct H as [b Hb]. destruct Hs as [sched Hs].
    assert (Hend : exists sched' t, runs pid_eqb c s sched' = Some t /\ procs t Mgr = r).
    { remember (b - length sched)%nat as d eqn:Ed. revert sched s Hs He Ed. induction d as [d IH] using (well_founded_induction lt_wf). intros sched s Hs He Ed.
      destruct (Hb sched s Hs) as [Hl [Hq|(i & s'' & Hx)]]; [exists [], s; split; [reflexivity|exact Hq]|].
      assert (Hs' := runs_snoc pid_eqb c s0 sched s i s'' Hs Hx). destruct (Hb _ _ Hs') as [Hl' _]. rewrite app_length in Hl'. cbn in Hl'.
      destruct (IH (b - length (sched ++ [i]))%nat) with (sched := sched ++ [i]) (s := s'') as (sched' & t & Hr & Ht); auto.
      - rewrite app_length. cbn. lia.
      - rewrite (exec_proc pid_eqb pid_eqb_ok c s i s'' Mgr Hx); [exact He|]. intros <-. unfold M_Net.exec in Hx. destruct (procs s Mgr); try discriminate; contradiction.
      - exists (i :: sched'), t. cbn. rewrite Hx. auto. }
    destruct Hend as (sched' & t & Hr & <-).
    assert (Hk : forall sched' (s t : net), ended (procs s Mgr) -> runs pid_eqb c s sched' = Some t -> procs t Mgr = procs s Mgr).
    { clear. induction sched' as [|x l IH]; intros s t He H; cbn in H; [injection H as <-; reflexivity|].
      destruct (M_Net.exec pid_eqb c s x) as [s1|] eqn:Ex; [|discriminate].
      assert (E : procs s1 Mgr = procs s Mgr). { apply (exec_proc pid_eqb pid_eqb_ok c s x s1 Mgr Ex). intros <-. unfold M_Net.exec in Ex. destruct (procs s Mgr); try discriminate; contradiction. }
      rewrite <- E. apply IH; [rewrite E; exact He|exact H]. }
    symmetry. exact (Hk _ _ _ He Hr).
  Qed.

  Lemma idle_alone (s : net) j w : alone rsqrt capd capu capw jobs j s -> ~ In w (ws j) -> procs s (Wk w) = Ret EIdle.
  Proof.
    intros [sched H] Hw. revert s H. induction sched as [|x sched IH] using rev_ind; intros s H.
    - cbn in H. injection H as <-. unfold j_net, job_net. cbn [procs]. destruct (existsb (wid_eqb w) (ws j)) eqn:E; [|reflexivity]. apply has_in in E. contradiction.
    - rewrite runs_app in H. destruct (runs _ _ _ sched) as [t|] eqn:Et; [|discriminate]. cbn in H.
      destruct (M_Net.exec _ _ t x) as [t'|] eqn:Ex; [|discriminate]. injection H as <-. specialize (IH t eq_refl).
      rewrite (exec_proc pid_eqb pid_eqb_ok _ t x t' (Wk w) Ex); [exact IH|]. intros <-. unfold M_Net.exec in Ex. rewrite IH in Ex. discriminate.
  Qed.

  (** ** No deadlock *)
  Hypothesis Hroom : forall i, fits (capd i) 1.
  Definition moves (W : world) : Prop := exists a W', wexec W a = Some W' /\ match a with AStart _ => False | _ => True end.
  Definition incomplete (W : world) (segs : Z -> list (nat * wid)) (j : nat) : Prop :=
    unf (threads W j) \/ exists i w, In (j, w) (cur (workers W i) ++ segs i).

  Lemma idle_moves W i : workers W i = WIdle -> downs W i <> [] -> moves W.
  Proof.
    intros Ew Hd. destruct (downs W i) as [|d l] eqn:Ed; [contradiction|]. exists (AWorker i). cbn [M_Jobs.wexec worker_step]. unfold worker_step. rewrite Ew, Ed. eexists. split; [reflexivity|exact Logic.I].
  Qed.
  Lemma pending_moves W S segs T N i j w : inv W S segs T N -> In (j, w) (segs i) ->
    (forall j', (T j' < T j)%nat -> incomplete W segs j' -> moves W) -> moves W.
  Proof.
    intros I Hin IH. destruct (workers W i) as [|j' w' p|e] eqn:Ew.
    - apply (idle_moves W i Ew). rewrite (i_down _ _ _ _ _ _ _ _ _ _ I), Ew. cbn [body app]. destruct (segs i) as [|q l]; [destruct Hin|]. discriminate.
    - assert (HT := i_time _ _ _ _ _ _ _ _ _ _ I i). rewrite Ew in HT. cbn in HT. inversion HT as [|? ? _ Hf]; subst. rewrite Forall_forall in Hf. specialize (Hf _ Hin). cbn in Hf.
      apply (IH j' Hf). right. exists i, w'. rewrite Ew. left. reflexivity.
    - destruct (i_alive _ _ _ _ _ _ _ _ _ _ I i e Ew).
  Qed.
  Lemma worker_moves W S segs T N i j w p s' : inv W S segs T N -> workers W i = WJob j w p -> exec j (S j) (Wk w) = Some s' -> moves W.
  Proof.
    intros I Ew He. destruct (busy_started rsqrt capd capu capw jobs _ _ _ _ _ _ _ _ _ I Ew) as (Hw & Ha & Hf & Hp).
    exists (AWorker i). cbn [M_Jobs.wexec]. unfold worker_step. rewrite Ew. unfold M_Net.exec in He. rewrite Hp in He.
    destruct p as [r|e|[|v] m k|[|v] k]; try discriminate.
    - assert (Huj : unf (threads W j)). { destruct Hf as [Hf|Hf]; [exact Hf|]. destruct (end_silent rsqrt capd capu capw jobs j (Hclean j) (S j) w m k (i_alone _ _ _ _ _ _ _ _ _ _ I j) Hw Hf Hp). }
      assert (Eu := i_ups _ _ _ _ _ _ _ _ _ _ I j w Huj Hw). rewrite Ha in Eu. rewrite Eu. cbn [job_cap] in He. rewrite Ha in He.
      destruct (has_room _ _); [|discriminate]. eexists. split; [reflexivity|exact Logic.I].
    - cbn [job_cap] in He. rewrite <- (i_data _ _ _ _ _ _ _ _ _ _ I) in He. destruct (has_room _ _); [|discriminate]. eexists. split; [reflexivity|exact Logic.I].
    - destruct (downs W i) as [|d l] eqn:Ed.
      + rewrite (i_down _ _ _ _ _ _ _ _ _ _ I), Ew in Ed. apply app_eq_nil in Ed. destruct Ed as [Ed _]. cbn [body] in Ed. apply map_eq_nil in Ed. rewrite Ed in He. discriminate.
      + eexists. split; [reflexivity|exact Logic.I].
    - rewrite <- (i_data _ _ _ _ _ _ _ _ _ _ I) in He. destruct (data W j v w); [discriminate|]. eexists. split; [reflexivity|exact Logic.I].
  Qed.
  Lemma net_moves W S segs T N j x s' : inv W S segs T N -> exec j (S j) x = Some s' ->
    (exists p, threads W j = Some (Serving p) \/ threads W j = Some (Returned p)) ->
    (forall j', (T j' < T j)%nat -> incomplete W segs j' -> moves W) -> moves W.
  Proof.
    intros I He [p Ht] IH. assert (Sj := i_thread _ _ _ _ _ _ _ _ _ _ I j). destruct x as [|v].
    - destruct Ht as [Ht|Ht]; rewrite Ht in Sj.
      2: { exfalso. destruct Sj as [Sj Hp]. unfold M_Net.exec in He. rewrite Sj in He. destruct p; try discriminate; contradiction. }
      assert (Ho := only_alone rsqrt capd capu capw jobs j (S j) (i_alone _ _ _ _ _ _ _ _ _ _ I j)). unfold M_Net.exec in He. rewrite Sj in He, Ho.
      assert (Huj : unf (threads W j)) by (rewrite Ht; exact Logic.I).
      destruct p as [r|e|to m k|from k]; try discriminate; cbn in Ho; destruct Ho as [(w & -> & Hw) _].
      + destruct (has_room (capd (at_ j w)) (downs W (at_ j w))) eqn:Er.
        * exists (AThread j). cbn [M_Jobs.wexec]. unfold thread_step. rewrite Ht, Er. apply has_in in Hw. rewrite Hw. eexists. split; [reflexivity|exact Logic.I].
        * cbn [job_cap] in He. destruct (has_room (capd (at_ j w)) (chans (S j) Mgr (Wk w))) eqn:Er'; [|discriminate].
          destruct (i_last _ _ _ _ _ _ _ _ _ _ I j w Huj Hw) as [H|[[pre H]|[[r H] H']]]; [rewrite Ht in H; destruct H| |].
          -- destruct (segs (at_ j w)) as [|q0 l0] eqn:Esegs using rev_ind.
             ++ exfalso. rewrite (i_down _ _ _ _ _ _ _ _ _ _ I), Esegs in Er. rewrite app_nil_r in H.
                destruct (workers W (at_ j w)) as [|j1 w1 p1|e1]; cbn in H; try (destruct pre; discriminate).
                destruct pre as [|? [|? ?]]; try discriminate. injection H as -> ->. cbn [body flat concat map] in Er. rewrite app_nil_r in Er.
                assert (has_room (capd (at_ j w)) (map (@DOp K) (chans (S j) Mgr (Wk w))) = true); [|congruence].
                revert Er'. apply room_less. rewrite map_length. lia.
             ++ clear IHl0. rewrite app_assoc in H. apply app_inj_tail in H. destruct H as [_ ->].
                apply (pending_moves W S segs T N (at_ j w) j w I); [rewrite Esegs; apply in_or_app; right; left; reflexivity|exact IH].
          -- exfalso. apply app_eq_nil in H'. destruct H' as [H1 H2]. rewrite (i_down _ _ _ _ _ _ _ _ _ _ I), H2 in Er.
             assert (has_room (capd (at_ j w)) (body S (workers W (at_ j w)) ++ flat S []) = true); [|congruence].
             revert Er'. apply room_less. destruct (workers W (at_ j w)); cbn in H1 |- *; try discriminate; lia.
      + assert (Eu := i_ups _ _ _ _ _ _ _ _ _ _ I j w Huj Hw). rewrite <- Eu in He. destruct (ups W (at_ j w)) as [|m l] eqn:E; [discriminate|].
        exists (AThread j). cbn [M_Jobs.wexec]. unfold thread_step. apply has_in in Hw. rewrite Ht, Hw, E. eexists. split; [reflexivity|exact Logic.I].
    - assert (Hw : In v (ws j)).
      { destruct (existsb (wid_eqb v) (ws j)) eqn:E; [apply has_in; exact E|exfalso]. unfold M_Net.exec in He.
        rewrite (idle_alone (S j) j v (i_alone _ _ _ _ _ _ _ _ _ _ I j)) in He; [discriminate|]. intros H. apply has_in in H. congruence. }
      assert (Hst : threads W j <> None) by (destruct Ht as [-> | ->]; discriminate).
      destruct (i_class _ _ _ _ _ _ _ _ _ _ I j v Hst Hw) as [H|[H|[[p' H]|[r H]]]].
      + destruct Ht as [Ht|Ht]; rewrite Ht in H; destruct H.
      + exact (pending_moves W S segs T N (at_ j v) j v I H IH).
      + exact (worker_moves W S segs T N (at_ j v) j v p' s' I H He).
      + unfold M_Net.exec in He. rewrite H in He. discriminate.
  Qed.
  Lemma job_moves W S segs T N : inv W S segs T N -> forall n j, T j = n -> incomplete W segs j -> moves W.
  Proof.
    intros I n. induction n as [n IHn] using (well_founded_induction lt_wf). intros j Hn Hi.
    assert (IH : forall j', (T j' < T j)%nat -> incomplete W segs j' -> moves W) by (intros j' Hj'; apply (IHn (T j')); [lia|reflexivity]).
    assert (Ht := i_thread _ _ _ _ _ _ _ _ _ _ I j). destruct (threads W j) as [[[|w rest]|p|p]|] eqn:Et.
    - exists (AThread j). cbn [M_Jobs.wexec]. unfold thread_step. rewrite Et. eexists. split; [reflexivity|exact Logic.I].
    - destruct (has_room (capd (at_ j w)) (downs W (at_ j w))) eqn:Er.
      + exists (AThread j). cbn [M_Jobs.wexec]. unfold thread_step. rewrite Et, Er. eexists. split; [reflexivity|exact Logic.I].
      + destruct (i_rest _ _ _ _ _ _ _ _ _ _ I j _ Et) as [_ Hincl]. assert (Hw : In w (ws j)) by (apply Hincl; left; reflexivity).
        destruct (workers W (at_ j w)) as [|j' w' p'|e] eqn:Ew.
        * apply (idle_moves W (at_ j w) Ew). intros E. rewrite E in Er. specialize (Hroom (at_ j w)). unfold fits in Hroom. destruct (capd (at_ j w)) as [c|]; cbn in Er; [|discriminate]. destruct c; [lia|discriminate].
        * apply (IH j').
          -- apply (i_later _ _ _ _ _ _ _ _ _ _ I j w (j', w')); [rewrite Et; left; reflexivity|exact Hw|]. rewrite Ew. left. reflexivity.
          -- right. exists (at_ j w), w'. rewrite Ew. left. reflexivity.
        * destruct (i_alive _ _ _ _ _ _ _ _ _ _ I _ e Ew).
    - destruct (Hclean j) as [b Hb]. destruct (i_alone _ _ _ _ _ _ _ _ _ _ I j) as [sched Hs]. destruct (Hb sched (S j) Hs) as [_ [[Hq _]|(x & s' & He)]].
      + exists (AThread j). cbn [M_Jobs.wexec]. unfold thread_step. rewrite Et. rewrite Ht in Hq. destruct p; try contradiction; (eexists; split; [reflexivity|exact Logic.I]).
      + apply (net_moves W S segs T N j x s' I He); [exists p; left; exact Et|exact IH].
    - destruct Hi as [Hi|(i & w & Hi)]; [rewrite Et in Hi; destruct Hi|]. destruct (i_queue _ _ _ _ _ _ _ _ _ _ I _ _ _ Hi) as (Hw & Ha & _).
      destruct (Hclean j) as [b Hb]. destruct (i_alone _ _ _ _ _ _ _ _ _ _ I j) as [sched Hs]. destruct (Hb sched (S j) Hs) as [_ [[_ Hq]|(x & s' & He)]].
      + destruct (Hq w Hw) as ([bk Hr] & _). apply in_app_or in Hi. destruct Hi as [Hi|Hi].
        * destruct (workers W i) as [|j1 w1 p1|e1] eqn:Ew; cbn in Hi; try contradiction. destruct Hi as [Hi|[]]. injection Hi as -> ->.
          rewrite (i_worker _ _ _ _ _ _ _ _ _ _ I _ _ _ _ Ew) in Hr. subst p1. exists (AWorker i). cbn [M_Jobs.wexec]. unfold worker_step. rewrite Ew. eexists. split; [reflexivity|exact Logic.I].
        * exfalso. rewrite (i_segs _ _ _ _ _ _ _ _ _ _ I i j w Hi) in Hr. destruct (worker_recv rsqrt (jobs j) w) as [k Hk]. congruence.
      + apply (net_moves W S segs T N j x s' I He); [exists p; right; exact Et|exact IH].
    - destruct Hi as [Hi|(i & w & Hi)]; [rewrite Et in Hi; destruct Hi|]. destruct (i_queue _ _ _ _ _ _ _ _ _ _ I _ _ _ Hi) as (_ & _ & Hn' & _). rewrite Et in Hn'. contradiction.
  Qed.
  Lemma jobs_settled acts W : wruns rsqrt capd capu capw jobs world0 acts = Some W ->
    (forall j, wexec W (AThread j) = None) -> (forall i, wexec W (AWorker i) = None) -> settled W.
  Proof.
    intros H H1 H2. destruct (inv_reached rsqrt capd capu capw jobs Hplaced Hclean acts W H) as (S & segs & T & N & I).
    assert (Hc : forall j, ~ incomplete W segs j).
    { intros j Hj. destruct (job_moves W S segs T N I (T j) j eq_refl Hj) as ([j'|j'|i'] & W' & E & Hs); [exact Hs|rewrite H1 in E; discriminate|rewrite H2 in E; discriminate]. }
    assert (Hu : forall j, ~ unf (threads W j)) by (intros j Hj; apply (Hc j); left; exact Hj).
    assert (Hq : forall i, cur (workers W i) ++ segs i = []).
    { intros i. destruct (cur (workers W i) ++ segs i) as [|[j w] l] eqn:E; [reflexivity|]. exfalso. apply (Hc j). right. exists i, w. rewrite E. left. reflexivity. }
    split.
    - intros j. specialize (Hu j). destruct (threads W j) as [[]|]; cbn in Hu; auto.
    - intros i. specialize (Hq i). assert (Hq' := Hq). apply app_eq_nil in Hq. destruct Hq as [Hq1 Hq2].
      assert (Ew : workers W i = WIdle). { destruct (workers W i) as [| |e] eqn:Ew; [reflexivity|discriminate|]. destruct (i_alive _ _ _ _ _ _ _ _ _ _ I i e Ew). }
      split; [destruct (i_taken _ _ _ _ _ _ _ _ _ _ I i) as [E|(j & w & Hj & _)]; [exact E|destruct (Hu j Hj)]|].
      split; [exact Ew|]. split; [rewrite (i_down _ _ _ _ _ _ _ _ _ _ I), Ew, Hq2; reflexivity|].
      apply (i_ups0 _ _ _ _ _ _ _ _ _ _ I). intros j w Hj. destruct (Hu j Hj).
  Qed.
End Progress.
