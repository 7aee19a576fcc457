(** A worker that is not registered when its contribution is due: the job never ends. *)
From Verif Require Import Base M_Bits L_Bits M_Kron S_Kron L_Kron L_Kron2 L_Kron3 M_Feed M_Measure M_Pool S_Pool M_Net S_Net L_Net M_Worker S_Worker L_Worker1 L_Worker2 L_Worker3 L_Worker4 L_Worker5 L_Worker6 L_Job.

Section Join.
  Context {P M R : Type} (peqb : P -> P -> bool) (peqb_ok : forall a b, peqb a b = true <-> a = b) (cap : P -> P -> option nat).
  Notation net := (net P M R).
  Notation exec := (exec peqb cap).
  Notation runs := (runs peqb cap).
  Notation go := (go peqb cap).

  Lemma strip l : forall (s t a : net) i, exec s i = Some a -> steps peqb cap s l t -> exists u, go t u /\ go a u.
  Proof.
    induction l as [|j l IH]; intros s t a i E H; cbn in H.
    - destruct (exec_eqv peqb cap s t i a H E) as (t1 & E1 & He). exists t1. split; [exists [i]; cbn; exists t1; split; [exact E1|apply eqv_refl]|exists []; exact He].
    - destruct H as (s1 & Ej & H). destruct (peqb_dec peqb peqb_ok i j) as [->|Hij].
      + rewrite E in Ej. injection Ej as <-. exists t. split; [exists []; apply eqv_refl|exists l; exact H].
      + destruct (diamond peqb peqb_ok cap s i j a s1 Hij E Ej) as (c & d & Ec & Ed & He). destruct (IH s1 t d i Ed H) as (u & Gt & [l' Gd]). exists u. split; [exact Gt|].
        exists (j :: l'). cbn. exists c. split; [exact Ec|]. exact (steps_eqv_l peqb cap l' d c u (eqv_sym _ _ He) Gd).
  Qed.
  Lemma join sched : forall (s t s' : net), go s t -> runs s sched = Some s' -> exists u, go t u /\ go s' u.
  Proof.
    induction sched as [|i sched IH]; intros s t s' G E; cbn in E.
    - injection E as <-. exists t. split; [exists []; apply eqv_refl|exact G].
    - destruct (exec s i) as [a|] eqn:Ei; [|discriminate]. destruct G as [l G]. destruct (strip l s t a i Ei G) as (u & G1 & G2).
      destruct (IH a u s' G2 E) as (v & G3 & G4). exists v. split; [|exact G4]. eapply go_trans; eassumption.
  Qed.

  (** a process that never sends to [to] *)
  Inductive silent {A} (to : P) : proc P M A -> Prop :=
  | silent_ret r : silent to (Ret r)
  | silent_fail e : silent to (Fail e)
  | silent_send x m k : x <> to -> silent to k -> silent to (Send x m k)
  | silent_recv x k : (forall m, silent to (k m)) -> silent to (Recv x k).
  Lemma silent_bind {A B} to (p : proc P M A) (f : A -> proc P M B) : silent to p -> (forall a, silent to (f a)) -> silent to (pbind p f).
  Proof. intros H Hf. induction H; cbn [pbind]; [apply Hf| | |]; constructor; auto. Qed.
  Lemma silent_pfold {A B} to (f : A -> B -> proc P M A) l : (forall a b, In b l -> silent to (f a b)) -> forall a, silent to (pfold f l a).
  Proof. induction l as [|b l IH]; intros H a; cbn [pfold]; [constructor|]. apply silent_bind; [apply H; left; reflexivity|]. intros a'. apply IH. intros; apply H; right; assumption. Qed.
  Lemma silent_lift {A} to (r : res A) : silent to (lift r : proc P M A).
  Proof. destruct r; constructor. Qed.
  Lemma silent_peq {A} to (p q : proc P M A) : silent to p -> peq p q -> silent to q.
  Proof. intros H. revert q. induction H; intros q E; inversion E; subst; constructor; eauto. Qed.

  (** a process that must receive something from [from] before it can end *)
  Inductive waits {A} (from : P) : proc P M A -> Prop :=
  | waits_fail e : waits from (Fail e)
  | waits_send x m k : waits from k -> waits from (Send x m k)
  | waits_here k : waits from (Recv from k)
  | waits_recv x k : (forall m, waits from (k m)) -> waits from (Recv x k).
  Lemma waits_bind {A B} from (p : proc P M A) (f : A -> proc P M B) : waits from p -> waits from (pbind p f).
  Proof. intros H. induction H; cbn [pbind]; constructor; auto; fail. Qed.
  Lemma waits_later {A B} from (p : proc P M A) (f : A -> proc P M B) : (forall a, waits from (f a)) -> waits from (pbind p f).
  Proof. intros Hf. induction p; cbn [pbind]; [apply Hf| | |]; constructor; auto; fail. Qed.
  Lemma waits_peq {A} from (p q : proc P M A) : waits from p -> peq p q -> waits from q.
  Proof. intros H. revert q. induction H; intros q E; inversion E; subst; try (constructor; eauto; fail). Qed.

  Lemma waits_prel (HR : R -> proc P M R -> Prop) (HF : exn -> proc P M R -> Prop) from p q : (forall e q, HF e q -> waits from q) -> waits from p -> prel HR HF p q -> waits from q.
  Proof. intros HW H. revert q. induction H; intros q E; inversion E; subst; try (constructor; eauto; fail); eauto. Qed.

  (** w waits for d, which never sends to w; the manager g waits for w *)
  Definition blocked (g w d : P) (s : net) : Prop :=
    (exists k, procs s w = Recv d k) /\ chans s d w = [] /\ silent w (procs s d) /\ chans s w g = [] /\ waits w (procs s g).
  Lemma blocked_eqv g w d s t : eqv s t -> blocked g w d s -> blocked g w d t.
  Proof.
    intros [Hp Hc] ((k & H1) & H2 & H3 & H4 & H5). unfold blocked. rewrite <- !Hc. split; [|split; [exact H2|split; [eapply silent_peq; eauto|split; [exact H4|eapply waits_peq; eauto]]]].
    specialize (Hp w). rewrite H1 in Hp. inversion Hp. eauto.
  Qed.
  Lemma blocked_exec g w d s i s' : g <> w -> d <> w -> g <> d -> blocked g w d s -> exec s i = Some s' -> blocked g w d s'.
  Proof.
    intros Hgw Hdw Hgd ((k & H1) & H2 & H3 & H4 & H5) E. unfold M_Net.exec in E.
    assert (Hi : i <> w) by (intros ->; rewrite H1, H2 in E; discriminate).
    destruct (procs s i) as [r|e|to m q|from q] eqn:Ep; try discriminate.
    - destruct (has_room _ _); [|discriminate]. injection E as <-. unfold blocked. cbn [procs chans].
      assert (Hs : silent w (set1 peqb (procs s) i q d) /\ (i = d -> to <> w)).
      { destruct (peqb_dec peqb peqb_ok d i) as [->|Hd]; [rewrite (set1_eq peqb peqb_ok); rewrite Ep in H3; inversion H3; auto|]. rewrite (set1_ne peqb peqb_ok) by exact Hd. split; [exact H3|intros <-; contradiction]. }
      split; [exists k; rewrite (set1_ne peqb peqb_ok) by auto; exact H1|]. split; [|split; [apply Hs|split]].
      + rewrite (set2_ne peqb peqb_ok); [exact H2|]. intros E. injection E as -> <-. apply Hs; reflexivity.
      + rewrite (set2_ne peqb peqb_ok); [exact H4|]. intros E. injection E as -> _. contradiction.
      + destruct (peqb_dec peqb peqb_ok g i) as [->|Hd]; [rewrite (set1_eq peqb peqb_ok); rewrite Ep in H5; inversion H5; auto|]. rewrite (set1_ne peqb peqb_ok) by exact Hd. exact H5.
    - destruct (chans s from i) as [|m l] eqn:Ec; [discriminate|]. injection E as <-. unfold blocked. cbn [procs chans].
      split; [exists k; rewrite (set1_ne peqb peqb_ok) by auto; exact H1|]. split; [|split; [|split]].
      + rewrite (set2_ne peqb peqb_ok); [exact H2|]. intros E. injection E as _ <-. contradiction.
      + destruct (peqb_dec peqb peqb_ok d i) as [->|Hd]; [rewrite (set1_eq peqb peqb_ok); rewrite Ep in H3; inversion H3; auto|]. rewrite (set1_ne peqb peqb_ok) by exact Hd. exact H3.
      + rewrite (set2_ne peqb peqb_ok); [exact H4|]. intros E. injection E as <- <-. congruence.
      + destruct (peqb_dec peqb peqb_ok g i) as [->|Hd]; [|rewrite (set1_ne peqb peqb_ok) by exact Hd; exact H5]. rewrite (set1_eq peqb peqb_ok). rewrite Ep in H5.
        inversion H5 as [| |k' Ek|x k' Hk Ek]; subst; [congruence|apply Hk].
  Qed.
  Lemma blocked_go g w d s t : g <> w -> d <> w -> g <> d -> blocked g w d s -> go s t -> blocked g w d t.
  Proof.
    intros H1 H2 H3 Hb [l G]. revert s Hb G. induction l as [|i l IH]; intros s Hb G; cbn in G; [eapply blocked_eqv; eassumption|].
    destruct G as (s1 & E & G). eapply IH; [|exact G]. eapply blocked_exec; eassumption.
  Qed.
  Lemma ended_go (s t : net) i r : procs s i = Ret r -> go s t -> procs t i = Ret r.
  Proof.
    intros E [l G]. revert s E G. induction l as [|j l IH]; intros s E G; cbn in G.
    - destruct G as [Hp _]. specialize (Hp i). rewrite E in Hp. inversion Hp. reflexivity.
    - destruct G as (s1 & Ej & G). eapply IH; [|exact G]. unfold M_Net.exec in Ej. destruct (procs s j) eqn:Ep; try discriminate.
      + destruct (has_room _ _); [|discriminate]. injection Ej as <-. cbn [procs]. rewrite (set1_ne peqb peqb_ok); [exact E|]. intros ->. congruence.
      + destruct (chans s from j); [discriminate|]. injection Ej as <-. cbn [procs]. rewrite (set1_ne peqb peqb_ok); [exact E|]. intros ->. congruence.
  Qed.
  Lemma never_ends g w d (s t : net) sched s' r : g <> w -> d <> w -> g <> d -> go s t -> blocked g w d t -> runs s sched = Some s' -> procs s' g <> Ret r.
  Proof.
    intros H1 H2 H3 G Hb E Hr. destruct (join sched s t s' G E) as (u & G1 & G2). assert (Hu := blocked_go g w d t u H1 H2 H3 Hb G1). assert (Eu := ended_go s' u g r Hr G2).
    destruct Hu as (_ & _ & _ & _ & Hw). rewrite Eu in Hw. inversion Hw.
  Qed.
End Join.

Section Unregistered.
  Context {K : Type} {OK : OrdRing K}.
  Notation C := (Cx K).
  Notation msg := (msg K).
  Notation proc := (proc pid msg).
  Variable cap : pid -> pid -> option nat.
  Notation go := (go pid_eqb cap).

  Lemma silent_inner {A} w job (vec : list C) peer (k : Z -> Z -> proc A) : peer <> w -> (forall a b, silent w (k a b)) -> forall fuel c mi i l, silent w (send_inner fuel job vec peer c mi i l k).
  Proof. intros Hp Hk. induction fuel as [|fuel IH]; intros c mi i l; cbn [send_inner]; destruct (_ && _); auto; constructor; auto. Qed.
  Lemma silent_outer w job (vec : list C) peer : peer <> w -> forall fuel c mi i l, silent w (send_outer fuel job vec peer c mi i l).
  Proof.
    intros Hp. induction fuel as [|fuel IH]; intros c mi i l; cbn [send_outer]; destruct (_ <? _); try constructor. apply silent_inner; [exact Hp|]. intros a b. constructor. intros [| |j c' m'|]; try constructor. destruct (negb _); [constructor|apply IH].
  Qed.
  Lemma silent_send_state w job (vec : list C) peer : peer <> w -> silent w (send_state job vec peer).
  Proof. intros Hp. constructor. intros [| |j c m|]; try constructor. destruct (negb _); [constructor|apply silent_outer, Hp]. Qed.
  Lemma silent_loop w job peer ow c mi : peer <> w -> forall fuel (vec : list C), silent w (receive_loop fuel job vec peer ow c mi).
  Proof.
    intros Hp. induction fuel as [|fuel IH]; intros vec; cbn [receive_loop]; constructor. intros [| | |j rel data done]; try constructor. apply silent_bind; [apply silent_lift|]. intros v. constructor; [exact Hp|]. destruct done; [constructor|apply IH].
  Qed.
  Lemma silent_receive w job (vec : list C) peer ow c mi : peer <> w -> silent w (receive_state job vec peer ow c mi).
  Proof. intros Hp. constructor; [exact Hp|apply silent_loop, Hp]. Qed.
  Lemma in_filter_ne (w x : wid) f l : ~ In w l -> In x (filter f l) -> Wk x <> Wk w.
  Proof. intros Hn Hx E. injection E as ->. apply filter_In in Hx. tauto. Qed.
  Lemma find_ne w reg key peer : ~ In w reg -> find_worker reg key = Some peer -> peer <> Wk w.
  Proof.
    unfold find_worker. intros Hn. destruct (existsb (wid_eqb key) reg) eqn:E; [|discriminate]. intros H. injection H as <-. intros H. injection H as ->.
    apply Hn. apply existsb_exists in E. destruct E as (x & Hx & Ex). apply wid_eqb_ok in Ex. subst. exact Hx.
  Qed.
  Lemma silent_worker rsqrt (c : worker_cfg) w : ~ In w (c_reg c) -> forall envs (b : backend K), silent (Wk w) (worker_run rsqrt c envs b).
  Proof.
    intros Hn. assert (Hop : forall e (b : backend K) op, silent (Wk w) (worker_op rsqrt c e b op)).
    { intros e b op. destruct op as [mats|m| |up ow|]; cbn [worker_op]; try (apply silent_lift); try constructor. apply silent_bind; [|intros; constructor].
      unfold worker_sync. destruct (c_id c) as [i o]. destruct (_ && _).
      - apply silent_bind; [|intros v; apply silent_bind; [|intros; constructor]].
        + destruct ow; [constructor|]. apply silent_pfold. intros v x Hx. apply silent_receive. eapply in_filter_ne; eassumption.
        + destruct (threshold_of up); apply silent_pfold; intros u x Hx; [destruct (_ <=? _); [constructor|]|]; apply silent_send_state; eapply in_filter_ne; eassumption.
      - apply silent_bind.
        + destruct ow; [constructor|]. unfold send_state_to_one. destruct (find_worker _ _) eqn:E; [|constructor]. apply silent_send_state. eapply find_ne; eassumption.
        + intros _. destruct (match threshold_of up with Some _ => _ | None => _ end); [|constructor]. apply silent_bind; [|intros; constructor].
          unfold receive_state_from_one. destruct (find_worker _ _) eqn:E; [|constructor]. apply silent_receive. eapply find_ne; eassumption. }
    induction envs as [|e envs IH]; intros b; cbn [worker_run]; constructor; intros [op|cf|j x y|j x y z]; try constructor.
    - destruct op; constructor.
    - destruct op; try (apply silent_ret); apply silent_bind; try apply Hop; intros bc; (constructor; [discriminate|apply IH]).
  Qed.
  Lemma waits_receive w (l : list wid) : In w l -> forall acc, waits (Wk w) (pfold (fun confs w => Recv (Wk w) (fun m => match m with MConf c => Ret (confs ++ [c]) | _ => Fail GenericException end)) l acc : proc (list (conf K))).
  Proof.
    induction l as [|x l IH]; intros Hin acc; [destruct Hin|]. cbn [pfold pbind]. destruct Hin as [->|Hin]; [apply waits_here|]. apply waits_recv. intros [op|c|j y z|j y z q]; cbn [pbind]; try constructor. apply IH, Hin.
  Qed.

  Context (rsqrt : K -> K) (cfg : wid -> worker_cfg) (job : Z) (n bq : Z) (pool : list entry).
  Let ws : list wid := map fst pool.
  Let size := 2 ^ bq.
  Hypothesis Hbq : 0 <= bq <= n.
  Hypothesis Ht : tiles (2 ^ n) pool.
  Hypothesis Hb : blocks (2 ^ bq) pool.
  Hypothesis Hcfg : configured job ws cfg.
  Hypothesis Hcap : capacities cap ws 1.

  Lemma unregistered_blocks mats r jops envs bs (full : list C) w : In w ws -> fst w <> snd w -> In (snd w, snd w) (c_reg (cfg w)) -> ~ In w (c_reg (cfg (snd w, snd w))) ->
    zlen full = 2 ^ n -> (forall w, In w ws -> holds n full w (bs w)) -> mats_wf n mats -> (forall km, In km mats -> shape_ok km) -> rectangular (map fst (mats_groups mats)) = true ->
    (forall w, In w ws -> scheduled size 2 (envs w)) ->
    forall sched s', runs pid_eqb cap (job_net rsqrt n ws ((OKron mats, r) :: jops) cfg envs bs) sched = Some s' -> forall e, procs s' Mgr <> Ret e.
  Proof.
    intros Hw Hd Hrw Hrd Hf Hh Hm Hsh Hrect He sched s' Hrun e.
    assert (Hnd := Hnd n bq pool Hbq Ht Hb). fold ws in Hnd. assert (Hws := Hws n bq pool Hbq Ht Hb).
    assert (HD : In (snd w, snd w) ws) by (apply Hws; cbn; apply Hws in Hw; tauto).
    pose (b1 := fun w : wid => mkBackend n (kron_result n mats (slice (fst w) full) (fst (fst w)) (fst (snd w)) size) (slice (fst w) full)).
    pose (b1' := fun w : wid => if inb w ws then b1 w else bs w).
    pose (k3 := fun _ : list (conf K) => manager_run0 n ws jops ([] ++ [None]) ([] ++ [])).
    pose (k2 := fun _ : list (conf K) => pbind (map_workers_via_op (OSync (Some 0) false) ws) k3).
    assert (S00 := start_phase rsqrt cfg job pool (manager_run0 n ws ((OKron mats, r) :: jops) [] []) envs bs). fold ws in S00. fold (job_net0 rsqrt n ws ((OKron mats, r) :: jops) cfg envs bs) in S00.
    destruct (phase_recast cap ws job _ 0 _ _ (pbind (map_workers_via_op (OKron mats) ws) k2) (fun w => worker_run rsqrt (cfg w) (envs w) (bs w)) S00) as (t0 & G0 & S0).
    { cbn [manager_run0 send_op]. unfold send_kronprod, k2, k3. eapply peq_trans; [apply bind_assoc|]. eapply peq_trans; [apply bind_assoc|]. apply peq_bind; [apply peq_refl|]. intros c. eapply peq_trans; [apply bind_assoc|]. apply peq_bind; [apply peq_refl|]. intros c'. apply peq_refl. }
    { intros; apply peq_refl. }
    destruct (rpc_local cap rsqrt ws cfg job 1 Hcap t0 0 (OKron mats) ws k2 envs bs b1' (fun _ => CDone) Hnd (incl_refl _) ltac:(discriminate) S0) as (t1 & G1 & S1).
    { intros x Hx. destruct (He x Hx) as [Hl Hp]. destruct (envs x) as [|ev es]; [cbn in Hl; lia|]. exists ev, es. split; [reflexivity|].
      unfold b1'. assert (Hi := Hx). apply inb_ok in Hi. rewrite Hi. cbn [worker_op]. unfold bk_kronselect_dot.
      destruct (Hh x Hx) as (E1 & E2 & E3). destruct (Hcfg x Hx) as (_ & Eid & _). rewrite Eid. assert (Hsl := holds_length n bq pool Hbq Ht Hb full x _ Hf Hx (Hh x Hx)). fold size in Hsl.
      apply Hws in Hx. destruct Hx as [Hw1 Hw2]. destruct (range_bounds n bq Hbq _ Hw1) as [B1 B2]. destruct (range_bounds n bq Hbq _ Hw2) as [B3 B4]. fold size in B2, B4.
      rewrite E1, kronselect_dot_ok; [|lia|exact B1|exact B3|lia|lia|apply Hm|apply mats_wf_groups; auto|].
      - rewrite E3, Hsl, E2. reflexivity.
      - cbn. rewrite E3, Hsl. split; [apply Hp; left; reflexivity|exact Hrect]. }
    { intros x Hx. unfold b1'. apply inb_no in Hx. rewrite Hx. reflexivity. }
    apply phase_ext with (pw' := fun w => worker_run rsqrt (cfg w) (tl (envs w)) (b1' w)) in S1; [|intros x Hx; apply inb_ok in Hx; rewrite Hx; reflexivity].
    unfold k2 in S1.
    destruct (phase_recast cap ws job t1 0 _ _ (pbind (send_to_each_of (OSync (Some 0) false) ws) (fun _ => pbind (receive_from_each_of ws) k3)) (fun w => worker_run rsqrt (cfg w) (tl (envs w)) (b1' w)) S1) as (t2 & G2 & S2).
    { apply bind_assoc. } { intros; apply peq_refl. }
    destruct (rpc_begin cap rsqrt ws cfg job 1 Hcap t2 0 _ ws _ (fun w => tl (envs w)) b1' Hnd (incl_refl _) S2) as (t3 & G3 & S3).
    apply phase_ext with (pw' := fun w => body rsqrt cfg w (tl (envs w)) (b1' w) (OSync (Some 0) false)) in S3; [|intros x Hx; apply inb_ok in Hx; rewrite Hx; reflexivity].
    destruct (job_phase cap ws job rsqrt n _ cfg envs bs t3 _ _ _ (go_trans _ _ _ _ _ G0 (go_trans _ _ _ _ _ G1 (go_trans _ _ _ _ _ G2 G3))) S3) as (mq & t4 & G4 & S4 & Hmq).
    assert (Hbl : blocked Mgr (Wk w) (Wk (snd w, snd w)) t4).
    { destruct S4 as [H1 H2 H3 H4 H5]. split; [|split; [|split; [|split]]].
      - change (Wk w) with (P w). rewrite H2 by exact Hw. unfold body. destruct (He w Hw) as [Hl _]. destruct (envs w) as [|e1 [|e2 es]]; cbn in Hl; try lia. cbn [tl].
        destruct (Hcfg w Hw) as (_ & Eid & _). cbn [worker_op]. unfold worker_sync. rewrite Eid. destruct w as [i o] eqn:Ew. rewrite <- Ew in *.
        assert (Eb : (fst i =? fst o) && (snd i =? snd o) = false).
        { rewrite Ew in Hd. cbn in Hd. destruct (_ && _) eqn:E; [|reflexivity]. change (range_eqb i o = true) in E. apply range_eqb_ok in E. contradiction. }
        rewrite Eb. unfold send_state_to_one, find_worker. replace (o, o) with (snd w, snd w) by (rewrite Ew; reflexivity).
        replace (existsb (wid_eqb (snd w, snd w)) (c_reg (cfg w))) with true by (symmetry; apply existsb_exists; exists (snd w, snd w); split; [exact Hrw|apply wid_eqb_ok; reflexivity]).
        unfold send_state. cbn [pbind]. eexists. reflexivity.
      - destruct (H5 w Hw Hd) as (_ & _ & Hg & _). destruct Hg as [_ Hg]. apply length_zero_iff_nil. unfold P, D in Hg. lia.
      - change (Wk (snd w, snd w)) with (P (snd w, snd w)). rewrite H2 by exact HD. clear - Hrd.
        assert (Hs := silent_worker rsqrt (cfg (snd w, snd w)) w Hrd (tl (envs (snd w, snd w))) (b1' (snd w, snd w))).
        rewrite worker_run_eq in Hs. inversion Hs as [| | |x k Hk E1]. subst. exact (Hk (MOp (OSync (Some 0) false))).
      - apply H4, Hw.
      - rewrite H1. refine (waits_prel _ _ _ _ _ _ _ Hmq); [intros e0 q [l ->]; apply waits_later; intros; constructor|]. apply waits_bind. apply waits_receive, Hw. }
    refine (never_ends pid_eqb pid_eqb_ok cap Mgr (Wk w) (Wk (snd w, snd w)) _ t4 sched s' e _ _ _ _ Hbl Hrun); try discriminate.
    - intros E. injection E as E. apply Hd. rewrite <- E. reflexivity.
    - exact G4.
  Qed.
End Unregistered.
