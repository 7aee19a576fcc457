(** An operation that begins before all connections are accepted never ends. *)
From Verif Require Import Base M_Kron M_Feed M_Measure M_Pool M_Net S_Net L_Net M_Worker S_Worker L_Worker1.

(** ** Programs by their sends *)
Section Sends.
  Context {M R : Type} (P : pid -> M -> Prop).
  Inductive sends {A} : proc pid M A -> Prop :=
  | s_ret a : sends (Ret a)
  | s_fail x : sends (Fail x)
  | s_send to m k : P to m -> sends k -> sends (Send to m k)
  | s_recv from k : (forall m, sends (k m)) -> sends (Recv from k).
  Lemma sends_bind {A B} (p : proc pid M A) (f : A -> proc pid M B) : sends p -> (forall a, sends (f a)) -> sends (pbind p f).
  Proof. intros Hp Hf. induction Hp; cbn [pbind]; [apply Hf|constructor|constructor; assumption|constructor; auto]. Qed.
  Lemma sends_lift {A} (r : res A) : sends (lift r).
  Proof. destruct r; constructor. Qed.
  Lemma sends_fold {A B} (f : A -> B -> proc pid M A) l : (forall a b, In b l -> sends (f a b)) -> forall a, sends (pfold f l a).
  Proof. induction l as [|b l IH]; intros H a; cbn [pfold]; [constructor|]. apply sends_bind; [apply H; left; reflexivity|]. intros a'. apply IH. intros; apply H; right; assumption. Qed.
End Sends.

Section Race.
  Context {K : Type} {OK : OrdRing K}.
  Notation msg := (msg K).
  Notation proc := (proc pid msg).
  Definition to_partner (reg : list wid) (to : pid) (m : msg) : Prop := match to with Mgr => exists c, m = MConf c | Wk x => In x reg end.
  Notation ok reg := (sends (to_partner reg)).

  Section Worker.
    Context (reg : list wid).
    Lemma ok_inner {A} fuel : forall job vec x chunk window inflight last (k : Z -> Z -> proc A), In x reg -> (forall a b, ok reg (k a b)) -> ok reg (send_inner fuel job vec (Wk x) chunk window inflight last k).
    Proof. induction fuel as [|fuel IH]; intros; cbn [send_inner]; destruct (_ && _); auto; [constructor|]. constructor; [assumption|]. apply IH; assumption. Qed.
    Lemma ok_outer fuel : forall job vec x chunk window inflight last, In x reg -> ok reg (send_outer fuel job vec (Wk x) chunk window inflight last).
    Proof. induction fuel as [|fuel IH]; intros; cbn [send_outer]; destruct (_ <? _); try constructor. apply ok_inner; [assumption|]. intros a b. constructor. intros [op|c|j ch wd|j rel data dn]; try constructor. destruct (negb _); [constructor|]. apply IH. assumption. Qed.
    Lemma ok_send_state job vec x : In x reg -> ok reg (send_state job vec (Wk x)).
    Proof. intros H. unfold send_state. constructor. intros [op|c|j ch wd|j rel data dn]; try constructor. destruct (negb _); [constructor|]. apply ok_outer, H. Qed.
    Lemma ok_receive_loop fuel : forall job vec x ow chunk window, In x reg -> ok reg (receive_loop fuel job vec (Wk x) ow chunk window).
    Proof.
      induction fuel as [|fuel IH]; intros; cbn [receive_loop]; [constructor|]. constructor. intros [op|c|j ch wd|j rel data dn]; try constructor. apply sends_bind; [apply sends_lift|]. intros v. constructor; [assumption|]. destruct dn; [constructor|]. apply IH. assumption.
    Qed.
    Lemma ok_receive_state job vec x ow chunk window : In x reg -> ok reg (receive_state job vec (Wk x) ow chunk window).
    Proof. intros H. unfold receive_state. constructor; [exact H|]. apply ok_receive_loop, H. Qed.
    Lemma found_registered key y : find_worker reg key = Some y -> y = Wk key /\ In key reg.
    Proof. unfold find_worker. destruct (existsb (wid_eqb key) reg) eqn:E; [|discriminate]. intros X. injection X as <-. split; [reflexivity|]. apply existsb_exists in E. destruct E as (x & Hx & E). apply wid_eqb_ok in E. subst. exact Hx. Qed.
    Lemma ok_sync c b up ow : c_reg c = reg -> ok reg (worker_sync c b up ow).
    Proof.
      intros Hr. unfold worker_sync. destruct (c_id c) as [input output]. destruct (_ && _).
      - apply sends_bind.
        + destruct ow; [constructor|]. unfold receive_state_increments_from_all. apply sends_fold. intros v w Hw. apply ok_receive_state. rewrite Hr in Hw. apply filter_In in Hw. apply Hw.
        + intros v. apply sends_bind; [|constructor]. destruct (threshold_of up).
          * unfold send_state_up_to. apply sends_fold. intros u w Hw. rewrite Hr in Hw. apply filter_In in Hw. destruct (_ <=? _); [constructor|]. apply ok_send_state, Hw.
          * unfold send_state_to_all. apply sends_fold. intros u w Hw. rewrite Hr in Hw. apply filter_In in Hw. apply ok_send_state, Hw.
      - apply sends_bind.
        + destruct ow; [constructor|]. unfold send_state_to_one. destruct (find_worker _ _) as [y|] eqn:E; [|constructor]. rewrite Hr in E. apply found_registered in E. destruct E as [-> E]. apply ok_send_state, E.
        + intros u. destruct (match threshold_of up with Some _ => _ | None => _ end); [|constructor]. apply sends_bind; [|constructor].
          unfold receive_state_from_one. destruct (find_worker _ _) as [y|] eqn:E; [|constructor]. rewrite Hr in E. apply found_registered in E. destruct E as [-> E]. apply ok_receive_state, E.
    Qed.
    Lemma ok_op rsqrt c ev b op : c_reg c = reg -> ok reg (worker_op rsqrt c ev b op).
    Proof. intros Hr. destruct op as [mats|m| |up ow|]; cbn [worker_op]; try constructor; try apply sends_lift. apply sends_bind; [apply ok_sync, Hr|]. intros; constructor. Qed.
    Lemma ok_run rsqrt c : c_reg c = reg -> forall envs b, ok reg (worker_run rsqrt c envs b).
    Proof.
      intros Hr. induction envs as [|ev envs IH]; intros b; cbn [worker_run]; constructor; intros [op|cf|j ch wd|j rel data dn]; try constructor.
      - destruct op; constructor.
      - destruct op; [| | | |constructor]; (apply sends_bind; [apply ok_op, Hr|]; intros bc; constructor; [eexists; reflexivity|apply IH]).
    Qed.
  End Worker.

  (** ** The manager and one worker *)
  Context (e : wid).
  Inductive action := SA (m : msg) | RA.
  (** exactly these sends to and receptions from worker e, then the end; confirmations are received *)
  Inductive does {A} : list action -> proc A -> Prop :=
  | d_ret a : does [] (Ret a)
  | d_send m tr k : does tr k -> does (SA m :: tr) (Send (Wk e) m k)
  | d_recv tr k : (forall c, does tr (k (MConf c))) -> does (RA :: tr) (Recv (Wk e) k)
  | d_send_o w m tr k : w <> e -> does tr k -> does tr (Send (Wk w) m k)
  | d_recv_o w tr k : w <> e -> (forall c, does tr (k (MConf c))) -> does tr (Recv (Wk w) k).
  (** these come first *)
  Inductive talk {A} : list action -> proc A -> Prop :=
  | t_done p : talk [] p
  | t_send m tr k : talk tr k -> talk (SA m :: tr) (Send (Wk e) m k)
  | t_recv tr k : (forall c, talk tr (k (MConf c))) -> talk (RA :: tr) (Recv (Wk e) k)
  | t_send_o w m tr k : w <> e -> talk tr k -> talk tr (Send (Wk w) m k)
  | t_recv_o w tr k : w <> e -> (forall c, talk tr (k (MConf c))) -> talk tr (Recv (Wk w) k).
  Lemma does_bind {A B} tr tr' (p : proc A) (f : A -> proc B) : does tr p -> (forall a, does tr' (f a)) -> does (tr ++ tr') (pbind p f).
  Proof. intros Hp Hf. induction Hp; cbn [pbind app]; [apply Hf|constructor; assumption|constructor; auto|constructor; assumption|constructor; auto]. Qed.
  Lemma does_try {A B} tr (p : proc A) (f : A -> proc B) h : does tr p -> talk tr (ptry p f h).
  Proof. intros Hp. induction Hp; cbn [ptry]; [apply t_done|apply t_send; assumption|apply t_recv; auto|apply t_send_o; assumption|apply t_recv_o; auto]. Qed.
  Lemma talk_prefix {A} tr tr' (p : proc A) : talk (tr ++ tr') p -> talk tr p.
  Proof.
    intros H. remember (tr ++ tr') as l eqn:E. revert tr E. induction H as [p|m l k H IH|l k H IH|w m l k Hw H IH|w l k Hw H IH]; intros tr E.
    - symmetry in E. apply app_eq_nil in E. destruct E as [-> _]. constructor.
    - destruct tr as [|a tr]; [constructor|]. cbn [app] in E. injection E as <- ->. constructor. apply IH. reflexivity.
    - destruct tr as [|a tr]; [constructor|]. cbn [app] in E. injection E as <- ->. constructor. intros c. apply IH. reflexivity.
    - apply t_send_o; [exact Hw|]. apply IH, E.
    - apply t_recv_o; [exact Hw|]. intros c. apply IH, E.
  Qed.
  Lemma does_sends_none op ws : ~ In e ws -> does [] (@send_to_each_of K op ws).
  Proof.
    unfold send_to_each_of. induction ws as [|w ws IH]; intros H; cbn [pfold]; [constructor|]. cbn [pbind]. apply d_send_o; [intros ->; apply H; left; reflexivity|]. apply IH. intros X; apply H; right; exact X.
  Qed.
  Lemma does_sends op ws : NoDup ws -> In e ws -> does [SA (MOp op)] (@send_to_each_of K op ws).
  Proof.
    unfold send_to_each_of. induction ws as [|w ws IH]; intros Hn H; [destruct H|]. inversion Hn as [|x y Hx Hy]; subst. cbn [pfold pbind]. destruct H as [->|H].
    - apply d_send. apply (does_sends_none op ws Hx).
    - apply d_send_o; [intros ->; contradiction|]. apply IH; assumption.
  Qed.
  Lemma does_receives_none ws : ~ In e ws -> forall cs, does [] (pfold (fun confs w => Recv (Wk w) (fun m => match m with MConf c => Ret (confs ++ [c]) | _ => Fail GenericException end)) ws cs : proc (list (conf K))).
  Proof.
    induction ws as [|w ws IH]; intros H cs; cbn [pfold]; [constructor|]. cbn [pbind]. apply d_recv_o; [intros ->; apply H; left; reflexivity|]. intros c. apply IH. intros X; apply H; right; exact X.
  Qed.
  Lemma does_receives ws : NoDup ws -> In e ws -> forall cs, does [RA] (pfold (fun confs w => Recv (Wk w) (fun m => match m with MConf c => Ret (confs ++ [c]) | _ => Fail GenericException end)) ws cs : proc (list (conf K))).
  Proof.
    induction ws as [|w ws IH]; intros Hn H cs; [destruct H|]. inversion Hn as [|x y Hx Hy]; subst. cbn [pfold pbind]. destruct H as [->|H].
    - apply d_recv. intros c. apply (does_receives_none ws Hx).
    - apply d_recv_o; [intros ->; contradiction|]. intros c. apply IH; assumption.
  Qed.
  Lemma does_map op ws : NoDup ws -> In e ws -> does [SA (MOp op); RA] (@map_workers_via_op K op ws).
  Proof. intros Hn H. apply (does_bind [SA (MOp op)] [RA]); [apply does_sends; assumption|]. intros _. apply does_receives; assumption. Qed.

  Context (cap : pid -> pid -> option nat) (ws : list wid) (cfg : wid -> worker_cfg) (rsqrt : K -> K).
  Let d : wid := (snd e, snd e).
  Hypothesis Hnd : NoDup ws.
  Hypothesis He : In e ws.
  Hypothesis Hoff : range_eqb (fst e) (snd e) = false.
  Hypothesis Hid : c_id (cfg e) = e.
  Hypothesis Hed : In d (c_reg (cfg e)).
  Hypothesis Hde : ~ In e (c_reg (cfg d)).
  Context (kron : wop K) (Hk : exists mats, kron = OKron mats).
  Let Sy : wop K := OSync (Some 0) false.
  Notation stt := (net pid msg (ending K)).

  Definition confs_only (l : list msg) : Prop := forall m, In m l -> exists c, m = MConf c.
  Definition base2 (s : stt) : Prop :=
    (forall w, sends (to_partner (c_reg (cfg w))) (procs s (Wk w))) /\
    (forall w, confs_only (chans s (Wk w) Mgr)).
  Definition base (s : stt) : Prop := base2 s /\ chans s (Wk d) (Wk e) = [].
  Definition stage (s : stt) (tr : list action) (cm ce : list msg) (pe : proc (ending K) -> Prop) : Prop :=
    talk tr (procs s Mgr) /\ chans s Mgr (Wk e) = cm /\ chans s (Wk e) Mgr = ce /\ pe (procs s (Wk e)).
  Definition runs_e (p : proc (ending K)) : Prop := exists envs b, p = worker_run rsqrt (cfg e) envs b.
  Definition replies (p : proc (ending K)) : Prop := (exists x, p = Fail x) \/ exists c q, p = Send Mgr (MConf c) q /\ runs_e q.
  Definition waits (p : proc (ending K)) : Prop := (exists x, p = Fail x) \/ exists k, p = Recv (Wk d) k.
  Definition stages (s : stt) : Prop :=
    stage s [SA (MOp kron); RA; SA (MOp Sy); RA] [] [] runs_e \/
    stage s [RA; SA (MOp Sy); RA] [MOp kron] [] runs_e \/
    stage s [RA; SA (MOp Sy); RA] [] [] replies \/
    (exists c, stage s [RA; SA (MOp Sy); RA] [] [MConf c] runs_e) \/
    stage s [SA (MOp Sy); RA] [] [] runs_e \/
    stage s [RA] [MOp Sy] [] runs_e \/
    stage s [RA] [] [] waits.

  Lemma set1_same {A} (f : pid -> A) p a : set1 pid_eqb f p a p = a.
  Proof. unfold set1. replace (pid_eqb p p) with true; [reflexivity|]. symmetry. apply pid_eqb_ok. reflexivity. Qed.
  Lemma set1_other {A} (f : pid -> A) p q a : q <> p -> set1 pid_eqb f p a q = f q.
  Proof. unfold set1. intros H. destruct (pid_eqb q p) eqn:E; [apply pid_eqb_ok in E; contradiction|reflexivity]. Qed.
  Lemma set2_same {A} (f : pid -> pid -> A) p q a : set2 pid_eqb f p q a p q = a.
  Proof. unfold set2. replace (pid_eqb p p) with true by (symmetry; apply pid_eqb_ok; reflexivity). replace (pid_eqb q q) with true by (symmetry; apply pid_eqb_ok; reflexivity). reflexivity. Qed.
  Lemma set2_other {A} (f : pid -> pid -> A) p q x y a : x <> p \/ y <> q -> set2 pid_eqb f p q a x y = f x y.
  Proof. unfold set2. intros H. destruct (pid_eqb x p) eqn:E1; [|reflexivity]. destruct (pid_eqb y q) eqn:E2; [|reflexivity]. apply pid_eqb_ok in E1, E2. destruct H; contradiction. Qed.

  Lemma exec_base2 s i s' : base2 s -> exec pid_eqb cap s i = Some s' -> base2 s'.
  Proof.
    intros (B1 & B2). unfold exec. destruct (procs s i) as [r|x|to m k|from k] eqn:Ep; try discriminate.
    - destruct (has_room _ _); [|discriminate]. intros X. injection X as <-. split; cbn [procs chans].
      + intros w. destruct i as [|v]; [rewrite set1_other by discriminate; apply B1|]. assert (Bv := B1 v). rewrite Ep in Bv. destruct (wid_eqb w v) eqn:E; [apply wid_eqb_ok in E; subst v; rewrite set1_same; inversion Bv; assumption|].
        rewrite set1_other; [apply B1|]. intros X. injection X as ->. assert (wid_eqb v v = true) by (apply wid_eqb_ok; reflexivity). congruence.
      + intros w. destruct i as [|v]; [rewrite set2_other by (left; discriminate); apply B2|]. destruct to as [|t]; [|rewrite set2_other by (right; discriminate); apply B2].
        destruct (wid_eqb w v) eqn:E; [apply wid_eqb_ok in E; subst v; rewrite set2_same|rewrite set2_other; [apply B2|left; intros X; injection X as ->; assert (wid_eqb v v = true) by (apply wid_eqb_ok; reflexivity); congruence]].
        intros m' H. apply in_app_iff in H. destruct H as [H|[<-|[]]]; [apply (B2 w); exact H|]. assert (Bv := B1 w). rewrite Ep in Bv. inversion Bv as [| |to' m'' k' Hp| ]; subst. exact Hp.
    - destruct (chans s from i) as [|m l] eqn:Ec; [discriminate|]. intros X. injection X as <-. split; cbn [procs chans].
      + intros w. destruct i as [|v]; [rewrite set1_other by discriminate; apply B1|]. assert (Bv := B1 v). rewrite Ep in Bv. destruct (wid_eqb w v) eqn:E; [apply wid_eqb_ok in E; subst v; rewrite set1_same; inversion Bv; auto|].
        rewrite set1_other; [apply B1|]. intros X. injection X as ->. assert (wid_eqb v v = true) by (apply wid_eqb_ok; reflexivity). congruence.
      + intros w. destruct (pid_eqb i Mgr) eqn:Ei; [|rewrite set2_other; [apply B2|right; intros X; subst i; cbn in Ei; discriminate]]. apply pid_eqb_ok in Ei. subst i.
        destruct (pid_eqb (Wk w) from) eqn:Ef; [|rewrite set2_other; [apply B2|left; intros X; subst from; assert (pid_eqb (Wk w) (Wk w) = true) by (apply pid_eqb_ok; reflexivity); congruence]]. apply pid_eqb_ok in Ef. subst from. rewrite set2_same. intros m' H. apply (B2 w). rewrite Ec. right. exact H.
  Qed.

  Lemma exec_base s i s' : base s -> exec pid_eqb cap s i = Some s' -> base s'.
  Proof.
    intros (B & B3) Hx. split; [eapply exec_base2; eassumption|]. destruct B as (B1 & B2). revert Hx. unfold exec. destruct (procs s i) as [r|x|to m k|from k] eqn:Ep; try discriminate.
    - destruct (has_room _ _); [|discriminate]. intros X. injection X as <-. cbn [procs chans].
      destruct (pid_eqb i (Wk d)) eqn:Ei; [|rewrite set2_other; [exact B3|left; intros X; subst i; assert (pid_eqb (Wk d) (Wk d) = true) by (apply pid_eqb_ok; reflexivity); congruence]]. apply pid_eqb_ok in Ei. subst i.
        rewrite set2_other; [exact B3|]. right. intros X. subst to. assert (Bv := B1 d). rewrite Ep in Bv. inversion Bv as [| |to' m'' k' Hp| ]; subst. exact (Hde Hp).
    - destruct (chans s from i) as [|m l] eqn:Ec; [discriminate|]. intros X. injection X as <-. cbn [procs chans].
      destruct (pid_eqb i (Wk e)) eqn:Ei; [|rewrite set2_other; [exact B3|right; intros X; subst i; assert (pid_eqb (Wk e) (Wk e) = true) by (apply pid_eqb_ok; reflexivity); congruence]]. apply pid_eqb_ok in Ei. subst i.
        rewrite set2_other; [exact B3|]. left. intros X. subst from. rewrite B3 in Ec. discriminate.
  Qed.

  (** a step of another worker *)
  Lemma exec_other s w s' tr cm ce pe : w <> e -> stage s tr cm ce pe -> exec pid_eqb cap s (Wk w) = Some s' -> stage s' tr cm ce pe.
  Proof.
    intros Hw (T & C1 & C2 & Pe). assert (Hw' : Wk e <> Wk w) by congruence. unfold exec. destruct (procs s (Wk w)) as [r|x|to m k|from k]; try discriminate.
    - destruct (has_room _ _); [|discriminate]. intros X. injection X as <-. unfold stage. cbn [procs chans]. rewrite !set1_other by (assumption || discriminate). rewrite !set2_other by (left; (assumption || discriminate)). auto.
    - destruct (chans s from (Wk w)) as [|m l]; [discriminate|]. intros X. injection X as <-. unfold stage. cbn [procs chans]. rewrite !set1_other by (assumption || discriminate). rewrite !set2_other by (right; (assumption || discriminate)). auto.
  Qed.
  (** a step of the manager that does not concern worker e, or one that does *)
  Lemma exec_mgr s s' a tr cm ce pe : base2 s -> stage s (a :: tr) cm ce pe -> exec pid_eqb cap s Mgr = Some s' ->
    stage s' (a :: tr) cm ce pe \/
    (exists m, a = SA m /\ stage s' tr (cm ++ [m]) ce pe) \/
    (exists c ce', a = RA /\ ce = MConf c :: ce' /\ stage s' tr cm ce' pe).
  Proof.
    intros (B1 & B2) (T & C1 & C2 & Pe). unfold exec. inversion T as [p|m tr' k T' E1 E2|tr' k T' E1 E2|w m tr' k Hw T' E1 E2|w tr' k Hw T' E1 E2]; subst.
    - destruct (has_room _ _); [|discriminate]. intros X. injection X as <-. right. left. exists m. split; [reflexivity|]. unfold stage. cbn [procs chans]. rewrite set1_same, set1_other, set2_same, set2_other by (discriminate || (left; discriminate)). auto.
    - destruct (chans s (Wk e) Mgr) as [|m l] eqn:Ec; [discriminate|]. intros X. injection X as <-. right. right. destruct (B2 e m) as (c & ->); [rewrite Ec; left; reflexivity|]. exists c, l. split; [reflexivity|]. split; [reflexivity|].
      unfold stage. cbn [procs chans]. rewrite set1_same, set1_other, set2_same, set2_other by (discriminate || (left; discriminate)). auto.
    - destruct (has_room _ _); [|discriminate]. intros X. injection X as <-. left. unfold stage. cbn [procs chans]. rewrite set1_same, set1_other by discriminate. rewrite !set2_other by (left; discriminate) || (right; congruence). auto.
    - destruct (chans s (Wk w) Mgr) as [|m l] eqn:Ec; [discriminate|]. intros X. injection X as <-. left. destruct (B2 w m) as (c & ->); [rewrite Ec; left; reflexivity|].
      unfold stage. cbn [procs chans]. rewrite set1_same, set1_other by discriminate. rewrite !set2_other by (left; congruence). auto.
  Qed.

  Lemma sync_waits ev envs b : waits (pbind (worker_op rsqrt (cfg e) ev b Sy) (fun bc => Send Mgr (MConf (snd bc)) (worker_run rsqrt (cfg e) envs (fst bc)))).
  Proof.
    right. unfold Sy. cbn [worker_op]. unfold worker_sync. rewrite Hid. assert (Ee : e = (fst e, snd e)) by (destruct e; reflexivity).
    destruct e as [input output] eqn:E. cbn [fst snd] in *. unfold range_eqb in Hoff. rewrite Hoff. unfold send_state_to_one, find_worker.
    assert (X : existsb (wid_eqb (output, output)) (c_reg (cfg (input, output))) = true). { apply existsb_exists. exists (output, output). split; [exact Hed|]. apply wid_eqb_ok. reflexivity. }
    rewrite X. unfold send_state. cbn [pbind]. eexists. reflexivity.
  Qed.

  Lemma exec_stages s i s' : base s -> stages s -> exec pid_eqb cap s i = Some s' -> stages s'.
  Proof.
    intros B St Hx. destruct (pid_eqb i Mgr) eqn:Ei.
    { apply pid_eqb_ok in Ei. subst i. unfold stages in *. destruct St as [St|[St|[St|[(c & St)|[St|[St|St]]]]]];
        destruct (exec_mgr s s' _ _ _ _ _ (proj1 B) St Hx) as [H|[(m & E & H)|(c' & ce' & E & E' & H)]]; try discriminate E; try discriminate E'; try (injection E as <-); cbn [app] in H; eauto 10.
      injection E' as <- <-. auto 10. }
    destruct i as [|w]; [discriminate|]. destruct (wid_eqb w e) eqn:Ew.
    2:{ assert (Hw : w <> e). { intros ->. assert (wid_eqb e e = true) by (apply wid_eqb_ok; reflexivity). congruence. }
        unfold stages in *. destruct St as [St|[St|[St|[(c & St)|[St|[St|St]]]]]]; assert (H := exec_other s w s' _ _ _ _ Hw St Hx); eauto 10. }
    apply wid_eqb_ok in Ew. subst w. destruct B as ((B1 & B2) & B3). unfold exec in Hx.
    unfold stages in *. destruct St as [St|[St|[St|[(c & St)|[St|[St|St]]]]]]; destruct St as (T & C1 & C2 & Pe).
    - destruct Pe as (envs & b & Pe). rewrite Pe in Hx. replace (worker_run rsqrt (cfg e) envs b) with (Recv Mgr (fun m => match m with MOp OClose => Ret (EWorker b) | MOp op => match envs with [] => Fail OutOfFuel | ev :: envs => pbind (worker_op rsqrt (cfg e) ev b op) (fun bc => Send Mgr (MConf (snd bc)) (worker_run rsqrt (cfg e) envs (fst bc))) end | _ => Fail GenericException end)) in Hx by (destruct envs; reflexivity). rewrite C1 in Hx. discriminate.
    - destruct Pe as (envs & b & Pe). rewrite Pe in Hx. replace (worker_run rsqrt (cfg e) envs b) with (Recv Mgr (fun m => match m with MOp OClose => Ret (EWorker b) | MOp op => match envs with [] => Fail OutOfFuel | ev :: envs => pbind (worker_op rsqrt (cfg e) ev b op) (fun bc => Send Mgr (MConf (snd bc)) (worker_run rsqrt (cfg e) envs (fst bc))) end | _ => Fail GenericException end)) in Hx by (destruct envs; reflexivity). rewrite C1 in Hx. injection Hx as <-.
      right. right. left. unfold stage. cbn [procs chans]. rewrite set1_same, set1_other, set2_same, set2_other by (discriminate || (left; discriminate)). split; [exact T|]. split; [reflexivity|]. split; [exact C2|].
      destruct Hk as (mats & ->). destruct envs as [|ev envs]; [left; eexists; reflexivity|]. cbn [worker_op]. destruct (bk_kronselect_dot _ _ _ _ _) as [b'|x]; cbn [lift pbind]; [right|left; eexists; reflexivity]. eexists. eexists. split; [reflexivity|]. eexists. eexists. reflexivity.
    - destruct Pe as [(x & Pe)|(c & q & Pe & Pq)]; rewrite Pe in Hx; [discriminate|]. destruct (has_room _ _); [|discriminate]. injection Hx as <-.
      right. right. right. left. exists c. unfold stage. cbn [procs chans]. rewrite set1_same, set1_other, set2_same, set2_other by (discriminate || (left; discriminate)). rewrite C2. auto.
    - destruct Pe as (envs & b & Pe). rewrite Pe in Hx. replace (worker_run rsqrt (cfg e) envs b) with (Recv Mgr (fun m => match m with MOp OClose => Ret (EWorker b) | MOp op => match envs with [] => Fail OutOfFuel | ev :: envs => pbind (worker_op rsqrt (cfg e) ev b op) (fun bc => Send Mgr (MConf (snd bc)) (worker_run rsqrt (cfg e) envs (fst bc))) end | _ => Fail GenericException end)) in Hx by (destruct envs; reflexivity). rewrite C1 in Hx. discriminate.
    - destruct Pe as (envs & b & Pe). rewrite Pe in Hx. replace (worker_run rsqrt (cfg e) envs b) with (Recv Mgr (fun m => match m with MOp OClose => Ret (EWorker b) | MOp op => match envs with [] => Fail OutOfFuel | ev :: envs => pbind (worker_op rsqrt (cfg e) ev b op) (fun bc => Send Mgr (MConf (snd bc)) (worker_run rsqrt (cfg e) envs (fst bc))) end | _ => Fail GenericException end)) in Hx by (destruct envs; reflexivity). rewrite C1 in Hx. discriminate.
    - destruct Pe as (envs & b & Pe). rewrite Pe in Hx. replace (worker_run rsqrt (cfg e) envs b) with (Recv Mgr (fun m => match m with MOp OClose => Ret (EWorker b) | MOp op => match envs with [] => Fail OutOfFuel | ev :: envs => pbind (worker_op rsqrt (cfg e) ev b op) (fun bc => Send Mgr (MConf (snd bc)) (worker_run rsqrt (cfg e) envs (fst bc))) end | _ => Fail GenericException end)) in Hx by (destruct envs; reflexivity). rewrite C1 in Hx. injection Hx as <-.
      do 6 right. unfold stage. cbn [procs chans]. rewrite set1_same, set1_other, set2_same, set2_other by (discriminate || (left; discriminate)). split; [exact T|]. split; [reflexivity|]. split; [exact C2|].
      destruct envs as [|ev envs]; [left; eexists; reflexivity|]. exact (sync_waits ev envs b).
    - destruct Pe as [(x & Pe)|(k & Pe)]; rewrite Pe in Hx; [discriminate|]. rewrite B3 in Hx. discriminate.
  Qed.

  Lemma runs_stages : forall sched s s', base s -> stages s -> runs pid_eqb cap s sched = Some s' -> stages s'.
  Proof.
    induction sched as [|i sched IH]; intros s s' B St H; cbn [runs] in H; [injection H as <-; exact St|]. destruct (exec pid_eqb cap s i) as [t|] eqn:E; [|discriminate].
    apply (IH t); [eapply exec_base; eassumption|eapply exec_stages; eassumption|exact H].
  Qed.
  Lemma stages_unfinished s : stages s -> (forall x, procs s Mgr <> Ret x) /\ (forall x, procs s Mgr <> Fail x).
  Proof.
    intros St. assert (X : exists a tr, talk (a :: tr) (procs s Mgr)) by (destruct St as [St|[St|[St|[(c & St)|[St|[St|St]]]]]]; destruct St as (T & _); eauto).
    destruct X as (a & tr & T). split; intros x E; rewrite E in T; inversion T.
  Qed.
  Lemma race n r rest envs b sched s' : runs pid_eqb cap (job_net rsqrt n ws ((kron, r) :: rest) cfg envs b) sched = Some s' ->
    (forall x, procs s' Mgr <> Ret x) /\ (forall x, procs s' Mgr <> Fail x).
  Proof.
    intros H. apply stages_unfinished. apply (runs_stages _ _ _) in H; [exact H| |].
    - split; [split|].
      + intros w. cbn [job_net procs]. destruct (existsb (wid_eqb w) ws); [apply ok_run; reflexivity|constructor].
      + intros w m Hm. destruct Hm.
      + reflexivity.
    - left. split; [|split; [reflexivity|split; [reflexivity|]]].
      + cbn [job_net procs manager_run]. apply does_try. destruct Hk as (mats & ->). cbn [send_op]. unfold send_kronprod.
        apply (does_bind [SA (MOp (OKron mats)); RA; SA (MOp Sy); RA] []); [|intros; constructor]. apply (does_bind [SA (MOp (OKron mats)); RA] [SA (MOp Sy); RA]); [apply does_map; assumption|]. intros _.
        apply (does_bind [SA (MOp Sy); RA] []); [apply does_map; assumption|]. intros; constructor.
      + cbn [job_net procs]. replace (existsb (wid_eqb e) ws) with true; [eexists; eexists; reflexivity|]. symmetry. apply existsb_exists. exists e. split; [exact He|]. apply wid_eqb_ok. reflexivity.
  Qed.
End Race.
