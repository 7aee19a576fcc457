(** An operation a worker rejects never ends, whatever has been done before it. *)
From Verif Require Import Base M_Bits M_Kron S_Kron L_Kron3 M_Feed M_Measure M_Pool S_Pool M_Top M_Net S_Net L_Net M_Worker S_Worker L_Worker1 L_Worker5 L_Worker9 L_Worker10 M_Client S_Client L_Connect4 L_Failure1.

Section Reject.
  Context {K : Type} {OK : OrdRing K} (e : wid) (cap : pid -> pid -> option nat) (ws : list wid) (cfg : wid -> worker_cfg) (rsqrt : K -> K) (n : Z).
  Notation msg := (msg K).
  Notation proc := (proc pid msg).
  Notation stt := (net pid msg (ending K)).
  Hypothesis Hnd : NoDup ws.
  Hypothesis He : In e ws.
  Hypothesis Hd : fst e = snd e.
  (** the rejected operation; [F]: the manager may fail before it *)
  Context (fatal : wop K) (F : Prop).
  Hypothesis Hclose : fatal <> OClose.
  Hypothesis Hrej : forall ev b, bk_n b = n -> exists x, worker_op rsqrt (cfg e) ev b fatal = Fail x.

  (** ** The manager *)
  (** asks worker e and waits for its reply, one operation after the other; [a], [a']: the reply is outstanding before and after *)
  Inductive speaks {A} (Q : A -> Prop) : bool -> bool -> proc A -> Prop :=
  | sp_ret a x : Q x -> speaks Q a a (Ret x)
  | sp_fail a a' x : F -> speaks Q a a' (Fail x)
  | sp_send a' op k : op <> OClose -> speaks Q true a' k -> speaks Q false a' (Send (Wk e) (MOp op) k)
  | sp_recv a' k : (forall c, speaks Q false a' (k (MConf c))) -> speaks Q true a' (Recv (Wk e) k)
  | sp_send_o a a' w m k : w <> e -> speaks Q a a' k -> speaks Q a a' (Send (Wk w) m k)
  | sp_recv_o a a' w k : w <> e -> (forall c, speaks Q a a' (k (MConf c))) -> speaks Q a a' (Recv (Wk w) k).
  (** waits for worker e *)
  Inductive awaiting {A} : proc A -> Prop :=
  | aw_recv k : awaiting (Recv (Wk e) k)
  | aw_send w m k : w <> e -> awaiting k -> awaiting (Send (Wk w) m k)
  | aw_recv_o w k : w <> e -> (forall c, awaiting (k (MConf c))) -> awaiting (Recv (Wk w) k).
  (** asks for the rejected operation *)
  Inductive fateful {A} : proc A -> Prop :=
  | ft_send k : awaiting k -> fateful (Send (Wk e) (MOp fatal) k)
  | ft_send_o w m k : w <> e -> fateful k -> fateful (Send (Wk w) m k)
  | ft_recv_o w k : w <> e -> (forall c, fateful (k (MConf c))) -> fateful (Recv (Wk w) k).
  (** can only fail *)
  Inductive dead_end {A} : proc A -> Prop :=
  | de_fail x : dead_end (Fail x)
  | de_send w m k : dead_end k -> dead_end (Send w m k)
  | de_recv w k : (forall m, dead_end (k m)) -> dead_end (Recv w k).
  Inductive doomed : bool -> proc (ending K) -> Prop :=
  | db_dead a p : F -> dead_end p -> doomed a p
  | db_fatal k : awaiting k -> doomed false (Send (Wk e) (MOp fatal) k)
  | db_send op k : op <> OClose -> doomed true k -> doomed false (Send (Wk e) (MOp op) k)
  | db_recv k : (forall c, doomed false (k (MConf c))) -> doomed true (Recv (Wk e) k)
  | db_send_o a w m k : w <> e -> doomed a k -> doomed a (Send (Wk w) m k)
  | db_recv_o a w k : w <> e -> (forall c, doomed a (k (MConf c))) -> doomed a (Recv (Wk w) k).

  Lemma speaks_bind {A B} Q Q' a a' a'' (p : proc A) (f : A -> proc B) : speaks Q a a' p -> (forall x, Q x -> speaks Q' a' a'' (f x)) -> speaks Q' a a'' (pbind p f).
  Proof. intros Hp Hf. induction Hp; cbn [pbind]; [apply Hf; assumption|apply sp_fail; assumption|apply sp_send; auto|apply sp_recv; auto|apply sp_send_o; auto|apply sp_recv_o; auto]. Qed.
  Lemma awaiting_bind {A B} (p : proc A) (f : A -> proc B) : awaiting p -> awaiting (pbind p f).
  Proof. intros Hp. induction Hp; cbn [pbind]; [apply aw_recv|apply aw_send; auto|apply aw_recv_o; auto]. Qed.
  Lemma awaiting_try {A B} (p : proc A) (f : A -> proc B) h : awaiting p -> awaiting (ptry p f h).
  Proof. intros Hp. induction Hp; cbn [ptry]; [apply aw_recv|apply aw_send; auto|apply aw_recv_o; auto]. Qed.
  Lemma fateful_bind {A B} (p : proc A) (f : A -> proc B) : fateful p -> fateful (pbind p f).
  Proof. intros Hp. induction Hp; cbn [pbind]; [apply ft_send, awaiting_bind; assumption|apply ft_send_o; auto|apply ft_recv_o; auto]. Qed.
  Lemma fateful_try {A} (p : proc A) f h : fateful p -> doomed false (ptry p f h).
  Proof. intros Hp. induction Hp; cbn [ptry]; [apply db_fatal, awaiting_try; assumption|apply db_send_o; auto|apply db_recv_o; auto]. Qed.
  Lemma dead_bind {A B} (p : proc A) x : dead_end (pbind p (fun _ => Fail x : proc B)).
  Proof. induction p; cbn [pbind]; [apply de_fail|apply de_fail|apply de_send; assumption|apply de_recv; assumption]. Qed.
  Lemma speaks_try {A} Q a a' (p : proc A) f h : speaks Q a a' p -> (forall x, Q x -> doomed a' (f x)) -> (forall x, dead_end (h x)) -> doomed a (ptry p f h).
  Proof. intros Hp Hf Hh. induction Hp; cbn [ptry]; [apply Hf; assumption|apply db_dead; auto|apply db_send; auto|apply db_recv; auto|apply db_send_o; auto|apply db_recv_o; auto]. Qed.

  Lemma sends_none op l : ~ In e l -> forall a, speaks (fun _ => True) a a (@send_to_each_of K op l).
  Proof.
    unfold send_to_each_of. induction l as [|w l IH]; intros H a; cbn [pfold pbind]; [apply sp_ret; exact I|]. apply sp_send_o; [intros ->; apply H; left; reflexivity|]. apply IH. intros X; apply H; right; exact X.
  Qed.
  Lemma sends_all op l : op <> OClose -> NoDup l -> In e l -> speaks (fun _ => True) false true (@send_to_each_of K op l).
  Proof.
    intros Ho. unfold send_to_each_of. induction l as [|w l IH]; intros Hn H; [destruct H|]. inversion Hn as [|x y Hx Hy]; subst. cbn [pfold pbind]. destruct H as [->|H].
    - apply sp_send; [exact Ho|]. apply (sends_none op l Hx).
    - apply sp_send_o; [intros ->; contradiction|]. apply IH; assumption.
  Qed.
  Notation receives := (pfold (fun confs w => Recv (Wk w) (fun m => match m with MConf c => Ret (confs ++ [c]) | _ => Fail GenericException end))).
  Lemma receives_none l : ~ In e l -> forall a cs, speaks (fun _ => True) a a (receives l cs : proc (list (conf K))).
  Proof.
    induction l as [|w l IH]; intros H a cs; cbn [pfold pbind]; [apply sp_ret; exact I|]. apply sp_recv_o; [intros ->; apply H; left; reflexivity|]. intros c. apply IH. intros X; apply H; right; exact X.
  Qed.
  Lemma receives_all l : NoDup l -> In e l -> forall cs, speaks (fun _ => True) true false (receives l cs : proc (list (conf K))).
  Proof.
    induction l as [|w l IH]; intros Hn H cs; [destruct H|]. inversion Hn as [|x y Hx Hy]; subst. cbn [pfold pbind]. destruct H as [->|H].
    - apply sp_recv. intros c. apply (receives_none l Hx).
    - apply sp_recv_o; [intros ->; contradiction|]. intros c. apply IH; assumption.
  Qed.
  Lemma map_speaks op l : op <> OClose -> NoDup l -> speaks (fun _ => True) false false (@map_workers_via_op K op l).
  Proof.
    intros Ho Hn. unfold map_workers_via_op. destruct (in_dec wid_dec e l) as [H|H].
    - apply (speaks_bind (fun _ => True) _ false true); [apply sends_all; assumption|]. intros _ _. apply receives_all; assumption.
    - apply (speaks_bind (fun _ => True) _ false false); [apply sends_none; assumption|]. intros _ _. apply receives_none; assumption.
  Qed.
  Lemma awaiting_receives l : In e l -> NoDup l -> forall cs, awaiting (receives l cs : proc (list (conf K))).
  Proof.
    induction l as [|w l IH]; intros H Hn cs; [destruct H|]. inversion Hn as [|x y Hx Hy]; subst. cbn [pfold pbind]. destruct H as [->|H]; [apply aw_recv|].
    apply aw_recv_o; [intros ->; contradiction|]. intros c. apply IH; assumption.
  Qed.
  Lemma map_fateful l : NoDup l -> In e l -> fateful (@map_workers_via_op K fatal l).
  Proof.
    intros Hn Hi. unfold map_workers_via_op, send_to_each_of. assert (Hw : forall u : unit, awaiting (receive_from_each_of l : proc (list (conf K)))) by (intros _; apply awaiting_receives; assumption).
    revert Hw. generalize (receive_from_each_of l : proc (list (conf K))) as q. intros q Hw. assert (Hq := Hw tt). clear Hw. revert Hn Hi.
    induction l as [|w l IH]; intros Hn Hi; [destruct Hi|]. inversion Hn as [|x y Hx Hy]; subst. cbn [pfold pbind]. destruct Hi as [->|Hi].
    - apply ft_send. clear - Hx Hq. induction l as [|w l IH]; cbn [pfold pbind]; [exact Hq|]. apply aw_send; [intros ->; apply Hx; left; reflexivity|]. apply IH. intros X; apply Hx; right; exact X.
    - apply ft_send_o; [intros ->; contradiction|]. apply IH; assumption.
  Qed.

  Lemma diag_nodup : NoDup (diagonal_workers ws).
  Proof. unfold diagonal_workers. eapply Permutation_NoDup; [apply sort_wids_perm|]. apply NoDup_filter. exact Hnd. Qed.
  Lemma diag_in : In e (diagonal_workers ws).
  Proof. unfold diagonal_workers. apply (Permutation_in e (sort_wids_perm _)). apply filter_In. split; [exact He|]. apply range_eqb_ok. exact Hd. Qed.
  Lemma drop_nodup {A} : forall i (l : list A), NoDup l -> NoDup (firstn i l ++ skipn (S i) l).
  Proof.
    induction i as [|i IH]; intros [|x l] H; cbn [firstn skipn app]; try apply NoDup_nil; inversion H as [|y z Hy Hz]; subst; [exact Hz|]. apply NoDup_cons; [|apply IH; exact Hz].
    intros X. apply Hy. apply in_app_iff in X. destruct X as [X|X]; [rewrite <- (firstn_skipn i l)|rewrite <- (firstn_skipn (S i) l)]; apply in_app_iff; [left|right]; exact X.
  Qed.
  Lemma one_speaks w op {A} Q (k : conf K -> proc A) : op <> OClose -> (forall c, speaks Q false false (k c)) ->
    speaks Q false false (pbind (Send (Wk w) (MOp op) (Ret tt)) (fun _ => pbind (recv_conf w) k)).
  Proof.
    intros Ho Hk. cbn [pbind recv_conf]. destruct (wid_dec w e) as [->|Hw].
    - apply sp_send; [exact Ho|]. apply sp_recv. intros c. cbn [pbind]. apply Hk.
    - apply sp_send_o; [exact Hw|]. apply sp_recv_o; [exact Hw|]. intros c. cbn [pbind]. apply Hk.
  Qed.
  Notation any := (fun _ => True).
  Lemma kron_speaks mats : speaks any false false (send_kronprod ws (OKron mats)).
  Proof.
    unfold send_kronprod. apply (speaks_bind any _ false false); [apply map_speaks; [discriminate|exact Hnd]|]. intros _ _.
    apply (speaks_bind any _ false false); [apply map_speaks; [discriminate|exact Hnd]|]. intros _ _. apply sp_ret. exact I.
  Qed.
  Lemma measure_speaks r m : F -> speaks any false false (send_measure r ws m).
  Proof.
    intros HF. unfold send_measure. cbv zeta. apply (speaks_bind any _ false false); [apply map_speaks; [discriminate|apply diag_nodup]|]. intros confs _. destruct (select 0 confs r) as [i|]; [|apply sp_fail; exact HF].
    apply (speaks_bind any _ false false); [destruct (pyget _ _); [apply sp_ret; exact I|apply sp_fail; exact HF]|]. intros w _. apply one_speaks; [discriminate|]. intros c.
    apply (speaks_bind any _ false false); [apply map_speaks; [discriminate|apply drop_nodup, diag_nodup]|]. intros cs _.
    apply (speaks_bind any _ false false); [apply map_speaks; [discriminate|apply diag_nodup]|]. intros _ _.
    apply (speaks_bind any _ false false); [apply map_speaks; [discriminate|exact Hnd]|]. intros _ _. apply sp_ret. exact I.
  Qed.
  Lemma top_speaks m : F -> speaks any false false (send_measure_top ws m).
  Proof.
    intros HF. unfold send_measure_top. apply (speaks_bind any _ false false); [apply map_speaks; [discriminate|apply diag_nodup]|]. intros cs _. destruct (combine_replies _ _); [apply sp_ret; exact I|apply sp_fail; exact HF].
  Qed.
  (** the operations before *)
  Definition before_ok (op : wop K) : Prop := match op with OKron _ => True | OMeasure m => F /\ m_reduce m = false | _ => F end.
  Lemma op_speaks r op : before_ok op -> speaks (fun x => fst (fst x) = ws) false false (send_op r n ws op).
  Proof.
    destruct op as [mats|m| |up ow|]; cbn [before_ok send_op]; intros H; try (apply sp_fail; exact H).
    - apply (speaks_bind any _ false false); [apply kron_speaks|]. intros _ _. apply sp_ret. reflexivity.
    - destruct H as [HF Hm]. rewrite Hm. destruct (m_soft m); [apply sp_fail; exact HF|]. destruct (negb _).
      + destruct (_ <? _); [apply sp_fail; exact HF|]. apply (speaks_bind any _ false false); [apply top_speaks; exact HF|]. intros x _. apply sp_ret. reflexivity.
      + apply (speaks_bind any _ false false); [apply measure_speaks; exact HF|]. intros x _. apply sp_ret. reflexivity.
  Qed.
  (** the operation itself *)
  Definition fatal_op (op : wop K) : Prop := match op with OKron _ => op = fatal | OMeasure m => op = fatal /\ m_soft m = false /\ m_reduce m = false /\ m_top_k m < 0 | _ => False end.
  Lemma op_fateful r op : fatal_op op -> fateful (send_op r n ws op).
  Proof.
    destruct op as [mats|m| |up ow|]; cbn [fatal_op send_op]; intros H; [| |destruct H|destruct H|destruct H].
    - rewrite H. apply fateful_bind. unfold send_kronprod. apply fateful_bind, map_fateful; assumption.
    - destruct H as (H & -> & -> & Hk). replace (m_top_k m =? 0) with false by lia. replace (2048 <? m_top_k m) with false by lia. cbn [negb]. apply fateful_bind. unfold send_measure_top. rewrite H. apply fateful_bind, map_fateful; [apply diag_nodup|apply diag_in].
  Qed.
  Lemma manager_doomed op r rest : fatal_op op -> forall before, Forall (fun o => before_ok (fst o)) before -> forall res freed,
    doomed false (manager_run n ws (before ++ (op, r) :: rest) res freed).
  Proof.
    intros Ho. induction before as [|[o r'] before IH]; intros Hb res freed; cbn [app manager_run].
    - apply fateful_try, op_fateful, Ho.
    - inversion Hb as [|x y Hx Hy]; subst. apply (speaks_try (fun x => fst (fst x) = ws) false false); [apply op_speaks, Hx| |intros x; apply dead_bind].
      intros [[ws' done] result] E. cbn [fst] in E. subst ws'. apply IH. exact Hy.
  Qed.

  (** ** The worker *)
  Definition idle (p : proc (ending K)) : Prop := exists envs b, bk_n b = n /\ p = worker_run rsqrt (cfg e) envs b.
  Inductive working : proc (ending K) -> Prop :=
  | wk_fail x : working (Fail x)
  | wk_send w m k : working k -> working (Send (Wk w) m k)
  | wk_recv w k : (forall m, working (k m)) -> working (Recv (Wk w) k)
  | wk_reply c k : idle k -> working (Send Mgr (MConf c) k).
  (** its result *)
  Inductive within {A} (Q : A -> Prop) : proc A -> Prop :=
  | wi_ret a : Q a -> within Q (Ret a)
  | wi_fail x : within Q (Fail x)
  | wi_send w m k : within Q k -> within Q (Send (Wk w) m k)
  | wi_recv w k : (forall m, within Q (k m)) -> within Q (Recv (Wk w) k).
  Lemma within_bind {A B} (Q : B -> Prop) (p : proc A) f : aside p -> (forall a, within Q (f a)) -> within Q (pbind p f).
  Proof. intros Hp Hf. induction Hp; cbn [pbind]; [apply Hf|apply wi_fail|apply wi_send; assumption|apply wi_recv; auto]. Qed.
  Lemma within_then {A B} (P : A -> Prop) (Q : B -> Prop) (p : proc A) f : within P p -> (forall a, P a -> within Q (f a)) -> within Q (pbind p f).
  Proof. intros Hp Hf. induction Hp; cbn [pbind]; [apply Hf; assumption|apply wi_fail|apply wi_send; assumption|apply wi_recv; auto]. Qed.
  Lemma within_working {A} (Q : A -> Prop) (p : proc A) f : within Q p -> (forall a, Q a -> working (f a)) -> working (pbind p f).
  Proof. intros Hp Hf. induction Hp; cbn [pbind]; [apply Hf; assumption|apply wk_fail|apply wk_send; assumption|apply wk_recv; auto]. Qed.
  Lemma within_lift {A} (Q : A -> Prop) (r : res A) : (forall a, r = Ok a -> Q a) -> within Q (lift r).
  Proof. destruct r; intros H; [apply wi_ret, H; reflexivity|apply wi_fail]. Qed.
  Lemma sync_within c b up ow : bk_n b = n -> within (fun b' => bk_n b' = n) (worker_sync c b up ow).
  Proof.
    intros Hn. unfold worker_sync. destruct (c_id c) as [input output]. destruct (_ && _).
    - apply within_bind.
      + destruct ow; [constructor|]. unfold receive_state_increments_from_all. apply aside_fold. intros v w. apply aside_receive_state.
      + intros v. apply within_bind; [|intros _; apply wi_ret; exact Hn]. destruct (threshold_of up).
        * unfold send_state_up_to. apply aside_fold. intros u w. destruct (_ <=? _); [constructor|]. apply aside_send_state.
        * unfold send_state_to_all. apply aside_fold. intros u w. apply aside_send_state.
    - apply within_bind.
      + destruct ow; [constructor|]. unfold send_state_to_one. destruct (find_worker _ _) as [y|] eqn:E; [|constructor]. unfold find_worker in E. destruct (existsb _ _); [|discriminate]. injection E as <-. apply aside_send_state.
      + intros u. cbv zeta. destruct (match threshold_of up with Some _ => _ | None => _ end); [|apply wi_ret; exact Hn]. apply within_bind; [|intros v; apply wi_ret; exact Hn].
        unfold receive_state_from_one. destruct (find_worker _ _) as [y|] eqn:E; [|constructor]. unfold find_worker in E. destruct (existsb _ _); [|discriminate]. injection E as <-. apply aside_receive_state.
  Qed.
  Lemma measure_n c ev b m r : bk_n b = n -> worker_measure rsqrt c ev b m = Ok r -> bk_n (fst r) = n.
  Proof.
    intros Hn. unfold worker_measure. destruct (c_id c) as [input output]. destruct (m_soft m).
    { destruct (bk_soft_measure _ _ _ _ _ _) as [x|]; cbn [bind]; [|discriminate]. intros X. injection X as <-. exact Hn. }
    destruct (m_reduce m).
    { unfold bk_reduce_measure. destruct (reduce_measure _ _ _ _ _ _ _ _ _ _ _) as [x|]; cbn [bind]; [|discriminate]. intros X. injection X as <-. exact Hn. }
    destruct (negb _).
    { destruct (bk_measure_probabilities _ _ _) as [[x|[is ps]]|]; cbn [bind]; try discriminate. intros X. injection X as <-. exact Hn. }
    unfold bk_measure. destruct (measure _ _ _ _ _ _ _ _ _ _ _) as [x|]; cbn [bind]; [|discriminate]. intros X. injection X as <-. exact Hn.
  Qed.
  Lemma op_within c ev b op : bk_n b = n -> within (fun bc => bk_n (fst bc) = n) (worker_op rsqrt c ev b op).
  Proof.
    intros Hn. destruct op as [mats|m| |up ow|]; cbn [worker_op].
    - apply within_lift. unfold bk_kronselect_dot. destruct (kronselect_dot _ _ _ _ _ _ _); cbn [bind]; [|discriminate]. intros bc X. injection X as <-. exact Hn.
    - apply within_lift. intros bc X. eapply measure_n; eassumption.
    - apply wi_ret. exact Hn.
    - eapply within_then; [apply sync_within; exact Hn|]. intros b' Hb. apply wi_ret. exact Hb.
    - apply wi_ret. exact Hn.
  Qed.
  Lemma run_recv c envs b : worker_run rsqrt c envs b = Recv Mgr (fun m => match m with MOp OClose => Ret (EWorker b) | MOp op => match envs with [] => Fail OutOfFuel | ev :: envs => pbind (worker_op rsqrt c ev b op) (fun bc => Send Mgr (MConf (snd bc)) (worker_run rsqrt c envs (fst bc))) end | _ => Fail GenericException end).
  Proof. destruct envs; reflexivity. Qed.
  Lemma idle_op p op : idle p -> op <> OClose -> exists k, p = Recv Mgr k /\ working (k (MOp op)).
  Proof.
    intros (envs & b & Hn & ->) Ho. rewrite run_recv. eexists. split; [reflexivity|]. cbn beta. destruct op; try congruence;
      (destruct envs as [|ev envs]; [apply wk_fail|]; eapply within_working; [apply op_within; exact Hn|]; intros bc Hbc; apply wk_reply; exists envs, (fst bc); split; [exact Hbc|reflexivity]).
  Qed.
  Definition failed (p : proc (ending K)) : Prop := exists x, p = Fail x.
  Lemma idle_fatal p : idle p -> exists k, p = Recv Mgr k /\ failed (k (MOp fatal)).
  Proof.
    intros (envs & b & Hn & ->). rewrite run_recv. eexists. split; [reflexivity|]. cbn beta. destruct envs as [|ev envs]; [destruct fatal; try congruence; exists OutOfFuel; reflexivity|].
    destruct (Hrej ev b Hn) as (x & E). destruct fatal; try congruence; rewrite E; cbn [pbind]; exists x; reflexivity.
  Qed.
  Lemma idle_recv p : idle p -> exists k, p = Recv Mgr k.
  Proof. intros (envs & b & Hn & ->). rewrite run_recv. eexists. reflexivity. Qed.

  (** ** Both *)
  Definition pair (s : stt) (M : proc (ending K) -> Prop) (cm ce : list msg) (W : proc (ending K) -> Prop) : Prop :=
    M (procs s Mgr) /\ chans s Mgr (Wk e) = cm /\ chans s (Wk e) Mgr = ce /\ W (procs s (Wk e)).
  Inductive inv (s : stt) : Prop :=
  | iA : pair s (doomed false) [] [] idle -> inv s
  | iB op : op <> OClose -> pair s (doomed true) [MOp op] [] idle -> inv s
  | iC : pair s (doomed true) [] [] working -> inv s
  | iD c : pair s (doomed true) [] [MConf c] idle -> inv s
  | iE : pair s awaiting [MOp fatal] [] idle -> inv s
  | iF : pair s awaiting [] [] failed -> inv s
  | iG : F -> dead_end (procs s Mgr) -> inv s.
  Lemma other_pair s w s' M cm ce W : w <> e -> pair s M cm ce W -> exec pid_eqb cap s (Wk w) = Some s' -> pair s' M cm ce W.
  Proof.
    intros Hw (T & C1 & C2 & Pe). assert (Hw' : Wk e <> Wk w) by congruence. unfold exec. destruct (procs s (Wk w)) as [r|x|to m k|from k]; try discriminate.
    - destruct (has_room _ _); [|discriminate]. intros X. injection X as <-. unfold pair. cbn [procs chans]. rewrite !set1_other by (assumption || discriminate). rewrite !set2_other by (left; (assumption || discriminate)). auto.
    - destruct (chans s from (Wk w)) as [|m l]; [discriminate|]. intros X. injection X as <-. unfold pair. cbn [procs chans]. rewrite !set1_other by (assumption || discriminate). rewrite !set2_other by (right; (assumption || discriminate)). auto.
  Qed.
  Lemma dead_step (s s' : stt) i : dead_end (procs s Mgr) -> exec pid_eqb cap s i = Some s' -> dead_end (procs s' Mgr).
  Proof.
    intros D Hx. destruct i as [|w].
    - unfold exec in Hx. inversion D as [x E|w m k D' E|w k D' E]; rewrite <- E in Hx; [discriminate| |].
      + destruct (has_room _ _); [|discriminate]. injection Hx as <-. cbn [procs]. rewrite set1_same. exact D'.
      + destruct (chans s w Mgr) as [|m l]; [discriminate|]. injection Hx as <-. cbn [procs]. rewrite set1_same. apply D'.
    - unfold exec in Hx. destruct (procs s (Wk w)) as [r|x|to m k|from k]; try discriminate.
      + destruct (has_room _ _); [|discriminate]. injection Hx as <-. cbn [procs]. rewrite set1_other by discriminate. exact D.
      + destruct (chans s from (Wk w)); [discriminate|]. injection Hx as <-. cbn [procs]. rewrite set1_other by discriminate. exact D.
  Qed.
  (** a step of the manager *)
  Lemma mgr_send (s s' : stt) w m k : procs s Mgr = Send (Wk w) m k -> exec pid_eqb cap s Mgr = Some s' ->
    procs s' Mgr = k /\ procs s' (Wk e) = procs s (Wk e) /\ chans s' (Wk e) Mgr = chans s (Wk e) Mgr /\
    (w = e -> chans s' Mgr (Wk e) = chans s Mgr (Wk e) ++ [m]) /\ (w <> e -> chans s' Mgr (Wk e) = chans s Mgr (Wk e)).
  Proof.
    intros E Hx. unfold exec in Hx. rewrite E in Hx. destruct (has_room _ _); [|discriminate]. injection Hx as <-. cbn [procs chans].
    rewrite set1_same, set1_other by discriminate. rewrite (set2_other _ _ _ (Wk e) Mgr) by (left; discriminate). repeat split.
    - intros ->. rewrite set2_same. reflexivity.
    - intros Hw. rewrite set2_other; [reflexivity|]. right. congruence.
  Qed.
  Lemma mgr_recv (s s' : stt) w k : base2 cfg s -> procs s Mgr = Recv (Wk w) k -> exec pid_eqb cap s Mgr = Some s' ->
    exists c, procs s' Mgr = k (MConf c) /\ procs s' (Wk e) = procs s (Wk e) /\ chans s' Mgr (Wk e) = chans s Mgr (Wk e) /\
    (w = e -> chans s (Wk e) Mgr = MConf c :: chans s' (Wk e) Mgr) /\ (w <> e -> chans s' (Wk e) Mgr = chans s (Wk e) Mgr).
  Proof.
    intros (B1 & B2) E Hx. unfold exec in Hx. rewrite E in Hx. destruct (chans s (Wk w) Mgr) as [|m l] eqn:Ec; [discriminate|]. injection Hx as <-. cbn [procs chans].
    destruct (B2 w m) as (c & ->); [rewrite Ec; left; reflexivity|]. exists c. rewrite set1_same, set1_other by discriminate. rewrite (set2_other _ _ _ Mgr (Wk e)) by (right; discriminate). repeat split.
    - intros ->. rewrite set2_same. exact Ec.
    - intros Hw. rewrite set2_other; [reflexivity|]. left. congruence.
  Qed.
  (** a step of worker e *)
  Lemma wk_recv_step (s s' : stt) k m l : procs s (Wk e) = Recv Mgr k -> chans s Mgr (Wk e) = m :: l -> exec pid_eqb cap s (Wk e) = Some s' ->
    procs s' (Wk e) = k m /\ procs s' Mgr = procs s Mgr /\ chans s' Mgr (Wk e) = l /\ chans s' (Wk e) Mgr = chans s (Wk e) Mgr.
  Proof.
    intros E Ec Hx. unfold exec in Hx. rewrite E, Ec in Hx. injection Hx as <-. cbn [procs chans]. rewrite set1_same, set1_other, set2_same, set2_other by (discriminate || (left; discriminate)). auto.
  Qed.
  Lemma awaiting_mgr s s' cm W : base2 cfg s -> pair s awaiting cm [] W -> exec pid_eqb cap s Mgr = Some s' -> pair s' awaiting cm [] W.
  Proof.
    intros B (D & C1 & C2 & Wp) Hx. inversion D as [k E|w m k Hw D' E|w k Hw D' E].
    - destruct (mgr_recv s s' e k B (eq_sym E) Hx) as (c & E1 & E2 & E3 & E4 & _). rewrite C2 in E4. specialize (E4 eq_refl). discriminate.
    - destruct (mgr_send s s' w m k (eq_sym E) Hx) as (E1 & E2 & E3 & _ & E5). unfold pair. rewrite E1, E2, E3, E5 by exact Hw. auto.
    - destruct (mgr_recv s s' w k B (eq_sym E) Hx) as (c & E1 & E2 & E3 & _ & E5). unfold pair. rewrite E1, E2, E3, E5 by exact Hw. auto.
  Qed.
  Lemma doomed_mgr s s' a cm ce W : base2 cfg s -> pair s (doomed a) cm ce W -> exec pid_eqb cap s Mgr = Some s' ->
    F /\ dead_end (procs s Mgr) \/ pair s' (doomed a) cm ce W \/
    a = false /\ (pair s' awaiting (cm ++ [MOp fatal]) ce W \/ exists op, op <> OClose /\ pair s' (doomed true) (cm ++ [MOp op]) ce W) \/
    a = true /\ exists c ce', ce = MConf c :: ce' /\ pair s' (doomed false) cm ce' W.
  Proof.
    intros B (D & C1 & C2 & Wp) Hx. unfold pair. inversion D as [a0 p HF D' E0 E|k D' E0 E|op k Ho D' E0 E|k D' E0 E|a0 w m k Hw D' E0 E|a0 w k Hw D' E0 E]; subst a0 || idtac.
    - left. split; assumption.
    - destruct (mgr_send s s' e _ k (eq_sym E) Hx) as (E1 & E2 & E3 & E4 & _). right. right. left. split; [auto|]. left. rewrite E1, E2, E3, E4, C1 by reflexivity. auto.
    - destruct (mgr_send s s' e _ k (eq_sym E) Hx) as (E1 & E2 & E3 & E4 & _). right. right. left. split; [auto|]. right. exists op. rewrite E1, E2, E3, E4, C1 by reflexivity. auto.
    - destruct (mgr_recv s s' e k B (eq_sym E) Hx) as (c & E1 & E2 & E3 & E4 & _). right. right. right. split; [auto|]. exists c, (chans s' (Wk e) Mgr). rewrite <- C2, E1, E2, E3, E4 by reflexivity. auto.
    - destruct (mgr_send s s' w m k (eq_sym E) Hx) as (E1 & E2 & E3 & _ & E5). right. left. rewrite E1, E2, E3, E5 by exact Hw. auto.
    - destruct (mgr_recv s s' w k B (eq_sym E) Hx) as (c & E1 & E2 & E3 & _ & E5). right. left. rewrite E1, E2, E3, E5 by exact Hw. auto.
  Qed.
  Lemma inv_step s i s' : base2 cfg s -> inv s -> exec pid_eqb cap s i = Some s' -> inv s'.
  Proof.
    intros B I Hx. destruct i as [|w].
    { destruct I as [P|op Ho P|P|c P|P|P|HF D]; [| | | |apply iE; eapply awaiting_mgr; eassumption|apply iF; eapply awaiting_mgr; eassumption|apply iG; [exact HF|eapply dead_step; eassumption]];
        (destruct (doomed_mgr s s' _ _ _ _ B P Hx) as [(HF & D)|[P'|[(E & P')|(E & c' & ce' & Ec & P')]]]; [apply iG; [exact HF|eapply dead_step; eassumption]| | |]); try discriminate E; try discriminate Ec.
      - apply iA; exact P'.
      - destruct P' as [P'|(op & Ho & P')]; [apply iE|apply (iB _ op Ho)]; exact P'.
      - apply (iB _ op Ho); exact P'.
      - apply iC; exact P'.
      - apply (iD _ c); exact P'.
      - injection Ec as <- <-. apply iA; exact P'. }
    destruct (wid_dec w e) as [->|Hw].
    2:{ destruct I as [P|op Ho P|P|c P|P|P|HF D]; [apply iA|apply (iB _ op Ho)|apply iC|apply (iD _ c)|apply iE|apply iF|apply iG; [exact HF|eapply dead_step; eassumption]]; eapply other_pair; eassumption. }
    destruct I as [(D & C1 & C2 & W)|op Ho (D & C1 & C2 & W)|(D & C1 & C2 & W)|c (D & C1 & C2 & W)|(D & C1 & C2 & W)|(D & C1 & C2 & W)|HF D].
    - destruct (idle_recv _ W) as (k & E). unfold exec in Hx. rewrite E, C1 in Hx. discriminate.
    - destruct (idle_op _ op W Ho) as (k & E & W'). destruct (wk_recv_step s s' k _ _ E C1 Hx) as (E1 & E2 & E3 & E4). apply iC. unfold pair. rewrite E1, E2, E3, E4. auto.
    - unfold exec in Hx. inversion W as [x E|v m k W' E|v k W' E|c k W' E]; rewrite <- E in Hx.
      + discriminate.
      + destruct (has_room _ _); [|discriminate]. injection Hx as <-. apply iC. unfold pair. cbn [procs chans]. rewrite set1_same, set1_other by discriminate. rewrite !set2_other by ((left; discriminate) || (right; discriminate)). auto.
      + destruct (chans s (Wk v) (Wk e)) as [|m l]; [discriminate|]. injection Hx as <-. apply iC. unfold pair. cbn [procs chans]. rewrite set1_same, set1_other by discriminate. rewrite !set2_other by ((left; discriminate) || (right; discriminate)). auto.
      + destruct (has_room _ _); [|discriminate]. injection Hx as <-. apply (iD _ c). unfold pair. cbn [procs chans]. rewrite set1_same, set1_other by discriminate. rewrite set2_same, set2_other by (left; discriminate). rewrite C2. auto.
    - destruct (idle_recv _ W) as (k & E). unfold exec in Hx. rewrite E, C1 in Hx. discriminate.
    - destruct (idle_fatal _ W) as (k & E & W'). destruct (wk_recv_step s s' k _ _ E C1 Hx) as (E1 & E2 & E3 & E4). apply iF. unfold pair. rewrite E1, E2, E3, E4. auto.
    - destruct W as (x & E). unfold exec in Hx. rewrite E in Hx. discriminate.
    - apply iG; [exact HF|]. eapply dead_step; eassumption.
  Qed.
  Lemma inv_runs : forall sched s s', base2 cfg s -> inv s -> runs pid_eqb cap s sched = Some s' -> inv s'.
  Proof.
    induction sched as [|i sched IH]; intros s s' B I H; cbn [runs] in H; [injection H as <-; exact I|]. destruct (exec pid_eqb cap s i) as [t|] eqn:E; [|discriminate].
    apply (IH t); [eapply exec_base2; eassumption|eapply inv_step; eassumption|exact H].
  Qed.
  Lemma inv_end s : inv s -> (forall x, procs s Mgr <> Ret x) /\ ((forall x, procs s Mgr <> Fail x) \/ F).
  Proof.
    intros I. assert (X : (exists a, doomed a (procs s Mgr)) \/ awaiting (procs s Mgr) \/ F /\ dead_end (procs s Mgr)) by (destruct I as [(D & _)|op Ho (D & _)|(D & _)|c (D & _)|(D & _)|(D & _)|HF D]; eauto).
    destruct X as [(a & D)|[D|(HF & D)]].
    - inversion D as [a0 p HF D' E0 E|k D' E0 E|op k Ho D' E0 E|k D' E0 E|a0 w m k Hw D' E0 E|a0 w k Hw D' E0 E]; [split; [|right; exact HF]; inversion D' as [x E'|? ? ? ? E'|? ? ? E']; intros y; congruence|..]; (split; [intros y; congruence|left; intros y; congruence]).
    - inversion D as [k E|w m k Hw D' E|w k Hw D' E]; (split; [intros y; congruence|left; intros y; congruence]).
    - split; [|right; exact HF]. inversion D as [x E'|? ? ? ? E'|? ? ? E']; intros y; congruence.
  Qed.
  Lemma reject_later op r before rest envs b sched s' : fatal_op op -> Forall (fun o => before_ok (fst o)) before -> bk_n (b e) = n ->
    runs pid_eqb cap (job_net rsqrt n ws (before ++ (op, r) :: rest) cfg envs b) sched = Some s' ->
    (forall x, procs s' Mgr <> Ret x) /\ ((forall x, procs s' Mgr <> Fail x) \/ F).
  Proof.
    intros Ho Hb Hn H. apply inv_end. revert H. apply inv_runs.
    - split.
      + intros w. cbn [job_net procs]. destruct (existsb (wid_eqb w) ws); [apply ok_run; reflexivity|constructor].
      + intros w m Hm. destruct Hm.
    - apply iA. unfold pair. cbn [job_net procs chans]. split; [apply manager_doomed; assumption|]. split; [reflexivity|]. split; [reflexivity|].
      replace (existsb (wid_eqb e) ws) with true; [exists (envs e), (b e); auto|]. symmetry. apply existsb_exists. exists e. split; [exact He|]. apply wid_eqb_ok. reflexivity.
  Qed.
End Reject.

Section Client.
  Context {K : Type} {OK : OrdRing K}.
  (** the first worker *)
  Lemma first_worker n bq pool : 0 <= bq <= n -> tiles (2 ^ n) pool -> blocks (2 ^ bq) pool -> exists w : wid, In w (map fst pool) /\ fst w = snd w.
  Proof.
    intros Hbq Ht Hb. exists (blk (2 ^ bq) 0, blk (2 ^ bq) 0). split; [|reflexivity]. apply (Hws n bq pool Hbq Ht Hb). cbn [fst snd].
    assert (In (blk (2 ^ bq) 0) (blks (2 ^ bq) (2 ^ (n - bq)))); [|tauto]. apply blks_in. exists 0. split; [|reflexivity]. split; [lia|apply Z.pow_pos_nonneg; lia].
  Qed.
  Lemma requests_app (l l' : list (call K * K)) : requests (l ++ l') = requests l ++ requests l'.
  Proof. unfold requests. rewrite map_app, concat_app. reflexivity. Qed.
  Lemma before_requests (before : list (call K * K)) : Forall (fun c => no_reduce (fst c)) before -> Forall (fun o => before_ok True (fst o)) (requests before).
  Proof.
    induction 1 as [|[c r] l Hc Hl IH]; [apply Forall_nil|]. unfold requests in *. cbn [map concat]. apply Forall_app. split; [|exact IH]. destruct c; cbn [request fst snd no_reduce] in *; try destruct Hc; repeat constructor.
  Qed.
  Lemma kron_requests (before : list (call K * K)) : Forall (fun c => is_kron (fst c)) before -> Forall (fun o => before_ok False (fst o)) (requests before).
  Proof.
    induction 1 as [|[c r] l Hc Hl IH]; [apply Forall_nil|]. unfold requests in *. cbn [map concat]. apply Forall_app. split; [|exact IH]. destruct c; cbn [request fst snd is_kron] in *; try destruct Hc; repeat constructor.
  Qed.
  Lemma kron_rejected cfg job (rsqrt : K -> K) n bq pool mats (local : backend K) sched x (e : wid) :
    0 <= bq <= n -> tiles (2 ^ n) pool -> blocks (2 ^ bq) pool -> configured job (map fst pool) cfg -> In e (map fst pool) ->
    bk_n local = n -> zlen (bk_state local) = 2 ^ n -> zlen (bk_arena local) = 2 ^ n ->
    mats_wf n mats -> Permutation sched (zrange 0 (2 ^ n)) -> bk_kronselect_dot sched local mats 0 0 = Raise x ->
    forall ev b, bk_n b = n -> exists y, worker_op rsqrt (cfg e) ev b (OKron mats) = Fail y.
  Proof.
    intros Hbq Ht Hb Hcfg He Hn Hv Ha Hwf HP Hx ev b Hnb. cbn [worker_op]. destruct (bk_kronselect_dot (e_sched ev) b mats _ _) as [b'|y] eqn:Eb; [exfalso|exists y; reflexivity].
    unfold bk_kronselect_dot in Eb, Hx. rewrite Hnb in Eb. rewrite Hn in Hx.
    destruct (kronselect_dot mats (bk_state b) n (bk_arena b) _ _ (Cython (e_sched ev))) as [R|z] eqn:Ek; [|discriminate].
    destruct (kronselect_dot mats (bk_state local) n (bk_arena local) 0 0 (Cython sched)) as [R'|z] eqn:Ek'; [discriminate|].
    destruct (ok_sizes _ _ _ _ _ _ _ _ Ek) as (_ & _ & Hsh). assert (Hr := ok_rect _ _ _ _ _ _ _ _ (proj1 Hwf) Ek).
    destruct (proj2 (kron_accept_c mats (bk_state local) n (bk_arena local) 0 0 sched ltac:(lia) (Z.le_refl 0) (Z.le_refl 0) Hwf ltac:(rewrite Ha; exact HP))) as (R'' & E''); [|congruence].
    split; [|exact Hr]. split; [lia|]. split; [lia|exact Hsh].
  Qed.
  Lemma top_rejected (local : backend K) indices top_k : top_k < 0 -> bk_measure_probabilities local indices top_k = Raise ValueError.
  Proof.
    intros H. unfold bk_measure_probabilities. replace (top_k =? 0) with false by lia. unfold measure_top_probabilities. cbv zeta. replace (Z.min top_k (2 ^ zlen indices) <? 0) with true by (symmetry; apply Z.ltb_lt; lia). reflexivity.
  Qed.
  Lemma top_rejected_worker (rsqrt : K -> K) c ev b indices top_k : top_k < 0 -> exists y, worker_op rsqrt c ev b (OMeasure (mkMeasure indices None false false top_k)) = Fail y.
  Proof.
    intros H. cbn [worker_op]. unfold worker_measure. destruct (c_id c). cbn [m_soft m_reduce m_top_k]. replace (top_k =? 0) with false by lia. cbn [negb m_indices]. rewrite top_rejected by exact H. eexists. reflexivity.
  Qed.
  Lemma rejected_later cap (rsqrt : K -> K) cfg job n bq pool before mats r calls envs bs (local : backend K) sched x :
    0 <= bq <= n -> tiles (2 ^ n) pool -> blocks (2 ^ bq) pool -> configured job (map fst pool) cfg ->
    (forall w : wid, In w (map fst pool) -> bk_n (bs w) = n) ->
    bk_n local = n -> zlen (bk_state local) = 2 ^ n -> zlen (bk_arena local) = 2 ^ n ->
    mats_wf n mats -> Permutation sched (zrange 0 (2 ^ n)) -> bk_kronselect_dot sched local mats 0 0 = Raise x ->
    Forall (fun c => no_reduce (fst c)) before ->
    forall sched' s', runs pid_eqb cap (client_net rsqrt n (map fst pool) (before ++ (CKronselectDot mats, r) :: calls) cfg envs bs) sched' = Some s' ->
      (forall y, procs s' Mgr <> Ret y) /\ (Forall (fun c => is_kron (fst c)) before -> forall y, procs s' Mgr <> Fail y).
  Proof.
    intros Hbq Ht Hb Hcfg Hnw Hn Hv Ha Hwf HP Hx Hbe sched' s' H. assert (Hnd := Hnd n bq pool Hbq Ht Hb).
    destruct (first_worker n bq pool Hbq Ht Hb) as (e & He & Hd).
    assert (Hrej := kron_rejected cfg job rsqrt n bq pool mats local sched x e Hbq Ht Hb Hcfg He Hn Hv Ha Hwf HP Hx).
    unfold client_net in H. rewrite requests_app in H. change (requests ((CKronselectDot mats, r) :: calls)) with ((OKron mats, r) :: requests calls) in H. split.
    - exact (proj1 (reject_later e cap (map fst pool) cfg rsqrt n Hnd He Hd (OKron mats) True ltac:(discriminate) Hrej (OKron mats) r (requests before) (requests calls) envs bs sched' s' eq_refl (before_requests before Hbe) (Hnw e He) H)).
    - intros Hk. destruct (proj2 (reject_later e cap (map fst pool) cfg rsqrt n Hnd He Hd (OKron mats) False ltac:(discriminate) Hrej (OKron mats) r (requests before) (requests calls) envs bs sched' s' eq_refl (kron_requests before Hk) (Hnw e He) H)) as [X|[]]. exact X.
  Qed.
  Lemma rejected_top cap (rsqrt : K -> K) cfg n bq pool before indices top_k r calls envs bs :
    0 <= bq <= n -> tiles (2 ^ n) pool -> blocks (2 ^ bq) pool ->
    (forall w : wid, In w (map fst pool) -> bk_n (bs w) = n) ->
    - 2 ^ 31 <= top_k < 0 -> Forall (fun c => no_reduce (fst c)) before ->
    (forall local : backend K, bk_measure_probabilities local indices top_k = Raise ValueError) /\
    forall sched' s', runs pid_eqb cap (client_net rsqrt n (map fst pool) (before ++ (CMeasureProbabilities indices top_k, r) :: calls) cfg envs bs) sched' = Some s' ->
      (forall y, procs s' Mgr <> Ret y) /\ (Forall (fun c => is_kron (fst c)) before -> forall y, procs s' Mgr <> Fail y).
  Proof.
    intros Hbq Ht Hb Hnw Hk Hbe. split; [intros local; apply top_rejected; lia|]. intros sched' s' H. assert (Hnd := Hnd n bq pool Hbq Ht Hb).
    destruct (first_worker n bq pool Hbq Ht Hb) as (e & He & Hd).
    assert (Hrej : forall ev b, bk_n b = n -> exists y, worker_op rsqrt (cfg e) ev b (OMeasure (mkMeasure indices None false false top_k)) = Fail y) by (intros ev b _; apply top_rejected_worker; lia).
    unfold client_net in H. rewrite requests_app in H.
    assert (Er : requests ((CMeasureProbabilities indices top_k, r) :: calls) = (OMeasure (mkMeasure indices None false false top_k), r) :: requests calls).
    { unfold requests. cbn [map concat request fst snd app]. replace (top_k =? 0) with false by lia. reflexivity. }
    rewrite Er in H. assert (As : fatal_op (K := K) (OMeasure (mkMeasure indices None false false top_k)) (OMeasure (mkMeasure indices None false false top_k))) by (cbn; repeat split; lia). split.
    - exact (proj1 (reject_later e cap (map fst pool) cfg rsqrt n Hnd He Hd (OMeasure (mkMeasure indices None false false top_k)) True ltac:(discriminate) Hrej _ r (requests before) (requests calls) envs bs sched' s' As (before_requests before Hbe) (Hnw e He) H)).
    - intros Hkr. destruct (proj2 (reject_later e cap (map fst pool) cfg rsqrt n Hnd He Hd (OMeasure (mkMeasure indices None false false top_k)) False ltac:(discriminate) Hrej _ r (requests before) (requests calls) envs bs sched' s' As (kron_requests before Hkr) (Hnw e He) H)) as [X|[]]. exact X.
  Qed.
End Client.
