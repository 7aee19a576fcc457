(** Lemmas: a job on workers whose earlier confirmations were never read. *)
From Verif Require Import Base M_Kron M_Feed M_Measure M_Pool M_Net S_Net L_Net M_Worker S_Worker M_Failure L_Worker1 L_Worker4 L_Worker9 L_Connect4.

Section Aside.
  Context {K : Type} {OK : OrdRing K}.
  Notation msg := (msg K).
  Notation proc := (proc pid msg).
  (** the manager takes no part in it *)
  Inductive aside {A} : proc A -> Prop :=
  | as_ret a : aside (Ret a)
  | as_fail x : aside (Fail x)
  | as_send w m k : aside k -> aside (Send (Wk w) m k)
  | as_recv w k : (forall m, aside (k m)) -> aside (Recv (Wk w) k).
  Lemma aside_bind {A B} (p : proc A) (f : A -> proc B) : aside p -> (forall a, aside (f a)) -> aside (pbind p f).
  Proof. intros Hp Hf. induction Hp; cbn [pbind]; [apply Hf|constructor|constructor; assumption|constructor; auto]. Qed.
  Lemma aside_lift {A} (r : res A) : aside (lift r).
  Proof. destruct r; constructor. Qed.
  Lemma aside_fold {A B} (f : A -> B -> proc A) l : (forall a b, aside (f a b)) -> forall a, aside (pfold f l a).
  Proof. intros H. induction l as [|b l IH]; intros a; cbn [pfold]; [constructor|]. apply aside_bind; [apply H|exact IH]. Qed.
  Lemma aside_inner {A} fuel : forall job vec x chunk window inflight last (k : Z -> Z -> proc A), (forall a b, aside (k a b)) -> aside (send_inner fuel job vec (Wk x) chunk window inflight last k).
  Proof. induction fuel as [|fuel IH]; intros; cbn [send_inner]; destruct (_ && _); auto; [constructor|]. constructor. apply IH; assumption. Qed.
  Lemma aside_outer fuel : forall job vec x chunk window inflight last, aside (send_outer fuel job vec (Wk x) chunk window inflight last).
  Proof. induction fuel as [|fuel IH]; intros; cbn [send_outer]; destruct (_ <? _); try constructor. apply aside_inner. intros a b. constructor. intros [op|c|j ch wd|j rel data dn]; try constructor. destruct (negb _); [constructor|]. apply IH. Qed.
  Lemma aside_send_state job vec x : aside (send_state job vec (Wk x)).
  Proof. unfold send_state. constructor. intros [op|c|j ch wd|j rel data dn]; try constructor. destruct (negb _); [constructor|]. apply aside_outer. Qed.
  Lemma aside_receive_loop fuel : forall job vec x ow chunk window, aside (receive_loop fuel job vec (Wk x) ow chunk window).
  Proof.
    induction fuel as [|fuel IH]; intros; cbn [receive_loop]; [constructor|]. constructor. intros [op|c|j ch wd|j rel data dn]; try constructor. apply aside_bind; [apply aside_lift|]. intros v. constructor. destruct dn; [constructor|]. apply IH.
  Qed.
  Lemma aside_receive_state job vec x ow chunk window : aside (receive_state job vec (Wk x) ow chunk window).
  Proof. unfold receive_state. constructor. apply aside_receive_loop. Qed.
  Lemma aside_sync c b up ow : aside (worker_sync c b up ow).
  Proof.
    unfold worker_sync. destruct (c_id c) as [input output]. destruct (_ && _).
    - apply aside_bind.
      + destruct ow; [constructor|]. unfold receive_state_increments_from_all. apply aside_fold. intros v w. apply aside_receive_state.
      + intros v. apply aside_bind; [|constructor]. destruct (threshold_of up).
        * unfold send_state_up_to. apply aside_fold. intros u w. destruct (_ <=? _); [constructor|]. apply aside_send_state.
        * unfold send_state_to_all. apply aside_fold. intros u w. apply aside_send_state.
    - apply aside_bind.
      + destruct ow; [constructor|]. unfold send_state_to_one. destruct (find_worker _ _) as [y|] eqn:E; [|constructor]. unfold find_worker in E. destruct (existsb _ _); [|discriminate]. injection E as <-. apply aside_send_state.
      + intros u. destruct (match threshold_of up with Some _ => _ | None => _ end); [|constructor]. apply aside_bind; [|constructor].
        unfold receive_state_from_one. destruct (find_worker _ _) as [y|] eqn:E; [|constructor]. unfold find_worker in E. destruct (existsb _ _); [|discriminate]. injection E as <-. apply aside_receive_state.
  Qed.

  (** ** A worker that answers the next operations [l] with CDone ([owed]: and the one before) *)
  Inductive tame : list msg -> bool -> proc (ending K) -> Prop :=
  | tm_free p : tame [] false p
  | tm_ret l o a : tame l o (Ret a)
  | tm_fail l o x : tame l o (Fail x)
  | tm_send l o w m k : tame l o k -> tame l o (Send (Wk w) m k)
  | tm_recv l o w k : (forall m, tame l o (k m)) -> tame l o (Recv (Wk w) k)
  | tm_reply l k : tame l false k -> tame l true (Send Mgr (MConf CDone) k)
  | tm_op m l k : tame l true (k m) -> tame (m :: l) false (Recv Mgr k).
  Lemma tame_aside {A} l o (p : proc A) f : aside p -> (forall a, tame l o (f a)) -> tame l o (pbind p f).
  Proof. intros Hp Hf. induction Hp; cbn [pbind]; [apply Hf|constructor|apply tm_send; assumption|apply tm_recv; auto]. Qed.
  Lemma tame_done {A} l (p : proc A) f : aside p -> (forall a, tame l true (f (a, CDone (K := K)))) -> tame l true (pbind (pbind p (fun a => Ret (a, CDone (K := K)))) f).
  Proof. intros Hp Hf. induction Hp; cbn [pbind]; [apply Hf|constructor|apply tm_send; assumption|apply tm_recv; auto]. Qed.
  Definition plain (op : wop K) : Prop := match op with OKron _ | OSync _ _ => True | _ => False end.
  Lemma tame_run rsqrt c l : Forall plain l -> forall envs b, tame (map MOp l) false (worker_run rsqrt c envs b).
  Proof.
    induction 1 as [|op l Hop Hl IH]; intros envs b; cbn [map]; [apply tm_free|].
    destruct envs as [|ev envs]; cbn [worker_run]; apply tm_op.
    - destruct op; constructor.
    - destruct op as [mats|m| |up ow|]; try destruct Hop; cbn [worker_op].
      + destruct (bk_kronselect_dot _ _ _ _ _) as [b'|x]; cbn [lift pbind snd fst]; [apply tm_reply, IH|apply tm_fail].
      + apply tame_done; [apply aside_sync|]. intros b'. cbn [snd fst]. apply tm_reply, IH.
  Qed.
End Aside.

(** ** The manager and worker e; the workers [D] answer CDone *)
Section Doom.
  Context {K : Type} {OK : OrdRing K}.
  Notation msg := (msg K).
  Notation proc := (proc pid msg).
  Context (D : list wid) (e : wid).
  Inductive doom : list (action (K := K)) -> proc (ending K) -> Prop :=
  | dm_fail : doom [] (Fail AttributeError)
  | dm_send m tr k : doom tr k -> doom (SA m :: tr) (Send (Wk e) m k)
  | dm_recv tr k : doom tr (k (MConf CDone)) -> doom (RA :: tr) (Recv (Wk e) k)
  | dm_send_o w m tr k : w <> e -> doom tr k -> doom tr (Send (Wk w) m k)
  | dm_recv_d w tr k : w <> e -> In w D -> doom tr (k (MConf CDone)) -> doom tr (Recv (Wk w) k)
  | dm_recv_o w tr k : w <> e -> ~ In w D -> (forall c, doom tr (k (MConf c))) -> doom tr (Recv (Wk w) k).
  Lemma wid_dec (a b : wid) : {a = b} + {a <> b}.
  Proof. destruct (wid_eqb a b) eqn:E; [left; apply wid_eqb_ok; exact E|right; intros X; apply wid_eqb_ok in X; congruence]. Qed.
  Lemma doom_try {A} tr tr' (p : proc A) f h : does e tr p -> (forall a, doom tr' (f a)) -> doom (tr ++ tr') (ptry p f h).
  Proof.
    intros Hp Hf. induction Hp; cbn [ptry app]; [apply Hf|apply dm_send; assumption|apply dm_recv; auto|apply dm_send_o; assumption|].
    destruct (in_dec wid_dec w D); [apply dm_recv_d; auto|apply dm_recv_o; auto].
  Qed.
  Lemma doom_bind {A} tr tr' (p : proc A) f : does e tr p -> (forall a, doom tr' (f a)) -> doom (tr ++ tr') (pbind p f).
  Proof.
    intros Hp Hf. induction Hp; cbn [pbind app]; [apply Hf|apply dm_send; assumption|apply dm_recv; auto|apply dm_send_o; assumption|].
    destruct (in_dec wid_dec w D); [apply dm_recv_d; auto|apply dm_recv_o; auto].
  Qed.
  Lemma doom_peq tr p : doom tr p -> forall q, peq p q -> doom tr q.
  Proof. induction 1; intros q Hq; inversion Hq; subst; eauto using doom. Qed.
  Lemma doom_try_bind {A B} tr tr' (p : proc A) (k : A -> proc B) f h : does e tr p -> (forall a, doom tr' (ptry (k a) f h)) -> doom (tr ++ tr') (ptry (pbind p k) f h).
  Proof.
    intros Hp Hf. induction Hp; cbn [ptry pbind app]; [apply Hf|apply dm_send; assumption|apply dm_recv; auto|apply dm_send_o; assumption|].
    destruct (in_dec wid_dec w D); [apply dm_recv_d; auto|apply dm_recv_o; auto].
  Qed.
  Lemma peq_try {A} (p q : proc A) (f : A -> proc (ending K)) h : peq p q -> peq (ptry p f h) (ptry q f h).
  Proof. induction 1; cbn [ptry]; try apply peq_refl; constructor; auto. Qed.
  Context (ws : list wid).
  Hypothesis Hnd : NoDup ws.
  Hypothesis He : In e ws.
  Hypothesis HD : NoDup D.
  Hypothesis HeD : In e D.

  (** the confirmations of D *)
  Lemma doom_receives {A} (f : list (conf K) -> proc A) g h tr : forall l, NoDup l -> incl l D -> forall cs,
    doom tr (ptry (f (cs ++ repeat (CDone (K := K)) (length l))) g h) ->
    doom ((if existsb (wid_eqb e) l then [RA] else []) ++ tr)
      (ptry (pbind (pfold (fun confs w => Recv (Wk w) (fun m => match m with MConf c => Ret (confs ++ [c]) | _ => Fail GenericException end)) l cs) f) g h).
  Proof.
    induction l as [|w l IH]; intros Hn Hi cs H; cbn [pfold pbind ptry existsb length repeat app] in *; [rewrite app_nil_r in H; exact H|].
    inversion Hn as [|x y Hx Hy]; subst. assert (Hi' : incl l D) by (intros x Hx'; apply Hi; right; exact Hx').
    specialize (IH Hy Hi' (cs ++ [CDone])). rewrite <- app_assoc in IH. specialize (IH H). destruct (wid_eqb e w) eqn:E.
    - apply wid_eqb_ok in E. subst w. cbn [orb app]. apply dm_recv. replace (existsb (wid_eqb e) l) with false in IH; [exact IH|].
      symmetry. apply not_true_is_false. intros X. apply Hx. apply existsb_exists in X. destruct X as (z & Hz & Ez). apply wid_eqb_ok in Ez. subst z. exact Hz.
    - cbn [orb]. apply dm_recv_d; [intros X; subst w; assert (wid_eqb e e = true) by (apply wid_eqb_ok; reflexivity); congruence|apply Hi; left; reflexivity|]. exact IH.
  Qed.
  Lemma select_done r : rlt 0%r r -> forall k i, select i (repeat (CDone (K := K)) k) r = None.
  Proof.
    intros Hr. induction k as [|k IH]; intros i; cbn [repeat select conf_prob]; [reflexivity|].
    replace (r - 0)%r with r. 2:{ Add Ring KR1 : (@rth K _). ring. }
    destruct (rleb r 0%r) eqn:E; [|apply IH]. exfalso. apply (rlt_irrefl r). eapply rle_lt_trans; [exact E|exact Hr].
  Qed.
  Definition close_tail : list (action (K := K)) := [SA (MOp OClose)].
  Lemma doom_closed : doom close_tail (pbind (send_to_each_of OClose ws) (fun _ => Fail AttributeError)).
  Proof. apply (doom_bind [SA (MOp OClose)] []); [apply does_sends; assumption|]. intros _. apply dm_fail. Qed.
  Hypothesis HDs : diagonal_workers ws = D.
  Definition measured : list (action (K := K)) := [SA (MOp OTotalProb); RA; SA (MOp OClose)].
  Lemma doom_measure n indices result r rest res freed : rlt 0%r r ->
    doom measured (manager_run n ws ((OMeasure (mkMeasure indices result false false 0), r) :: rest) res freed).
  Proof.
    intros Hr. cbn [manager_run send_op m_soft m_reduce m_top_k Z.eqb negb]. unfold send_measure. cbv zeta. rewrite HDs.
    assert (X : existsb (wid_eqb e) D = true) by (apply existsb_exists; exists e; split; [exact HeD|apply wid_eqb_ok; reflexivity]).
    eapply doom_peq; [|apply peq_try; eapply peq_trans; [|apply peq_sym; apply bind_assoc]; eapply peq_trans; [|apply peq_sym; apply bind_assoc]; apply peq_refl].
    apply (doom_try_bind [SA (MOp OTotalProb)] [RA; SA (MOp OClose)]); [apply does_sends; assumption|]. intros _. cbv beta.
    assert (R := doom_receives (fun confs => pbind (match select 0 confs r with
      | None => Fail AttributeError
      | Some i =>
        pdo selected <- lift (pyget D (Z.of_nat i));
        pdo _ <- Send (Wk selected) (MOp (get_bits_op (mkMeasure indices result false false 0) None)) (Ret tt);
        pdo c <- recv_conf selected;
        let measured_bits := conf_bits c in
        pdo confs <- map_workers_via_op (get_bits_op (mkMeasure indices result false false 0) (Some measured_bits)) (firstn i D ++ skipn (S i) D);
        let measured_prob := (conf_prob c + fold_left (fun acc c => acc + conf_prob c) confs 0)%r in
        pdo _ <- map_workers_via_op (do_measure_op (mkMeasure indices result false false 0) measured_bits measured_prob false) D;
        pdo _ <- map_workers_via_op (OSync None true) ws;
        Ret (measured_bits, measured_prob)
      end) (fun mp : Z * K => Ret (ws, [] : list wid, Some (inl mp) : mresult K))) (fun x => let '(workers, done, result) := x in manager_run n workers rest (res ++ [result]) (freed ++ done)) (fun x => pdo _ <- send_to_each_of OClose ws; Fail x) [SA (MOp OClose)] D HD (incl_refl D) []).
    rewrite X in R. cbn [app] in R. apply R. rewrite select_done by exact Hr. cbn [pbind ptry]. exact doom_closed.
  Qed.
  (** operations in front of the measurement *)
  Definition asked (mats : mats_arg K) : list (action (K := K)) := [SA (MOp (OKron mats)); RA; SA (MOp (OSync (Some 0) false)); RA].
  Lemma doom_krons n indices result r rest : rlt 0%r r -> forall krons res freed,
    doom (concat (map (fun o => asked (fst o)) krons) ++ measured)
      (manager_run n ws (map (fun o => (OKron (fst o), snd o)) krons ++ (OMeasure (mkMeasure indices result false false 0), r) :: rest) res freed).
  Proof.
    intros Hr. induction krons as [|[mats r'] krons IH]; intros res freed; cbn [map concat app fst snd]; [apply doom_measure; exact Hr|].
    change ([SA (MOp (OKron mats)); RA; SA (MOp (OSync (Some 0) false)); RA] ++ ?x) with (asked mats ++ x). rewrite <- app_assoc. cbn [manager_run send_op].
    apply (doom_try_bind (asked mats)); [|intros _; cbn [ptry]; apply IH].
    unfold send_kronprod, asked. apply (does_bind e [SA (MOp (OKron mats)); RA] [SA (MOp (OSync (Some 0) false)); RA]); [apply does_map; assumption|]. intros _.
    apply (does_bind e [SA (MOp (OSync (Some 0) false)); RA] []); [apply does_map; assumption|]. intros; constructor.
  Qed.
End Doom.

Section Stale.
  Context {K : Type} {OK : OrdRing K}.
  Notation msg := (msg K).
  Notation proc := (proc pid msg).
  Notation stt := (net pid msg (ending K)).
  Context (cap : pid -> pid -> option nat) (D : list wid) (cfg : wid -> worker_cfg).
  Notation done := (MConf (CDone (K := K))).
  Fixpoint sent (tr : list (action (K := K))) : list msg := match tr with [] => [] | SA m :: tr => m :: sent tr | RA :: tr => sent tr end.
  Fixpoint reads (tr : list (action (K := K))) : nat := match tr with [] => 0%nat | SA _ :: tr => reads tr | RA :: tr => S (reads tr) end.
  (** worker e of D: what it will answer, and what the manager will read *)
  Definition stale (s : stt) (e : wid) : Prop := exists tr l (owed : bool) a rest more,
    doom D e tr (procs s Mgr) /\ tame l owed (procs s (Wk e)) /\
    chans s (Wk e) Mgr = repeat done a ++ rest /\ (reads tr <= a + length l + (if owed then 1 else 0))%nat /\
    ((l = [] /\ owed = false) \/ rest = []) /\ chans s Mgr (Wk e) ++ sent tr = l ++ more.
  Definition others (s : stt) : Prop := forall w, confs_only (chans s (Wk w) Mgr).

  Lemma stale_head s e : stale s e -> forall k, procs s Mgr = Recv (Wk e) k -> forall m l, chans s (Wk e) Mgr = m :: l -> m = done.
  Proof.
    intros (tr & ops & owed & a & rest & more & Hd & Ht & Hc & Hr & Hf & Hs) k Ek m l Em. rewrite Ek in Hd. inversion Hd as [| |tr' k' Hd'| |w tr' k' Hw _ _|w tr' k' Hw _ _]; subst; [|contradiction|contradiction].
    cbn [reads] in Hr. rewrite Em in Hc. destruct a as [|a]; [|cbn [repeat app] in Hc; injection Hc as E _; exact E].
    destruct Hf as [[-> ->]|Hf]; [cbn [length] in Hr; lia|]. subst rest. discriminate.
  Qed.
  Lemma stale_mgr s s' e : (forall w, In w D -> stale s w) -> others s -> In e D -> exec pid_eqb cap s Mgr = Some s' -> stale s' e.
  Proof.
    intros HS HO HeD Hx. destruct (HS e HeD) as (tr & ops & owed & a & rest & more & Hd & Ht & Hc & Hr & Hf & Hs). unfold exec in Hx.
    destruct (procs s Mgr) as [r|x|to m k|from k] eqn:Ep; try discriminate.
    - destruct (has_room _ _); [|discriminate]. injection Hx as <-. inversion Hd as [|m' tr' k' Hd' E1 E2| |w m' tr' k' Hw Hd' E1 E2| |]; subst.
      + exists tr', ops, owed, a, rest, more. cbn [procs chans]. rewrite set1_same, set1_other, set2_same, set2_other by (discriminate || (left; discriminate)).
        split; [exact Hd'|]. split; [exact Ht|]. split; [exact Hc|]. split; [exact Hr|]. split; [exact Hf|]. cbn [sent] in Hs. rewrite <- app_assoc. exact Hs.
      + exists tr, ops, owed, a, rest, more. cbn [procs chans]. rewrite set1_same, set1_other by discriminate. rewrite !set2_other by (left; discriminate) || (right; congruence). auto 10.
    - destruct (chans s from Mgr) as [|m l] eqn:Ec; [discriminate|]. injection Hx as <-. inversion Hd as [| |tr' k' Hd' E1 E2| |w tr' k' Hw HwD Hd' E1 E2|w tr' k' Hw HwD Hd' E1 E2]; subst.
      + assert (Em := stale_head s e (HS e HeD) k Ep m l Ec). subst m. cbn [reads sent] in Hr, Hs.
        destruct a as [|a]. { destruct Hf as [[-> ->]|Hf]; [cbn [length] in Hr; lia|]. subst rest. rewrite Hc in Ec. discriminate. }
        exists tr', ops, owed, a, rest, more. cbn [procs chans]. rewrite set1_same, set1_other, set2_same, set2_other by (discriminate || (left; discriminate)).
        rewrite Hc in Ec. cbn [repeat app] in Ec. injection Ec as <-. repeat split; auto. lia.
      + assert (Em := stale_head s w (HS w HwD) k Ep m l Ec). subst m. exists tr, ops, owed, a, rest, more. cbn [procs chans]. rewrite set1_same, set1_other by discriminate. rewrite !set2_other by (left; congruence). auto 10.
      + destruct (HO w m) as (c & ->); [rewrite Ec; left; reflexivity|]. exists tr, ops, owed, a, rest, more. cbn [procs chans]. rewrite set1_same, set1_other by discriminate. rewrite !set2_other by (left; congruence). auto 10.
  Qed.
  Lemma stale_other s s' e w : w <> e -> stale s e -> exec pid_eqb cap s (Wk w) = Some s' -> stale s' e.
  Proof.
    intros Hw (tr & ops & owed & a & rest & more & Hd & Ht & Hc & Hr & Hf & Hs). assert (Hw' : Wk e <> Wk w) by congruence. unfold exec. destruct (procs s (Wk w)) as [r|x|to m k|from k]; try discriminate.
    - destruct (has_room _ _); [|discriminate]. intros X. injection X as <-. exists tr, ops, owed, a, rest, more. cbn [procs chans]. rewrite !set1_other by (assumption || discriminate). rewrite !set2_other by (left; (assumption || discriminate)). auto 10.
    - destruct (chans s from (Wk w)) as [|m l]; [discriminate|]. intros X. injection X as <-. exists tr, ops, owed, a, rest, more. cbn [procs chans]. rewrite !set1_other by (assumption || discriminate). rewrite !set2_other by (right; (assumption || discriminate)). auto 10.
  Qed.
  Lemma repeat_snoc {A} (x : A) n : repeat x n ++ [x] = repeat x (S n).
  Proof. induction n as [|n IH]; [reflexivity|]. cbn [repeat app]. rewrite IH. reflexivity. Qed.
  Lemma stale_self s s' e : stale s e -> exec pid_eqb cap s (Wk e) = Some s' -> stale s' e.
  Proof.
    intros (tr & ops & owed & a & rest & more & Hd & Ht & Hc & Hr & Hf & Hs) Hx. unfold exec in Hx. destruct (procs s (Wk e)) as [r|x|to m k|from k] eqn:Ep; try discriminate.
    - destruct (has_room _ _); [|discriminate]. injection Hx as <-. inversion Ht as [p E1 E2 E3| | |l o w m' k' Ht' E1 E2 E3| |l k' Ht' E1 E2 E3|]; subst.
      + destruct to as [|t].
        * exists tr, [], false, a, (rest ++ [m]), more. cbn [procs chans]. rewrite set1_same, set1_other, set2_same, set2_other by (discriminate || (left; discriminate)). rewrite Hc, <- app_assoc. repeat split; auto using tm_free.
        * exists tr, [], false, a, rest, more. cbn [procs chans]. rewrite set1_same, set1_other, !set2_other by (discriminate || (left; discriminate) || (right; discriminate)). repeat split; auto using tm_free.
      + exists tr, ops, owed, a, rest, more. cbn [procs chans]. rewrite set1_same, set1_other, !set2_other by (discriminate || (left; discriminate) || (right; discriminate)). repeat split; auto.
      + destruct Hf as [[_ X]|Hf]; [discriminate|]. subst rest. exists tr, ops, false, (S a), [], more. cbn [procs chans]. rewrite set1_same, set1_other, set2_same, set2_other by (discriminate || (left; discriminate)).
        rewrite Hc, !app_nil_r, repeat_snoc. repeat split; auto. lia.
    - destruct (chans s from (Wk e)) as [|m l] eqn:Ec; [discriminate|]. injection Hx as <-. inversion Ht as [p E1 E2 E3| | | |l' o w k' Ht' E1 E2 E3| |m' l' k' Ht' E1 E2 E3]; subst.
      + destruct (pid_eqb from Mgr) eqn:Ef.
        * apply pid_eqb_ok in Ef. subst from. exists tr, [], false, a, rest, (l ++ sent tr). cbn [procs chans]. rewrite set1_same, set1_other, set2_same, set2_other by (discriminate || (left; discriminate) || (right; discriminate)). repeat split; auto using tm_free.
        * assert (Hm : from <> Mgr) by (intros ->; discriminate). exists tr, [], false, a, rest, more. cbn [procs chans]. rewrite set1_same, set1_other by discriminate. rewrite !set2_other by (right; discriminate) || (left; congruence). repeat split; auto using tm_free.
      + exists tr, ops, owed, a, rest, more. cbn [procs chans]. rewrite set1_same, set1_other by discriminate. rewrite !set2_other by (right; discriminate) || (left; discriminate). repeat split; auto.
      + rewrite Ec in Hs. cbn [app] in Hs. injection Hs as -> Hs. destruct Hf as [[X _]|Hf]; [discriminate|]. subst rest.
        exists tr, l', true, a, [], more. cbn [procs chans]. rewrite set1_same, set1_other, set2_same, set2_other by (discriminate || (left; discriminate) || (right; discriminate)). cbn [length] in Hr. repeat split; auto. lia.
  Qed.
  Lemma stale_step s i s' : base2 cfg s -> (forall w, In w D -> stale s w) -> exec pid_eqb cap s i = Some s' -> forall w, In w D -> stale s' w.
  Proof.
    intros B HS Hx w Hw. destruct i as [|v]; [eapply stale_mgr; try eassumption; exact (proj2 B)|].
    destruct (wid_dec v w) as [->|Hv]; [eapply stale_self; [apply HS, Hw|exact Hx]|eapply stale_other; [exact Hv|apply HS, Hw|exact Hx]].
  Qed.
  Lemma stale_runs : forall sched s s', base2 cfg s -> (forall w, In w D -> stale s w) -> runs pid_eqb cap s sched = Some s' -> forall w, In w D -> stale s' w.
  Proof.
    induction sched as [|i sched IH]; intros s s' B HS H; cbn [runs] in H; [injection H as <-; exact HS|]. destruct (exec pid_eqb cap s i) as [t|] eqn:E; [|discriminate].
    apply (IH t); [eapply exec_base2; eassumption|eapply stale_step; eassumption|exact H].
  Qed.
End Stale.

Section Next.
  Context {K : Type} {OK : OrdRing K}.
  Lemma sent_app (a b : list (action (K := K))) : sent (a ++ b) = sent a ++ sent b.
  Proof. induction a as [|[m|] a IH]; cbn [app sent]; [reflexivity|rewrite IH; reflexivity|exact IH]. Qed.
  Lemma reads_app (a b : list (action (K := K))) : reads (a ++ b) = (reads a + reads b)%nat.
  Proof. induction a as [|[m|] a IH]; cbn [app reads]; [reflexivity|exact IH|rewrite IH; reflexivity]. Qed.
  Definition ops_of (krons : list (mats_arg K * K)) : list (wop K) := concat (map (fun o => [OKron (fst o); OSync (Some 0) false]) krons).
  Lemma asked_sent krons : sent (concat (map (fun o : mats_arg K * K => asked (fst o)) krons)) = map MOp (ops_of krons) /\ reads (concat (map (fun o : mats_arg K * K => asked (fst o)) krons)) = length (ops_of krons).
  Proof. unfold ops_of. induction krons as [|o krons [IH1 IH2]]; [split; reflexivity|]. cbn [map concat app asked sent reads length]. rewrite IH1, IH2. split; reflexivity. Qed.
  Lemma ops_plain krons : Forall plain (ops_of krons).
  Proof. unfold ops_of. induction krons as [|o krons IH]; [constructor|]. cbn [map concat app]. constructor; [exact I|]. constructor; [exact I|]. exact IH. Qed.
  Lemma next_job cap (rsqrt : K -> K) n ws krons indices result r rest cfg envs (b : wid -> backend K) left sched s' e :
    NoDup ws -> In e ws -> fst e = snd e -> rlt 0%r r -> (forall w, In w ws -> fst w = snd w -> left w = [CDone]) ->
    runs pid_eqb cap (next_net rsqrt n ws (map (fun o => (OKron (fst o), snd o)) krons ++ (OMeasure (mkMeasure indices result false false 0), r) :: rest) cfg envs b left) sched = Some s' ->
    (forall x, procs s' Mgr <> Ret x) /\ (forall x, procs s' Mgr = Fail x -> x = AttributeError).
  Proof.
    intros Hnd He Hdiag Hr Hleft H.
    assert (HD : NoDup (diagonal_workers ws)) by (unfold diagonal_workers; eapply Permutation_NoDup; [apply sort_wids_perm|]; apply NoDup_filter; exact Hnd).
    assert (HDin : forall w, In w (diagonal_workers ws) <-> In w ws /\ fst w = snd w).
    { intros w. unfold diagonal_workers. assert (P := sort_wids_perm (filter (fun w => range_eqb (fst w) (snd w)) ws)). split.
      - intros Hw. apply (Permutation_in w (Permutation_sym P)) in Hw. apply filter_In in Hw. destruct Hw as [Hw E]. split; [exact Hw|]. apply range_eqb_ok. exact E.
      - intros [Hw E]. apply (Permutation_in w P). apply filter_In. split; [exact Hw|]. apply range_eqb_ok. exact E. }
    assert (S : stale (diagonal_workers ws) s' e).
    { eapply (stale_runs cap (diagonal_workers ws) cfg); [| |exact H|apply HDin; auto].
      - split.
        + intros w. cbn [next_net job_net procs]. destruct (existsb (wid_eqb w) ws); [apply ok_run; reflexivity|constructor].
        + intros w m Hm. cbn [next_net chans] in Hm. apply in_map_iff in Hm. destruct Hm as (c & <- & _). exists c. reflexivity.
      - intros w Hw. assert (Hw' := Hw). apply HDin in Hw'. destruct Hw' as [Hw1 Hw2].
        exists (concat (map (fun o => asked (fst o)) krons) ++ measured), (map MOp (ops_of krons)), false, 1%nat, [], [MOp OTotalProb; MOp OClose].
        cbn [next_net procs chans job_net]. split; [apply doom_krons; auto|]. split.
        { replace (existsb (wid_eqb w) ws) with true; [apply tame_run, ops_plain|]. symmetry. apply existsb_exists. exists w. split; [exact Hw1|apply wid_eqb_ok; reflexivity]. }
        rewrite (Hleft w Hw1 Hw2). destruct (asked_sent krons) as [E1 E2]. rewrite sent_app, reads_app, E1, E2, map_length. cbn [measured sent reads app repeat map]. repeat split; auto. lia. }
    destruct S as (tr & l & owed & a & rest' & more & Hd & _). split; intros x E; rewrite E in Hd; inversion Hd; reflexivity.
  Qed.
End Next.
