(** The manager of a job talks to the workers of its pool only. *)
From Verif Require Import Base M_Kron M_Measure M_Pool M_Top M_Net S_Net L_Net M_Worker L_Worker1 M_Jobs S_Jobs L_Jobs1.

Section Only.
  Context {K : Type} {OK : OrdRing K}.
  Fixpoint only {A} (ws : list wid) (p : proc pid (msg K) A) : Prop :=
    match p with
    | Ret _ | Fail _ => True
    | Send to _ k => (exists w, to = Wk w /\ In w ws) /\ only ws k
    | Recv from k => (exists w, from = Wk w /\ In w ws) /\ forall m, only ws (k m)
    end.
  Lemma only_mono {A} ws ws' (p : proc pid (msg K) A) : incl ws ws' -> only ws p -> only ws' p.
  Proof.
    intros H. induction p as [r|e|to m k IH|from k IH]; cbn; auto.
    - intros [(w & E & Hw) Hk]. split; [exists w; auto|auto].
    - intros [(w & E & Hw) Hk]. split; [exists w; auto|auto].
  Qed.
  (** what follows: results satisfying [Q] *)
  Fixpoint gives {A} (Q : A -> Prop) (p : proc pid (msg K) A) : Prop :=
    match p with Ret a => Q a | Fail _ => True | Send _ _ k => gives Q k | Recv _ k => forall m, gives Q (k m) end.
  Lemma only_bind {A B} (Q : A -> Prop) ws (p : proc pid (msg K) A) (f : A -> proc pid (msg K) B) :
    only ws p -> gives Q p -> (forall a, Q a -> only ws (f a)) -> only ws (pbind p f).
  Proof. intros H1 H2 H3. induction p as [r|e|to m k IH|from k IH]; cbn in *; auto; destruct H1 as [H1 H1']; auto. Qed.
  Lemma gives_bind {A B} (Q : A -> Prop) (Q' : B -> Prop) (p : proc pid (msg K) A) (f : A -> proc pid (msg K) B) :
    gives Q p -> (forall a, Q a -> gives Q' (f a)) -> gives Q' (pbind p f).
  Proof. intros H2 H3. induction p as [r|e|to m k IH|from k IH]; cbn in *; auto. Qed.
  Lemma only_try {A B} (Q : A -> Prop) ws (p : proc pid (msg K) A) (f : A -> proc pid (msg K) B) h :
    only ws p -> gives Q p -> (forall a, Q a -> only ws (f a)) -> (forall e, only ws (h e)) -> only ws (ptry p f h).
  Proof. intros H1 H2 H3 H4. induction p as [r|e|to m k IH|from k IH]; cbn in *; auto; destruct H1 as [H1 H1']; auto. Qed.
  Lemma gives_true {A} (p : proc pid (msg K) A) : gives (fun _ => True) p.
  Proof. induction p; cbn; auto. Qed.
  Lemma only_bind' {A B} ws (p : proc pid (msg K) A) (f : A -> proc pid (msg K) B) : only ws p -> (forall a, only ws (f a)) -> only ws (pbind p f).
  Proof. intros H1 H2. apply (only_bind (fun _ => True)); auto using gives_true. Qed.
  Lemma only_fold {A B} ws (f : A -> B -> proc pid (msg K) A) l : (forall a b, In b l -> only ws (f a b)) -> forall a, only ws (pfold f l a).
  Proof. induction l as [|b l IH]; intros H a; cbn; [exact I|]. apply only_bind'; [apply H; left; reflexivity|]. apply IH. intros; apply H; right; assumption. Qed.
  Lemma only_lift {A} ws (r : res A) : only ws (lift r).
  Proof. destruct r; exact I. Qed.
  Lemma gives_lift {A} (Q : A -> Prop) (r : res A) : (forall a, r = Ok a -> Q a) -> gives Q (lift r).
  Proof. destruct r; cbn; auto. Qed.

  Lemma only_send ws op l : incl l ws -> only ws (send_to_each_of (K := K) op l).
  Proof. intros H. apply only_fold. intros _ w Hw. cbn. split; [exists w; auto|exact I]. Qed.
  Lemma only_receive ws l : incl l ws -> only ws (receive_from_each_of (K := K) l).
  Proof. intros H. apply only_fold. intros c w Hw. cbn. split; [exists w; auto|]. intros []; exact I. Qed.
  Lemma only_via ws op l : incl l ws -> only ws (map_workers_via_op (K := K) op l).
  Proof. intros H. apply only_bind'; [apply only_send; exact H|]. intros _. apply only_receive. exact H. Qed.
  Lemma only_conf ws w : In w ws -> only ws (recv_conf (K := K) w).
  Proof. intros H. cbn. split; [exists w; auto|]. intros []; exact I. Qed.
  Lemma only_one ws w (m : msg K) : In w ws -> only ws (Send (Wk w) m (Ret tt)).
  Proof. intros H. cbn. split; [exists w; auto|exact I]. Qed.

  Lemma incl_insert w l : incl (insert_wid w l) (w :: l).
  Proof. induction l as [|x l IH]; cbn; [apply incl_refl|]. destruct (wid_ltb w x); [apply incl_refl|]. intros y [<-|Hy]; [right; left; reflexivity|]. destruct (IH y Hy) as [<-|H]; [left; reflexivity|right; right; exact H]. Qed.
  Lemma incl_sort l : forall acc, incl (fold_left (fun acc w => insert_wid w acc) l acc) (acc ++ l).
  Proof.
    induction l as [|x l IH]; intros acc; cbn; [rewrite app_nil_r; apply incl_refl|]. intros y Hy. apply IH in Hy. apply in_app_or in Hy. apply in_or_app. destruct Hy as [Hy|Hy]; [|right; right; exact Hy].
    destruct (incl_insert x acc y Hy) as [<-|H]; [right; left; reflexivity|left; exact H].
  Qed.
  Lemma incl_diagonal l : incl (diagonal_workers l) l.
  Proof. intros y Hy. apply (incl_sort _ []) in Hy. cbn in Hy. apply filter_In in Hy. tauto. Qed.
  Lemma incl_filter {A} (f : A -> bool) l : incl (filter f l) l.
  Proof. intros y Hy. apply filter_In in Hy. tauto. Qed.
  Lemma pyget_In {A} (l : list A) i x : pyget l i = Ok x -> In x l.
  Proof.
    unfold pyget. set (n := if i <? 0 then i + zlen l else i). destruct (n <? 0); [discriminate|].
    destruct (nth_error l (Z.to_nat n)) eqn:E; [|discriminate]. intros H. injection H as <-. exact (nth_error_In _ _ E).
  Qed.
  Lemma incl_groups th l : forall acc ws, incl l ws -> (forall g, In g acc -> incl (snd g) ws) ->
    forall g, In g (fold_left (fun acc w =>
      if (th <? fst (snd w)) then acc
      else if existsb (fun g : range * list wid => range_eqb (fst g) (fst w)) acc
           then map (fun g => if range_eqb (fst g) (fst w) then (fst g, snd g ++ [w]) else g) acc
           else acc ++ [(fst w, [w])]) l acc) -> incl (snd g) ws.
  Proof.
    induction l as [|w l IH]; intros acc ws Hl Hacc g Hg; cbn [fold_left] in Hg; [apply Hacc; exact Hg|].
    apply IH with (3 := Hg); [intros y Hy; apply Hl; right; exact Hy|]. clear Hg g. intros g Hg.
    assert (Hw : In w ws) by (apply Hl; left; reflexivity).
    destruct (th <? _); [apply Hacc; exact Hg|]. destruct (existsb _ _).
    - apply in_map_iff in Hg. destruct Hg as (g' & <- & Hg'). specialize (Hacc g' Hg'). destruct (range_eqb _ _); [|exact Hacc]. cbn [snd]. intros y Hy. apply in_app_or in Hy. destruct Hy as [Hy|[<-|[]]]; auto.
    - apply in_app_or in Hg. destruct Hg as [Hg|[<-|[]]]; [apply Hacc; exact Hg|]. intros y [<-|[]]. exact Hw.
  Qed.
  Lemma first_In groups key w : first_of groups key = Ok w -> exists g, In g groups /\ In w (snd g).
  Proof.
    unfold first_of. destruct (find _ _) as [[r [|x l]]|] eqn:E; try discriminate. intros H. injection H as <-. apply find_some in E. destruct E as [E _]. exists (r, x :: l). split; [exact E|left; reflexivity].
  Qed.
  Lemma mmap_In {A B} (f : A -> res B) l : forall l' b, mmap f l = Ok l' -> In b l' -> exists a, In a l /\ f a = Ok b.
  Proof.
    induction l as [|a l IH]; intros l' b H Hb; cbn in H; [injection H as <-; destruct Hb|].
    destruct (f a) as [y|e] eqn:Ef; [|discriminate]. cbn in H. destruct (mmap f l) as [ys|e] eqn:Em; [|discriminate]. cbn in H. injection H as <-.
    destruct Hb as [<-|Hb]; [exists a; split; [left; reflexivity|exact Ef]|]. destruct (IH ys b eq_refl Hb) as (a' & Ha' & E'). exists a'. split; [right; exact Ha'|exact E'].
  Qed.

  Lemma only_kron ws l (op : wop K) : incl l ws -> only ws (send_kronprod l op).
  Proof. intros H. unfold send_kronprod. apply only_bind'; [apply only_via; exact H|]. intros _. apply only_bind'; [apply only_via; exact H|]. intros _. exact I. Qed.
  Lemma only_measure ws r l (m : measure_op K) : incl l ws -> only ws (send_measure r l m).
  Proof.
    intros H. assert (Hd : incl (diagonal_workers l) ws) by (intros y Hy; apply H, incl_diagonal, Hy). unfold send_measure.
    apply only_bind'; [apply only_via; exact Hd|]. intros confs. destruct (select 0 confs r) as [i|]; [|exact I].
    apply (only_bind (fun w => In w ws)); [apply only_lift|apply gives_lift; intros w E; apply Hd; exact (pyget_In _ _ _ E)|]. intros w Hw.
    apply only_bind'; [apply only_one; exact Hw|]. intros _. apply only_bind'; [apply only_conf; exact Hw|]. intros c.
    apply only_bind'; [apply only_via|]. { intros y Hy. apply Hd. apply in_app_or in Hy. destruct Hy as [Hy|Hy]; [rewrite <- (firstn_skipn i); apply in_or_app; left; exact Hy|rewrite <- (firstn_skipn (S i)); apply in_or_app; right; exact Hy]. }
    intros confs'. apply only_bind'; [apply only_via; exact Hd|]. intros _. apply only_bind'; [apply only_via; exact H|]. intros _. exact I.
  Qed.
  Lemma only_top ws l (m : measure_op K) : incl l ws -> only ws (send_measure_top l m).
  Proof. intros H. unfold send_measure_top. apply only_bind'; [apply only_via; intros y Hy; apply H, incl_diagonal, Hy|]. intros c. apply only_lift. Qed.
  Lemma only_reduce ws r n l (m : measure_op K) : incl l ws -> only ws (send_reduce_measure r n l m).
  Proof.
    intros H. unfold send_reduce_measure. set (th := reduce_threshold n (m_indices m)).
    assert (Hg : forall g, In g (get_workers_up_to_output l th) -> incl (snd g) ws) by (apply incl_groups; [exact H|intros g []]).
    apply (only_bind (fun fs => incl fs ws)); [apply only_lift|apply gives_lift|].
    { intros fs E w Hw. destruct (mmap_In _ _ _ _ E Hw) as (key & _ & Ek). destruct (first_In _ _ _ Ek) as (g & Hin & Hw'). exact (Hg g Hin w Hw'). }
    intros fs Hf. apply only_bind'; [apply only_via; exact Hf|]. intros confs.
    apply (only_bind (fun w => In w ws)); [destruct (select 0 confs r); [apply only_lift|exact I]|destruct (select 0 confs r); [apply gives_lift; intros w E; apply Hf; exact (pyget_In _ _ _ E)|exact I]|].
    intros w Hw. apply only_bind'; [apply only_one; exact Hw|]. intros _. apply only_bind'; [apply only_conf; exact Hw|]. intros c.
    apply only_bind'; [apply only_via; intros y Hy; apply incl_filter in Hy; auto|]. intros confs'.
    assert (Ha : incl (concat (map snd (get_workers_up_to_output l th))) ws).
    { intros y Hy. apply in_concat in Hy. destruct Hy as (x & Hx & Hy). apply in_map_iff in Hx. destruct Hx as (g & <- & Hgg). exact (Hg g Hgg y Hy). }
    apply only_bind'; [apply only_via; exact Ha|]. intros _. apply only_bind'; [apply only_via; exact Ha|]. intros _.
    apply only_bind'; [apply only_send; intros y Hy; apply incl_filter in Hy; auto|]. intros _. exact I.
  Qed.
  (** the workers a job keeps are among those it had *)
  Lemma gives_const {A} (Q : A -> Prop) (p : proc pid (msg K) A) : (forall a, Q a) -> gives Q p.
  Proof. intros H. induction p; cbn; auto. Qed.
  Lemma gives_reduce ws r n l (m : measure_op K) : incl l ws -> gives (fun x => incl (fst (fst x)) ws) (send_reduce_measure r n l m).
  Proof.
    intros H. unfold send_reduce_measure. repeat (apply (gives_bind (fun _ => True)); [apply gives_true|]; intros ? _). cbn. intros y Hy. apply incl_filter in Hy. auto.
  Qed.
  Lemma only_op ws r n l (op : wop K) : incl l ws -> only ws (send_op r n l op) /\ gives (fun x => incl (fst (fst x)) ws) (send_op r n l op).
  Proof.
    intros H. destruct op as [mats|m| | |]; cbn [send_op]; try (split; exact I).
    - split; [apply only_bind'; [apply only_kron; exact H|intros _; exact I]|]. apply (gives_bind (fun _ => True)); [apply gives_true|]. intros _ _. exact H.
    - destruct (m_soft m); [split; exact I|]. destruct (m_reduce m).
      + split; [apply only_bind'; [apply only_reduce; exact H|intros [[? ?] ?]; exact I]|]. apply (gives_bind (fun x => incl (fst (fst x)) ws)); [apply gives_reduce; exact H|]. intros [[? ?] ?] Hx. exact Hx.
      + destruct (negb _); [destruct (_ <? _); [split; exact I|]|].
        * split; [apply only_bind'; [apply only_top; exact H|intros ?; exact I]|]. apply (gives_bind (fun _ => True)); [apply gives_true|]. intros ? _. exact H.
        * split; [apply only_bind'; [apply only_measure; exact H|intros ?; exact I]|]. apply (gives_bind (fun _ => True)); [apply gives_true|]. intros ? _. exact H.
  Qed.
  Lemma only_manager ws n (ops : list (wop K * K)) : forall l results freed, incl l ws -> only ws (manager_run n l ops results freed).
  Proof.
    induction ops as [|[op r] ops IH]; intros l results freed H; cbn [manager_run].
    - apply only_bind'; [apply only_send; exact H|]. intros _. exact I.
    - destruct (only_op ws r n l op H) as [H1 H2]. apply (only_try (fun x => incl (fst (fst x)) ws)); [exact H1|exact H2| |].
      + intros [[l' d] res] Hx. apply IH. exact Hx.
      + intros e. apply only_bind'; [apply only_send; exact H|]. intros _. exact I.
  Qed.
  Lemma only_alone rsqrt capd capu capw (jobs : nat -> job K) j s : alone rsqrt capd capu capw jobs j s -> only (j_ws (jobs j)) (procs s Mgr).
  Proof.
    intros [sched H]. revert s H. induction sched as [|x sched IH] using rev_ind; intros s H.
    - cbn in H. injection H as <-. apply only_manager, incl_refl.
    - rewrite runs_app in H. destruct (runs _ _ _ sched) as [t|] eqn:Et; [|discriminate]. cbn in H.
      destruct (exec _ _ t x) as [t'|] eqn:Ex; [|discriminate]. injection H as <-. specialize (IH t eq_refl).
      destruct (exec_cases pid_eqb _ t x t' Ex) as [(to & m & k & E1 & _ & ->)|(from & m & l & k & E1 & _ & ->)]; cbn [procs]; unfold set1;
        (destruct (pid_eqb Mgr x) eqn:E; [apply pid_eqb_ok in E; subst x; rewrite E1 in IH; apply IH|exact IH]).
  Qed.
End Only.
