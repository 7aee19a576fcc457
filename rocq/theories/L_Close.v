(** Lemmas: the shutdown of the manager. *)
From Verif Require Import Base M_Pool M_Manager S_Manager L_Manager M_Close S_Close.

Lemma empty_pool_ok m j : ok m -> ok (empty_pool m j) /\ Permutation (all_workers (empty_pool m j)) (all_workers m).
Proof.
  intros Hm. unfold empty_pool. destruct (nth_error (mg_jobs m) j) as [x|] eqn:Ej; [|split; [exact Hm|reflexivity]].
  split.
  - eapply ok_set; [exact Hm|exact Ej|]. pose proof (Hm j x Ej) as Hx. unfold job_ok in *. cbn. destruct (jb_status x); tauto.
  - unfold all_workers. cbn [mg_free mg_jobs]. rewrite <- app_assoc. apply Permutation_app_head.
    set (y := mkJob (jb_n x) (jb_min x) (jb_unallocated x) [] (jb_returned x) (jb_status x)).
    apply Permutation_app_inv_l with (held x). rewrite app_assoc, (Permutation_app_comm (held x)), <- app_assoc, (held_upd (mg_jobs m) j x y Ej), app_assoc.
    apply Permutation_app_tail. unfold held, y. cbn. rewrite app_assoc, (Permutation_app_comm (map en_worker (jb_pool x))), <- app_assoc. reflexivity.
Qed.

(** a listed thread has set its pool up *)
Definition settled (m : manager) (j : nat) : Prop := exists x, nth_error (mg_jobs m) j = Some x /\ jb_status x <> Drawn /\ jb_unallocated x = [].
Definition listed_ok (s : site) : Prop := forall j, In j (st_listed s) -> settled (st_manager s) j.

(** what a section does to another thread's data, and to a thread that has set its pool up *)
Lemma step_job m e m' j x : step m e = Some m' -> nth_error (mg_jobs m) j = Some x -> jb_status x <> Drawn -> jb_unallocated x = [] ->
  exists y, nth_error (mg_jobs m') j = Some y /\ jb_status y <> Drawn /\ jb_unallocated y = [] /\
    (forall w, In w (map en_worker (jb_pool y)) -> In w (map en_worker (jb_pool x))) /\
    (forall w, In w (map en_worker (jb_pool x)) -> In w (map en_worker (jb_pool y)) \/ e = ClosePool j true \/ exists is, e = Operation j (OpReduce is)).
Proof.
  intros E Hj Hd Hu.
  assert (Hset : forall i z, nth_error (upd (mg_jobs m) i z) j = if (j =? i)%nat then Some z else Some x) by (intros i z; rewrite nth_error_upd, Hj; reflexivity).
  assert (Hkeep : forall m', nth_error (mg_jobs m') j = Some x -> exists y, nth_error (mg_jobs m') j = Some y /\ jb_status y <> Drawn /\ jb_unallocated y = [] /\
    (forall w, In w (map en_worker (jb_pool y)) -> In w (map en_worker (jb_pool x))) /\
    (forall w, In w (map en_worker (jb_pool x)) -> In w (map en_worker (jb_pool y)) \/ e = ClosePool j true \/ exists is, e = Operation j (OpReduce is))).
  { intros mm H. exists x. repeat split; auto. }
  destruct e as [w|n|i sent|i sent|i op|i|i sent]; cbn [step] in E.
  - injection E as <-. apply Hkeep. exact Hj.
  - assert (Ha : forall f y, nth_error (mg_jobs (mkManager f (mg_jobs m ++ [y]))) j = Some x) by (intros f y; cbn; rewrite nth_error_app1; [exact Hj|apply nth_error_Some; congruence]).
    destruct (draw_workers n (mg_free m)) as [[[u mn] rest]|ex]; injection E as <-; apply Hkeep, Ha.
  - destruct (nth_error (mg_jobs m) i) as [y|] eqn:Ei; [|discriminate]. destruct (jb_status y) eqn:Es; try discriminate.
    assert (Hn : (j =? i)%nat = false) by (apply Nat.eqb_neq; intros ->; congruence).
    destruct (allocate_workers _ _ _) as [[? ?]|]; injection E as <-; apply Hkeep; cbn [set_job mg_jobs]; rewrite Hset, Hn; reflexivity.
  - destruct (nth_error (mg_jobs m) i) as [y|] eqn:Ei; [|discriminate]. destruct (jb_status y) eqn:Es; try discriminate. injection E as <-. cbn [set_job mg_jobs]. rewrite Hset.
    destruct (Nat.eqb_spec j i) as [<-|_]; (eexists; split; [reflexivity|]); [|repeat split; auto]. rewrite Hj in Ei. injection Ei as <-. cbn. destruct sent; repeat split; auto; discriminate.
  - destruct (nth_error (mg_jobs m) i) as [y|] eqn:Ei; [|discriminate]. destruct (jb_status y) eqn:Es; try discriminate. destruct (jb_returned y) eqn:Er; [|discriminate].
    destruct op as [|is| |]; [injection E as <-; apply Hkeep; exact Hj|destruct (pool_reduce (mkPool (jb_n y) (jb_pool y)) is) as [p d] eqn:Ep| |]; injection E as <-; cbn [set_job mg_jobs]; rewrite Hset;
      (destruct (Nat.eqb_spec j i) as [<-|_]; (eexists; split; [reflexivity|]); [|repeat split; auto]); rewrite Hj in Ei; injection Ei as <-; cbn; repeat split; auto; try discriminate.
    + intros w Hw. apply (Permutation_in w (reduce_perm _ _ _ _ _ Ep)). apply in_or_app. left. exact Hw.
    + intros w _. right. right. exists is. reflexivity.
  - destruct (nth_error (mg_jobs m) i) as [y|] eqn:Ei; [|discriminate]. destruct (jb_status y) eqn:Es; try discriminate; injection E as <-; cbn [mg_jobs]; rewrite Hset;
      (destruct (Nat.eqb_spec j i) as [<-|_]; (eexists; split; [reflexivity|]); [|repeat split; auto]); rewrite Hj in Ei; injection Ei as <-; cbn; repeat split; auto; congruence.
  - destruct (nth_error (mg_jobs m) i) as [y|] eqn:Ei; [|discriminate]. destruct (jb_status y) eqn:Es; try discriminate. injection E as <-. cbn [set_job mg_jobs]. rewrite Hset.
    destruct (Nat.eqb_spec j i) as [<-|_]; (eexists; split; [reflexivity|]); [|repeat split; auto]. rewrite Hj in Ei. injection Ei as <-. destruct sent; cbn; repeat split; auto; try discriminate; intros w [].
Qed.
Lemma empty_job m i j x : nth_error (mg_jobs m) j = Some x ->
  nth_error (mg_jobs (empty_pool m i)) j = Some (if (j =? i)%nat then mkJob (jb_n x) (jb_min x) (jb_unallocated x) [] (jb_returned x) (jb_status x) else x).
Proof.
  intros Hj. unfold empty_pool. destruct (nth_error (mg_jobs m) i) as [y|] eqn:Ei; cbn [mg_jobs].
  - rewrite nth_error_upd, Hj. destruct (Nat.eqb_spec j i) as [<-|_]; [|reflexivity]. rewrite Hj in Ei. injection Ei as <-. reflexivity.
  - destruct (Nat.eqb_spec j i) as [<-|_]; [congruence|exact Hj].
Qed.

Lemma sstep_inv s e s' : ok (st_manager s) -> listed_ok s -> sstep s e = Some s' ->
  ok (st_manager s') /\ listed_ok s' /\ Permutation (all_workers (st_manager s')) (all_workers (st_manager s) ++ site_registered [e]).
Proof.
  intros Ho Hl. destruct e as [e| |sent|]; cbn [sstep].
  - destruct (blocked _ _); [discriminate|]. destruct (step (st_manager s) e) as [m|] eqn:E; [|discriminate]. intros E'. injection E' as <-. destruct (step_ok _ _ _ Ho E) as [H P]. cbn [st_manager].
    split; [exact H|]. split; [|replace (site_registered [Thread e]) with (registered [e]) by (destruct e; reflexivity); exact P].
    intros j Hj. cbn [st_listed st_manager] in *. apply in_app_or in Hj. destruct Hj as [Hj|Hj].
    + destruct (Hl j Hj) as (x & Hx & Hd & Hu). destruct (step_job _ _ _ j x E Hx Hd Hu) as (y & Hy & H1 & H2 & _). exists y. auto.
    + destruct e as [w|n|i [|]|i se|i op|i|i se]; cbn in Hj; try destruct Hj. destruct (nth_error (mg_jobs m) i) as [x|] eqn:Ei; [|destruct Hj]. destruct (jb_status x) eqn:Es; try destruct Hj as [<-|[]]; try destruct Hj.
      exists x. split; [exact Ei|]. split; [congruence|]. pose proof (H i x Ei) as Hx. unfold job_ok in Hx. rewrite Es in Hx. apply Hx.
  - destruct (st_closing s); try discriminate. intros E. injection E as <-. cbn. rewrite app_nil_r. auto.
  - destruct (st_closing s) as [|[|j l]|]; try discriminate; [intros E; injection E as <-; cbn; rewrite app_nil_r; auto|]. destruct sent; intros E; injection E as <-; cbn [st_manager]; [|cbn; rewrite app_nil_r; auto].
    destruct (empty_pool_ok (st_manager s) j Ho) as [H P]. cbn. rewrite app_nil_r. split; [exact H|]. split; [|exact P].
    intros i Hi. destruct (Hl i Hi) as (x & Hx & Hd & Hu). cbn [st_manager]. eexists. split; [apply empty_job; exact Hx|]. destruct (i =? j)%nat; auto.
  - destruct (st_closing s); try discriminate. intros E. injection E as <-. cbn. rewrite app_nil_r. auto.
Qed.
Lemma srun_inv es : forall s s', ok (st_manager s) -> listed_ok s -> srun s es = Some s' ->
  ok (st_manager s') /\ listed_ok s' /\ Permutation (all_workers (st_manager s')) (all_workers (st_manager s) ++ site_registered es).
Proof.
  induction es as [|e es IH]; intros s s' Ho Hl E; cbn in E; [injection E as <-; cbn; rewrite app_nil_r; auto|]. destruct (sstep s e) as [s1|] eqn:E1; [|discriminate].
  destruct (sstep_inv _ _ _ Ho Hl E1) as (O1 & L1 & P1). destruct (IH _ _ O1 L1 E) as (O2 & L2 & P2). split; [exact O2|]. split; [exact L2|].
  rewrite P2, P1, <- app_assoc. apply Permutation_app_head. unfold site_registered. cbn. rewrite app_nil_r. reflexivity.
Qed.
Lemma init_inv es s : srun site_init es = Some s -> ok (st_manager s) /\ listed_ok s /\ Permutation (all_workers (st_manager s)) (site_registered es).
Proof. intros E. apply (srun_inv es site_init s) in E; [exact E|exact init_ok|intros j []]. Qed.
Lemma srun_app es : forall es' s, srun s (es ++ es') = match srun s es with Some s' => srun s' es' | None => None end.
Proof. induction es as [|e es IH]; intros es' s; cbn; [reflexivity|]. destruct (sstep s e); [apply IH|reflexivity]. Qed.

(** the workers not free are held by somebody *)
Lemma not_free m w : In w (all_workers m) -> In w (mg_free m) \/ exists j x, nth_error (mg_jobs m) j = Some x /\ In w (held x).
Proof.
  intros H. apply in_app_or in H. destruct H as [H|H]; [left; exact H|right]. apply in_concat in H. destruct H as (l & Hl & Hw). apply in_map_iff in Hl. destruct Hl as (x & <- & Hx).
  apply In_nth_error in Hx. destruct Hx as [j Hj]. exists j, x. auto.
Qed.

(** during a call of close: the listed pools not yet to do are empty *)
Definition emptied (m : manager) (j : nat) : Prop := exists x, nth_error (mg_jobs m) j = Some x /\ jb_status x <> Drawn /\ jb_unallocated x = [] /\ jb_pool x = [].
Definition during (L : list nat) (s : site) : Prop :=
  match st_closing s with
  | Idle => True
  | Pools todo => forall j, In j L -> In j todo \/ emptied (st_manager s) j
  | Sockets => forall j, In j L -> emptied (st_manager s) j
  end.
Lemma emptied_step m e m' j : step m e = Some m' -> emptied m j -> emptied m' j.
Proof.
  intros E (x & Hx & Hd & Hu & Hp). destruct (step_job _ _ _ _ _ E Hx Hd Hu) as (y & Hy & H1 & H2 & H3 & _). exists y. repeat split; auto.
  rewrite Hp in H3. destruct (jb_pool y) as [|e0 l]; [reflexivity|]. destruct (H3 (en_worker e0)). left. reflexivity.
Qed.
Lemma during_step L s e s' : e <> CloseBegin -> ok (st_manager s) -> (forall j, In j L -> settled (st_manager s) j) -> during L s -> sstep s e = Some s' ->
  during L s' /\ (forall j, In j L -> settled (st_manager s') j).
Proof.
  intros Hne Ho HL Hd. destruct e as [e| |sent|]; cbn [sstep]; [| contradiction | |].
  - destruct (blocked _ _); [discriminate|]. destruct (step (st_manager s) e) as [m|] eqn:E; [|discriminate]. intros E'. injection E' as <-. split.
    + unfold during in *. cbn [st_closing st_manager] in *. destruct (st_closing s); auto; intros j Hj; [destruct (Hd j Hj) as [H|H]; [auto|right]|specialize (Hd j Hj)]; eapply emptied_step; eauto.
    + intros j Hj. cbn [st_manager]. destruct (HL j Hj) as (x & Hx & H1 & H2). destruct (step_job _ _ _ _ _ E Hx H1 H2) as (y & Hy & H3 & H4 & _). exists y. auto.
  - unfold during in *. destruct (st_closing s) as [|[|i l]|]; try discriminate; [intros E; injection E as <-; cbn [st_closing st_manager]; split; [intros j Hj; destruct (Hd j Hj) as [[]|H]; exact H|exact HL]|].
    destruct sent; intros E; injection E as <-; cbn [st_closing st_manager]; [|split; [exact I|exact HL]]. split.
    + intros j Hj. destruct (Hd j Hj) as [[<-|H]|(x & Hx & H1 & H2 & H3)]; [right|auto|right].
      * destruct (HL i Hj) as (x & Hx & H1 & H2). eexists. split; [apply empty_job; exact Hx|]. rewrite Nat.eqb_refl. auto.
      * eexists. split; [apply empty_job; exact Hx|]. destruct (j =? i)%nat; auto.
    + intros j Hj. destruct (HL j Hj) as (x & Hx & H1 & H2). eexists. split; [apply empty_job; exact Hx|]. destruct (j =? i)%nat; auto.
  - unfold during. destruct (st_closing s); try discriminate. intros E. injection E as <-. cbn. auto.
Qed.
Lemma during_run L es : forall s s', no_call es -> ok (st_manager s) -> listed_ok s -> (forall j, In j L -> settled (st_manager s) j) -> during L s -> srun s es = Some s' ->
  during L s'.
Proof.
  induction es as [|e es IH]; intros s s' Hn Ho Hl HL Hd E; cbn in E; [injection E as <-; exact Hd|]. destruct (sstep s e) as [s1|] eqn:E1; [|discriminate].
  assert (He : e <> CloseBegin) by (intros ->; apply Hn; left; reflexivity). destruct (during_step L s e s1 He Ho HL Hd E1) as [H1 H2]. destruct (sstep_inv _ _ _ Ho Hl E1) as (O1 & L1 & _).
  apply (IH s1 s'); auto. intros H. apply Hn. right. exact H.
Qed.

Lemma registered_kept es : forall s s' w, ok (st_manager s) -> listed_ok s -> srun s es = Some s' -> In w (all_workers (st_manager s)) -> In w (all_workers (st_manager s')).
Proof. intros s s' w Ho Hl E Hw. destruct (srun_inv es s s' Ho Hl E) as (_ & _ & P). apply (Permutation_in w (Permutation_sym P)). apply in_or_app. left. exact Hw. Qed.

Lemma close_all es s0 es' s1 : srun site_init es = Some s0 -> srun s0 (CloseBegin :: es' ++ [CloseSockets]) = Some s1 -> no_call es' ->
  forall w, In w (site_registered es) -> In w (st_closed s1) \/
    exists j x, nth_error (mg_jobs (st_manager s1)) j = Some x /\ ((~ In j (st_listed s0) /\ In w (held x)) \/ In w (jb_returned x)).
Proof.
  intros E0 E1 Hn w Hw. destruct (init_inv _ _ E0) as (Ho & Hl & P). apply (Permutation_in w (Permutation_sym P)) in Hw.
  cbn [srun] in E1. destruct (sstep s0 CloseBegin) as [sb|] eqn:Eb; [|discriminate]. destruct (sstep_inv _ _ _ Ho Hl Eb) as (Ob & Lb & _).
  cbn [sstep] in Eb. destruct (st_closing s0) eqn:Ec; try discriminate. injection Eb as Eb.
  rewrite srun_app in E1. destruct (srun sb es') as [sm|] eqn:Em; [|discriminate]. cbn [srun] in E1. destruct (sstep sm CloseSockets) as [s1'|] eqn:Es; [|discriminate]. injection E1 as ->.
  assert (Hwm : In w (all_workers (st_manager sm))) by (eapply registered_kept; [exact Ob|exact Lb|exact Em|rewrite <- Eb; exact Hw]).
  assert (Hd : during (st_listed s0) sm).
  { apply (during_run (st_listed s0) es' sb sm Hn Ob Lb); [|rewrite <- Eb; cbn; intros j Hj; left; exact Hj|exact Em]. intros j Hj. rewrite <- Eb. cbn. apply Hl. exact Hj. }
  cbn [sstep] in Es. unfold during in Hd. destruct (st_closing sm); try discriminate. injection Es as <-. cbn [st_manager st_closed].
  destruct (not_free _ _ Hwm) as [Hf|(j & x & Hj & Hx)]; [left; apply in_or_app; right; exact Hf|]. right. exists j, x. split; [exact Hj|].
  destruct (in_dec Nat.eq_dec j (st_listed s0)) as [Hin|Hin]; [|left; auto]. right. destruct (Hd j Hin) as (y & Hy & _ & Hu & Hp). rewrite Hj in Hy. injection Hy as <-.
  unfold held in Hx. rewrite Hu, Hp in Hx. exact Hx.
Qed.

(** the steps of a call nobody disturbs *)
Definition one_close (s : site) : list sevent := CloseBegin :: repeat (ClosePools true) (S (length (st_listed s))) ++ [CloseSockets].
Lemma run_pools l : forall m L C, exists m', srun (mkSite m L C (Pools l)) (repeat (ClosePools true) (S (length l))) = Some (mkSite m' L C Sockets) /\ (forall j x, nth_error (mg_jobs m') j = Some x -> exists y, nth_error (mg_jobs m) j = Some y /\ jb_returned x = jb_returned y /\ (In j l \/ x = y)).
Proof.
  induction l as [|i l IH]; intros m L C; [exists m; split; [reflexivity|intros j x H; exists x; auto]|].
  change (repeat (ClosePools true) (S (length (i :: l)))) with (ClosePools true :: repeat (ClosePools true) (S (length l))). cbn [srun sstep st_closing st_manager st_listed st_closed].
  destruct (IH (empty_pool m i) L C) as (m' & E & H). exists m'. split; [exact E|]. intros j x Hj. destruct (H j x Hj) as (y & Hy & Hr & Ho).
  assert (Hm : exists z, nth_error (mg_jobs m) j = Some z).
  { unfold empty_pool in Hy. destruct (nth_error (mg_jobs m) i) as [u|] eqn:Ei; [|exists y; exact Hy]. cbn [mg_jobs] in Hy. rewrite nth_error_upd in Hy. destruct (j =? i)%nat; [|exists y; exact Hy]. destruct (nth_error (mg_jobs m) j) as [z|]; [exists z; reflexivity|discriminate]. }
  destruct Hm as [z Hz]. exists z. split; [exact Hz|]. rewrite (empty_job m i j z Hz) in Hy. injection Hy as <-. destruct (Nat.eqb_spec j i) as [->|Hne]; [split; [exact Hr|left; left; reflexivity]|]. split; [exact Hr|]. destruct Ho; [left; right|right]; assumption.
Qed.
Lemma close_quiet es s : srun site_init es = Some s -> st_closing s = Idle ->
  (forall j x, nth_error (mg_jobs (st_manager s)) j = Some x -> (In j (st_listed s) /\ jb_returned x = []) \/ held x = []) ->
  exists s', srun s (one_close s) = Some s' /\ forall w, In w (site_registered es) -> In w (st_closed s').
Proof.
  intros E Hc Hq. destruct s as [m L C c]. cbn in Hc. subst c. unfold one_close. cbn [st_listed st_manager] in *. destruct (run_pools L m L C) as (m' & Ep & Hp).
  assert (Er : srun (mkSite m L C Idle) (CloseBegin :: repeat (ClosePools true) (S (length L)) ++ [CloseSockets]) = Some (mkSite m' L (C ++ mg_free m') Idle)).
  { cbn [srun sstep st_closing st_manager st_listed st_closed]. rewrite srun_app, Ep. reflexivity. }
  exists (mkSite m' L (C ++ mg_free m') Idle). split; [exact Er|]. intros w Hw.
  assert (Hn : no_call (repeat (ClosePools true) (S (length L)))) by (intros H; apply repeat_spec in H; discriminate).
  destruct (close_all es _ _ _ E Er Hn w Hw) as [H|(j & x & Hj & H)]; [exact H|exfalso]. cbn [st_manager st_listed] in *. destruct (Hp j x Hj) as (y & Hy & Hr & Ho).
  destruct (Hq j y Hy) as [[H1 H2]|H1].
  - destruct H as [[H _]|H]; [contradiction|]. rewrite Hr, H2 in H. exact H.
  - assert (Hry : jb_returned y = []) by (unfold held in H1; apply app_eq_nil in H1; destruct H1 as [_ H1]; apply app_eq_nil in H1; apply H1).
    destruct H as [[H H3]|H]; [|rewrite Hr, Hry in H; exact H]. destruct Ho as [Ho|<-]; [contradiction|]. rewrite H1 in H3. exact H3.
Qed.

(** only close closes *)
Lemma idle_run es : forall s s', no_call es -> st_closing s = Idle -> srun s es = Some s' -> st_closing s' = Idle /\ st_closed s' = st_closed s.
Proof.
  induction es as [|e es IH]; intros s s' Hn Hc E; cbn in E; [injection E as <-; auto|]. destruct (sstep s e) as [s1|] eqn:E1; [|discriminate].
  assert (H : st_closing s1 = Idle /\ st_closed s1 = st_closed s).
  { destruct e as [e| |sent|]; cbn [sstep] in E1; rewrite Hc in E1; try discriminate.
    - cbn [blocked] in E1. destruct (step (st_manager s) e); [|discriminate]. injection E1 as <-. auto.
    - exfalso. apply Hn. left. reflexivity. }
  destruct H as [H1 H2]. rewrite <- H2. apply IH; [intros H; apply Hn; right; exact H|exact H1|exact E].
Qed.
Lemma left_open es s j x w : srun site_init es = Some s -> NoDup (site_registered es) -> st_closing s = Sockets -> nth_error (mg_jobs (st_manager s)) j = Some x -> In w (held x) ->
  ~ In w (st_closed s) -> forall es' s', no_call es' -> srun s (CloseSockets :: es') = Some s' -> ~ In w (st_closed s').
Proof.
  intros E Hn Hc Hj Hw Ho es' s' Hne E'. cbn [srun sstep] in E'. rewrite Hc in E'. pose proof (fun pf => idle_run es' _ s' Hne pf E') as Hi. destruct (Hi eq_refl) as [_ ->]. cbn [st_closed]. intros H. apply in_app_or in H. destruct H as [H|H]; [exact (Ho H)|].
  destruct (init_inv _ _ E) as (_ & _ & P). apply (Permutation_NoDup (Permutation_sym P)) in Hn. apply (nodup_app_disjoint _ _ w Hn H). apply (in_held_concat _ j x w Hj Hw).
Qed.

(** a worker that cannot be reached *)
Definition hopeless (w : worker) (j : nat) (s : site) : Prop :=
  settled (st_manager s) j /\ in_pool w (st_manager s) j /\ In j (st_listed s) /\
  match st_closing s with Idle => True | Pools todo => In j todo | Sockets => False end.
Lemma hopeless_step w j s e s' : hopeless w j s -> ~ reaches w s e -> sstep s e = Some s' -> hopeless w j s' /\ st_closed s' = st_closed s.
Proof.
  intros ((x & Hx & Hd & Hu) & (x' & Hx' & Hw) & Hl & Hc) Hr E. rewrite Hx in Hx'. injection Hx' as <-. destruct e as [e| |sent|]; cbn [sstep] in E.
  - destruct (blocked _ _); [discriminate|]. destruct (step (st_manager s) e) as [m|] eqn:E1; [|discriminate]. injection E as <-. split; [|reflexivity].
    destruct (step_job _ _ _ _ _ E1 Hx Hd Hu) as (y & Hy & H1 & H2 & _ & H3). unfold hopeless. cbn [st_manager st_listed st_closing]. split; [exists y; auto|]. split; [|split; [apply in_or_app; left; exact Hl|exact Hc]].
    exists y. split; [exact Hy|]. destruct (H3 w Hw) as [H|[->|[is ->]]]; [exact H| |]; exfalso; apply Hr; exists x; auto.
  - destruct (st_closing s); try discriminate. injection E as <-. split; [|reflexivity]. split; [exists x; auto|]. split; [exists x; auto|]. split; exact Hl.
  - destruct (st_closing s) as [|[|i l]|] eqn:Es; try discriminate; [destruct Hc|]. destruct sent; injection E as <-; (split; [|reflexivity]).
    + unfold hopeless. cbn [st_manager st_listed st_closing]. assert (Hn : (j =? i)%nat = false).
      { apply Nat.eqb_neq. intros <-. apply Hr. cbn. rewrite Es. exists x. auto. }
      split; [|split; [|split; [exact Hl|]]]; [exists x|exists x|]; try (rewrite (empty_job _ i j x Hx), Hn; auto). destruct Hc as [->|Hc]; [apply Nat.eqb_neq in Hn; congruence|exact Hc].
    + split; [exists x; auto|]. split; [exists x; auto|]. split; [exact Hl|exact I].
  - destruct (st_closing s); try discriminate. destruct Hc.
Qed.
Lemma hopeless_run w j es : forall s s', hopeless w j s -> unreachable w s es -> srun s es = Some s' -> st_closed s' = st_closed s.
Proof.
  induction es as [|e es IH]; intros s s' H Hu E; cbn in E; [injection E as <-; reflexivity|]. destruct (sstep s e) as [s1|] eqn:E1; [|discriminate]. destruct Hu as [H1 H2].
  destruct (hopeless_step w j s e s1 H H1 E1) as [H3 <-]. exact (IH s1 s' H3 (H2 s1 E1) E).
Qed.
Lemma lost_blocks es s w j : srun site_init es = Some s -> st_closing s = Idle -> In j (st_listed s) -> in_pool w (st_manager s) j ->
  forall es' s', unreachable w s es' -> srun s es' = Some s' -> st_closed s' = st_closed s.
Proof.
  intros E Hc Hl Hp es' s' Hu E'. destruct (init_inv _ _ E) as (_ & Hls & _). apply (hopeless_run w j es' s s'); [|exact Hu|exact E']. split; [exact (Hls j Hl)|]. split; [exact Hp|]. split; [exact Hl|]. rewrite Hc. exact I.
Qed.
