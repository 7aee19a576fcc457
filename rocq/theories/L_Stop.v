(** Lemmas: the end of the accepting loop. *)
From Verif Require Import Base M_Server S_Server M_Stop S_Stop.

Lemma lrun_app es : forall es' s, lrun s (es ++ es') = match lrun s es with Some s' => lrun s' es' | None => None end.
Proof. induction es as [|e es IH]; intros es' s; cbn; [reflexivity|]. destruct (lstep s e); [apply IH|reflexivity]. Qed.

(** after the stop: [k] threads may still be started *)
Definition stopping (k : Z) (s : loop) : Prop := lp_running s = false /\ 0 <= k /\ (lp_returned s = false -> 1 <= k).
Lemma stopping_step k s e s' : stopping k s -> lstep s e = Some s' -> exists k', stopping k' s' /\ zlen (handled s') + k' <= zlen (handled s) + k.
Proof.
  intros (Hr & Hk & H1) E. destruct e as [e|]; [|injection E as <-; exists k; split; [split; [reflexivity|auto]|unfold handled; cbn [lp_server]; lia]].
  destruct e as [c|c i|c|sent]; cbn [lstep step] in E; try (injection E as <-; exists k; split; [split; auto|unfold handled; cbn [lp_server sv_handled]; lia]).
  destruct (lp_returned s) eqn:Er; [discriminate|]. specialize (H1 eq_refl). cbn [step] in E. rewrite Hr in E. cbn [negb] in E.
  destruct (sv_thread (lp_server s)) as [|c|] eqn:Et; [| |discriminate].
  - destruct (sv_queue (lp_server s)) as [|c q]; [discriminate|]. destruct (negb sent && gone c (sv_left (lp_server s))); injection E as <-; exists k; (split; [split; [reflexivity|auto]|unfold handled; cbn [lp_server sv_handled]; lia]).
  - destruct (mail c (sv_mail (lp_server s))) as [i|] eqn:Em; [|destruct (gone c (sv_left (lp_server s))); [|discriminate]; injection E as <-; exists k; split; [split; [reflexivity|auto]|unfold handled; cbn [lp_server sv_handled]; lia]].
    destruct i; injection E as <-; try (exists (k - 1); split; [split; [reflexivity|split; [lia|discriminate]]|unfold handled; cbn [lp_server sv_handled]; rewrite map_app, zlen_app, zlen_map; cbn [map]; change (zlen [fst (c, _ : intro)]) with 1 || idtac; unfold zlen; cbn [length map]; lia]).
    exists k. split; [split; [reflexivity|auto]|unfold handled; cbn [lp_server sv_handled]; lia].
Qed.
Lemma stopping_run es : forall k s s', stopping k s -> lrun s es = Some s' -> zlen (handled s') <= zlen (handled s) + k.
Proof.
  induction es as [|e es IH]; intros k s s' H E; cbn in E; [injection E as <-; destruct H as (_ & H & _); lia|]. destruct (lstep s e) as [s1|] eqn:E1; [|discriminate].
  destruct (stopping_step k s e s1 H E1) as (k' & H' & Hle). specialize (IH k' s1 s' H' E). lia.
Qed.
Lemma one_more s es s' : lrun s (Stop :: es) = Some s' -> zlen (handled s') <= zlen (handled s) + 1.
Proof.
  cbn [lrun lstep]. intros E. apply (stopping_run es 1 (mkLoop (lp_server s) false (lp_returned s)) s'); [|exact E]. split; [reflexivity|]. split; [lia|intros _; lia].
Qed.

(** [run] returns after the host it is busy with, or the next one *)
Definition awaited (s : loop) : Prop :=
  lp_running s = false /\ (lp_returned s = true \/ sv_thread (lp_server s) = Ended \/ (exists c, sv_thread (lp_server s) = Greeting c) \/ sv_queue (lp_server s) <> []).
Lemma awaited_step s e s' : awaited s -> lstep s e = Some s' -> awaited s'.
Proof.
  intros (Hr & H) E. destruct e as [e|]; [|injection E as <-; split; [reflexivity|exact H]].
  destruct e as [c|c i|c|sent]; cbn [lstep step] in E; try (injection E as <-; split; [exact Hr|cbn; destruct H as [H|[H|[H|H]]]; auto; right; right; right; intros X; apply app_eq_nil in X; destruct X; discriminate]).
  destruct (lp_returned s) eqn:Er; [discriminate|]. cbn [step] in E. rewrite Hr in E. cbn [negb] in E.
  destruct (sv_thread (lp_server s)) as [|c|] eqn:Et; [| |discriminate].
  - destruct (sv_queue (lp_server s)) as [|c q]; [discriminate|]. destruct (negb sent && gone c (sv_left (lp_server s))); injection E as <-; (split; [reflexivity|cbn; eauto]).
  - destruct (mail c (sv_mail (lp_server s))) as [i|] eqn:Em; [|destruct (gone c (sv_left (lp_server s))); [|discriminate]; injection E as <-; split; [reflexivity|cbn; auto]].
    destruct i; injection E as <-; (split; [reflexivity|cbn; auto]).
Qed.
Lemma awaited_run es : forall s s', awaited s -> lrun s es = Some s' -> awaited s'.
Proof.
  induction es as [|e es IH]; intros s s' H E; cbn in E; [injection E as <-; exact H|]. destruct (lstep s e) as [s1|] eqn:E1; [|discriminate]. exact (IH s1 s' (awaited_step _ _ _ H E1) E).
Qed.
Lemma arrived_awaited es : forall s s', lp_running s = false -> arrivals (host_events es) <> [] -> lrun s es = Some s' -> awaited s'.
Proof.
  induction es as [|e es IH]; intros s s' Hr Ha E; cbn in E; [contradiction|]. destruct (lstep s e) as [s1|] eqn:E1; [|discriminate].
  assert (Hr1 : lp_running s1 = false).
  { destruct e as [[c|c i|c|sent]|]; cbn [lstep] in E1; try (destruct (step (lp_server s) _); [|discriminate]; injection E1 as <-; exact Hr); [|injection E1 as <-; reflexivity].
    destruct (lp_returned s); [discriminate|]. destruct (step (lp_server s) _); [|discriminate]. injection E1 as <-. exact Hr. }
  destruct e as [[c|c i|c|sent]|]; try (apply (IH s1 s' Hr1); [exact Ha|exact E]).
  apply (awaited_run es s1 s'); [|exact E]. cbn [lstep step] in E1. injection E1 as <-. split; [exact Hr|]. right. right. right. cbn. intros X. apply app_eq_nil in X. destruct X; discriminate.
Qed.

(** when the thread cannot go on *)
Lemma stuck_greets s c : lstep s (Host (Serve true)) = None -> lp_returned s = false -> sv_thread (lp_server s) = Greeting c -> mail c (sv_mail (lp_server s)) = None /\ gone c (sv_left (lp_server s)) = false.
Proof.
  cbn [lstep]. intros H Er Et. rewrite Er in H. cbn [step] in H. rewrite Et in H. destruct (mail c (sv_mail (lp_server s))) as [i|]; [destruct i; discriminate|]. destruct (gone c (sv_left (lp_server s))); [discriminate|auto].
Qed.
Lemma stuck_ends s : awaited s -> lstep s (Host (Serve true)) = None ->
  lp_returned s = true \/ sv_thread (lp_server s) = Ended \/ exists c, sv_thread (lp_server s) = Greeting c /\ mail c (sv_mail (lp_server s)) = None /\ gone c (sv_left (lp_server s)) = false.
Proof.
  intros (_ & H) Hs. destruct (lp_returned s) eqn:Er; [auto|right]. destruct (sv_thread (lp_server s)) as [|c|] eqn:Et; [|right; exists c; split; [reflexivity|apply stuck_greets; assumption]|left; reflexivity].
  exfalso. destruct H as [H|[H|[[c H]|H]]]; try discriminate. cbn [lstep step] in Hs. rewrite Er, Et in Hs. destruct (sv_queue (lp_server s)) as [|c q]; [contradiction|]. destruct (negb true && gone c _); discriminate.
Qed.

(** the events of the hosts and the state *)
Lemma mail_app c l l' : mail c (l ++ l') = match mail c l with Some i => Some i | None => mail c l' end.
Proof. unfold mail. induction l as [|[d i] l IH]; cbn; [reflexivity|]. destruct (d =? c); [reflexivity|exact IH]. Qed.
Lemma lstep_hosts s e s' : lstep s e = Some s' ->
  sv_mail (lp_server s') = sv_mail (lp_server s) ++ (match e with Host (Introduce c i) => [(c, i)] | _ => [] end) /\
  sv_left (lp_server s') = (match e with Host (Leave c) => [c] | _ => [] end) ++ sv_left (lp_server s) /\
  (forall c, sv_thread (lp_server s') = Greeting c \/ In c (sv_queue (lp_server s')) -> sv_thread (lp_server s) = Greeting c \/ In c (sv_queue (lp_server s)) \/ e = Host (Arrive c)).
Proof.
  destruct e as [[c|c i|c|sent]|]; cbn [lstep step]; try (intros E; injection E as <-; cbn; rewrite ?app_nil_r; split; [reflexivity|split; [reflexivity|intros d [H|H]; auto]]).
  - apply in_app_or in H. destruct H as [H|[<-|[]]]; auto.
  - destruct (lp_returned s); [discriminate|]. cbn [step]. destruct (sv_thread (lp_server s)) as [|c|] eqn:Et; [| |discriminate].
    + destruct (sv_queue (lp_server s)) as [|c q]; [discriminate|]. destruct (negb sent && gone c (sv_left (lp_server s))); intros E; injection E as <-; cbn; rewrite ?app_nil_r; (split; [reflexivity|split; [reflexivity|intros d [H|H]]]).
      * discriminate.
      * right. left. right. exact H.
      * injection H as <-. right. left. left. reflexivity.
      * right. left. right. exact H.
    + destruct (mail c (sv_mail (lp_server s))) as [i|] eqn:Em; [|destruct (gone c (sv_left (lp_server s))); [|discriminate]; intros E; injection E as <-; cbn; rewrite ?app_nil_r; (split; [reflexivity|split; [reflexivity|intros d [H|H]; auto; discriminate]])].
      destruct i; intros E; injection E as <-; cbn; rewrite ?app_nil_r; (split; [reflexivity|split; [reflexivity|intros d [H|H]; auto; discriminate]]).
Qed.
Lemma lstep_ended s e s' : lstep s e = Some s' -> sv_thread (lp_server s') = Ended ->
  sv_thread (lp_server s) = Ended \/ exists c, sv_thread (lp_server s) = Greeting c /\ mail c (sv_mail (lp_server s)) = Some IGarbage.
Proof.
  destruct e as [[c|c i|c|sent]|]; cbn [lstep step]; try (intros E; injection E as <-; cbn; auto).
  destruct (lp_returned s); [discriminate|]. cbn [step]. destruct (sv_thread (lp_server s)) as [|c|] eqn:Et; [| |discriminate].
  - destruct (sv_queue (lp_server s)) as [|c q]; [discriminate|]. destruct (negb sent && gone c (sv_left (lp_server s))); intros E; injection E as <-; discriminate.
  - destruct (mail c (sv_mail (lp_server s))) as [i|] eqn:Em; [|destruct (gone c (sv_left (lp_server s))); [|discriminate]; intros E; injection E as <-; discriminate].
    destruct i; intros E; injection E as <-; try discriminate. right. exists c. auto.
Qed.
Lemma first_message_app c es es' : first_message c (es ++ es') = match first_message c es with Some i => Some i | None => first_message c es' end.
Proof. unfold first_message. rewrite flat_map_app. destruct (flat_map _ es); reflexivity. Qed.
Definition knows (es : list event) (s : loop) : Prop :=
  (forall c, mail c (sv_mail (lp_server s)) = first_message c es) /\ (forall c, gone c (sv_left (lp_server s)) = true <-> leaves c es) /\
  (forall c, sv_thread (lp_server s) = Greeting c \/ In c (sv_queue (lp_server s)) -> In c (arrivals es)) /\
  (sv_thread (lp_server s) = Ended -> exists c, In c (arrivals es) /\ first_message c es = Some IGarbage).
Lemma knows_run es : forall s s' past, knows past s -> lrun s es = Some s' -> knows (past ++ host_events es) s'.
Proof.
  induction es as [|e es IH]; intros s s' past H E; cbn in E; [injection E as <-; cbn; rewrite app_nil_r; exact H|]. destruct (lstep s e) as [s1|] eqn:E1; [|discriminate].
  change (host_events (e :: es)) with (host_events [e] ++ host_events es) || idtac.
  replace (past ++ host_events (e :: es)) with ((past ++ host_events [e]) ++ host_events es) by (rewrite <- app_assoc; unfold host_events; cbn; rewrite app_nil_r; reflexivity).
  apply (IH s1 s'); [|exact E]. clear IH E. destruct H as (H1 & H2 & H3 & H4). destruct (lstep_hosts _ _ _ E1) as (M & L & T). split; [|split; [|split]].
  - intros c. rewrite M, mail_app, H1, first_message_app. destruct (first_message c past); [reflexivity|]. destruct e as [[d|d i|d|sent]|]; try reflexivity. cbn. unfold mail, first_message. cbn. destruct (d =? c); reflexivity.
  - intros c. rewrite L. unfold leaves. rewrite in_app_iff. rewrite <- (H2 c). unfold gone. rewrite existsb_app, orb_true_iff. destruct e as [[d|d i|d|sent]|]; cbn; rewrite ?orb_false_r; try (split; [intros [X|X]; [discriminate|auto]|intros [X|X]; [auto|destruct X as [X|[]]; discriminate]]).
    + rewrite Z.eqb_eq. split; [intros [X|X]; [right; left; congruence|auto]|intros [X|[X|[]]]; [auto|injection X as <-; auto]].
    + split; [intros [X|X]; [discriminate|auto]|intros [X|[]]; auto].
  - intros c Hc. unfold arrivals. rewrite flat_map_app. apply in_or_app. destruct (T c Hc) as [X|[X| ->]]; [left; apply H3; auto|left; apply H3; auto|right; left; reflexivity].
  - intros Ht. assert (Hx : exists c, In c (arrivals past) /\ first_message c past = Some IGarbage).
    { destruct (lstep_ended _ _ _ E1 Ht) as [X|(c & X & Y)]; [exact (H4 X)|]. exists c. split; [apply H3; auto|]. rewrite <- H1. exact Y. }
    destruct Hx as (c & Hc & Hg). exists c. split; [unfold arrivals; rewrite flat_map_app; apply in_or_app; left; exact Hc|rewrite first_message_app, Hg; reflexivity].
Qed.
Lemma knows_init : knows [] loop_init.
Proof. split; [intros c; reflexivity|]. split; [intros c; split; [discriminate|intros []]|]. split; [intros c [H|H]; [discriminate|destruct H]|discriminate]. Qed.

Lemma host_events_app a b : host_events (a ++ b) = host_events a ++ host_events b.
Proof. unfold host_events. apply flat_map_app. Qed.
Lemma returns es es' s : lrun loop_init (es ++ Stop :: es') = Some s -> lstep s (Host (Serve true)) = None -> arrivals (host_events es') <> [] ->
  (forall c, In c (arrivals (host_events (es ++ es'))) -> leaves c (host_events (es ++ es')) \/ exists i, first_message c (host_events (es ++ es')) = Some i) ->
  (forall c, In c (arrivals (host_events (es ++ es'))) -> first_message c (host_events (es ++ es')) <> Some IGarbage) ->
  lp_returned s = true.
Proof.
  intros E Hs Ha Hi Hg0. assert (Ek := knows_run (es ++ Stop :: es') _ _ [] knows_init E). cbn [app] in Ek.
  replace (host_events (es ++ Stop :: es')) with (host_events (es ++ es')) in Ek by (rewrite !host_events_app; reflexivity). destruct Ek as (K1 & K2 & K3 & K4).
  rewrite lrun_app in E. destruct (lrun loop_init es) as [s0|]; [|discriminate]. cbn [lrun lstep] in E.
  assert (Hw := arrived_awaited es' (mkLoop (lp_server s0) false (lp_returned s0)) s eq_refl Ha E).
  destruct (stuck_ends s Hw Hs) as [H|[H|(c & Hc & Hm & Hg)]]; auto; exfalso; [destruct (K4 H) as (c & Hc & Hm); exact (Hg0 c Hc Hm)|]. assert (Hin : In c (arrivals (host_events (es ++ es')))) by (apply K3; auto).
  destruct (Hi c Hin) as [H|[i H]]; [apply K2 in H; congruence|rewrite <- K1 in H; congruence].
Qed.

(** nobody connects: run does not return *)
Lemma waits_step s e s' : waits s -> (forall c, e <> Host (Arrive c)) -> lstep s e = Some s' -> waits s' /\ handled s' = handled s.
Proof.
  intros (Hr & Ht & Hq) Hn E. destruct e as [[c|c i|c|sent]|]; cbn [lstep step] in E; try (injection E as <-; repeat split; assumption); [exfalso; apply (Hn c); reflexivity|].
  rewrite Hr, Ht, Hq in E. discriminate.
Qed.
Lemma never_returns es : forall s s', waits s -> arrivals (host_events es) = [] -> lrun s es = Some s' -> lp_returned s' = false.
Proof.
  induction es as [|e es IH]; intros s s' Hw Ha E; cbn in E; [injection E as <-; apply Hw|]. destruct (lstep s e) as [s1|] eqn:E1; [|discriminate].
  destruct (waits_step s e s1 Hw) as [H1 _]; [intros c ->; cbn in Ha; discriminate|exact E1|]. apply (IH s1 s' H1); [|exact E].
  destruct e as [[c|c i|c|sent]|]; try exact Ha. cbn in Ha. discriminate.
Qed.
(** and who connects next is served *)
Lemma late_host s c i : waits s -> mail c (sv_mail (lp_server s)) = None -> i <> IGarbage ->
  exists s', lrun s [Stop; Host (Arrive c); Host (Introduce c i); Host (Serve true); Host (Serve true)] = Some s' /\ handled s' = handled s ++ [c] /\ lp_returned s' = true.
Proof.
  intros (Hr & Ht & Hq) Hm Hi. cbn [lrun lstep step lp_server lp_running lp_returned sv_thread sv_queue sv_mail sv_left sv_handled negb andb at_top]. rewrite Hr, Ht, Hq. cbn [app].
  cbn [lrun lstep step lp_server lp_running lp_returned sv_thread sv_queue sv_mail sv_left sv_handled negb andb at_top]. rewrite mail_app, Hm. unfold mail at 1. cbn [find fst snd option_map]. rewrite Z.eqb_refl. cbn [option_map snd].
  destruct i; try contradiction; cbn; (eexists; split; [reflexivity|]); (split; [unfold handled; cbn; rewrite map_app; reflexivity|reflexivity]).
Qed.

(** before the stop *)
Lemma not_before es : forall s s', lp_running s = true -> lp_returned s = false -> ~ In Stop es -> lrun s es = Some s' -> lp_returned s' = false.
Proof.
  induction es as [|e es IH]; intros s s' Hr Hn Hs E; cbn [lrun] in E; [injection E as <-; exact Hn|].
  destruct (lstep s e) as [s1|] eqn:E1; [|discriminate]. assert (G : lp_running s1 = true /\ lp_returned s1 = false).
  { destruct e as [e|]; [|exfalso; apply Hs; left; reflexivity]. destruct e as [c|c i|c|sent]; cbn [lstep] in E1;
      try (destruct (step _ _); [|discriminate]; injection E1 as <-; auto).
    rewrite Hn, Hr in E1. destruct (step _ _); [|discriminate]. injection E1 as <-. cbn. rewrite andb_false_r. auto. }
  destruct G as [G1 G2]. eapply IH; eauto. intros H. apply Hs. right. exact H.
Qed.
