(** Lemmas about the accepting thread. *)
From Verif Require Import Base L_Alg M_Server S_Server.

Definition intros_of (es : list event) : list (Z * intro) := flat_map (fun e => match e with Introduce d i => [(d, i)] | _ => [] end) es.
Definition started (o : Z * option intro) : list (Z * intro) := match snd o with Some i => [(fst o, i)] | None => [] end.
Definition current (s : server) : list Z := match sv_thread s with Greeting c => [c] | _ => [] end.

(** the state after a history: [outs] are the hosts the thread is done with, in the order of their arrival *)
Record after (es : list event) (s : server) (outs : list (Z * option intro)) : Prop := {
  a_mail : sv_mail s = intros_of es;
  a_left : forall c, gone c (sv_left s) = true <-> leaves c es;
  a_all : arrivals es = map fst outs ++ current s ++ sv_queue s;
  a_handled : sv_handled s = flat_map started outs;
  a_some : forall c i, In (c, Some i) outs -> first_message c es = Some i /\ i <> IGarbage;
  a_none : forall c, In (c, None) outs -> leaves c es \/ (sv_thread s = Ended /\ exists o, outs = o ++ [(c, None)]);
  a_ended : sv_thread s = Ended -> exists o c, outs = o ++ [(c, None)] /\ first_message c es = Some IGarbage;
  a_steps : steps es <= 2 * zlen outs + zlen (current s) }.

Lemma mail_first c es : mail c (intros_of es) = first_message c es.
Proof.
  unfold mail, first_message, intros_of. induction es as [|e es IH]; cbn [flat_map]; [reflexivity|]. destruct e as [d|d i|d|b]; cbn [app]; try exact IH.
  cbn [find fst]. destruct (d =? c); [reflexivity|exact IH].
Qed.
Lemma first_more c a b i : first_message c a = Some i -> first_message c (a ++ b) = Some i.
Proof. unfold first_message. rewrite flat_map_app. destruct (flat_map _ a); [discriminate|]. cbn. auto. Qed.
Lemma leaves_more c a b : leaves c a -> leaves c (a ++ b).
Proof. intros H. apply in_or_app. left. exact H. Qed.
Lemma leaves_snoc c a e : (forall d, e <> Leave d) -> (leaves c (a ++ [e]) <-> leaves c a).
Proof. intros H. unfold leaves. rewrite in_app_iff. cbn [In]. split; [intros [X|[X|[]]]; [exact X|destruct (H _ X)]|auto]. Qed.
Lemma steps_snoc a e : steps (a ++ [e]) = steps a + match e with Serve _ => 1 | _ => 0 end.
Proof. unfold steps. rewrite filter_app, zlen_app. destruct e; reflexivity. Qed.

Lemma after_step es s outs e s' : after es s outs -> step s e = Some s' -> exists outs', after (es ++ [e]) s' outs'.
Proof.
  intros [A1 A2 A3 A4 A5 A6 A7 A8] H.
  assert (M5 : forall c i, In (c, Some i) outs -> first_message c (es ++ [e]) = Some i /\ i <> IGarbage).
  { intros c i Hi. destruct (A5 c i Hi) as [X Y]. split; [apply first_more; exact X|exact Y]. }
  assert (Ea : arrivals (es ++ [e]) = arrivals es ++ match e with Arrive c => [c] | _ => [] end) by (unfold arrivals; rewrite flat_map_app; cbn [flat_map]; rewrite app_nil_r; reflexivity).
  assert (Ei : intros_of (es ++ [e]) = intros_of es ++ match e with Introduce c i => [(c, i)] | _ => [] end) by (unfold intros_of; rewrite flat_map_app; cbn [flat_map]; rewrite app_nil_r; reflexivity).
  destruct e as [c|c i|c|sent]; cbn [step] in H.
  - injection H as <-. exists outs. constructor; cbn [sv_thread sv_queue sv_mail sv_left sv_handled current].
    + rewrite Ei, app_nil_r. exact A1.
    + intros d. rewrite leaves_snoc by discriminate. apply A2.
    + rewrite Ea, A3. unfold current. cbn [sv_thread]. rewrite <- !app_assoc. reflexivity.
    + exact A4.
    + exact M5.
    + intros d Hd. rewrite leaves_snoc by discriminate. exact (A6 d Hd).
    + intros X. destruct (A7 X) as (o & d & E1 & E2). exists o, d. split; [exact E1|apply first_more; exact E2].
    + rewrite steps_snoc. unfold current in *. cbn [sv_thread]. lia.
  - injection H as <-. exists outs. constructor; cbn [sv_thread sv_queue sv_mail sv_left sv_handled current].
    + rewrite Ei, A1. reflexivity.
    + intros d. rewrite leaves_snoc by discriminate. apply A2.
    + rewrite Ea, A3, app_nil_r. reflexivity.
    + exact A4.
    + exact M5.
    + intros d Hd. rewrite leaves_snoc by discriminate. exact (A6 d Hd).
    + intros X. destruct (A7 X) as (o & d & E1 & E2). exists o, d. split; [exact E1|apply first_more; exact E2].
    + rewrite steps_snoc. unfold current in *. cbn [sv_thread]. lia.
  - injection H as <-. exists outs. constructor; cbn [sv_thread sv_queue sv_mail sv_left sv_handled current].
    + rewrite Ei, app_nil_r. exact A1.
    + intros d. unfold gone. cbn [existsb]. unfold leaves. rewrite in_app_iff. cbn [In]. fold (gone d (sv_left s)). rewrite orb_true_iff, A2, Z.eqb_eq. unfold leaves. split; [intros [->|X]; auto|intros [X|[X|[]]]; [auto|injection X as ->; auto]].
    + rewrite Ea, A3, app_nil_r. reflexivity.
    + exact A4.
    + exact M5.
    + intros d Hd. destruct (A6 d Hd) as [X|X]; [left; apply leaves_more; exact X|right; exact X].
    + intros X. destruct (A7 X) as (o & d & E1 & E2). exists o, d. split; [exact E1|apply first_more; exact E2].
    + rewrite steps_snoc. unfold current in *. cbn [sv_thread]. lia.
  - rewrite app_nil_r in Ea, Ei. assert (L : forall d, gone d (sv_left s) = true <-> leaves d (es ++ [Serve sent])) by (intros d; rewrite leaves_snoc by discriminate; apply A2).
    assert (M6 : sv_thread s <> Ended -> forall d, In (d, None) outs -> leaves d (es ++ [Serve sent])).
    { intros Hn d Hd. apply leaves_more. destruct (A6 d Hd) as [X|[X _]]; [exact X|destruct (Hn X)]. }
    destruct (sv_thread s) as [|c|] eqn:Et; [| |discriminate].
    + destruct (sv_queue s) as [|c q] eqn:Eq; [discriminate|]. destruct (negb sent && gone c (sv_left s)) eqn:Eg; injection H as <-.
      * exists (outs ++ [(c, None)]). apply andb_true_iff in Eg. destruct Eg as [_ Eg]. constructor; cbn [sv_thread sv_queue sv_mail sv_left sv_handled current]; try congruence; try exact L.
        -- rewrite Ea, A3. unfold current. rewrite Et, map_app. cbn [map fst app]. rewrite <- app_assoc. reflexivity.
        -- rewrite A4, flat_map_app. cbn [flat_map]. unfold started. cbn [snd]. rewrite !app_nil_r. reflexivity.
        -- intros d i Hi. apply in_app_or in Hi. destruct Hi as [Hi|[Hi|[]]]; [apply M5; exact Hi|discriminate].
        -- intros d Hd. left. apply in_app_or in Hd. destruct Hd as [Hd|[Hd|[]]]; [apply M6; [discriminate|exact Hd]|]. injection Hd as ->. apply L. exact Eg.
        -- rewrite steps_snoc, zlen_app. unfold current in *. rewrite Et in A8. change (zlen [(c, @None intro)]) with 1. change (zlen (@nil Z)) with 0 in *. lia.
      * exists outs. constructor; cbn [sv_thread sv_queue sv_mail sv_left sv_handled current]; try congruence; try exact L; try exact M5.
        -- rewrite Ea, A3. unfold current. rewrite Et. reflexivity.
        -- intros d Hd. left. apply M6; [discriminate|exact Hd].
        -- rewrite steps_snoc. unfold current in *. cbn [sv_thread]. rewrite Et in A8. change (zlen [c]) with 1. change (zlen (@nil Z)) with 0 in *. lia.
    + rewrite A1, mail_first in H. destruct (first_message c es) as [i|] eqn:Em.
      * assert (Hi : i = IGarbage \/ i <> IGarbage) by (destruct i; auto; right; discriminate). destruct Hi as [->|Hi].
        -- injection H as <-. exists (outs ++ [(c, None)]). constructor; cbn [sv_thread sv_queue sv_mail sv_left sv_handled current]; try exact L.
           ++ rewrite Ei. first [exact A1|reflexivity].
           ++ rewrite Ea, A3. unfold current. rewrite Et, map_app. cbn [map fst app sv_thread]. rewrite <- app_assoc. reflexivity.
           ++ rewrite A4, flat_map_app. cbn [flat_map]. unfold started. cbn [snd]. rewrite !app_nil_r. reflexivity.
           ++ intros d i Hd. apply in_app_or in Hd. destruct Hd as [Hd|[Hd|[]]]; [apply M5; exact Hd|discriminate].
           ++ intros d Hd. apply in_app_or in Hd. destruct Hd as [Hd|[Hd|[]]]; [left; apply M6; [discriminate|exact Hd]|]. injection Hd as ->. right. split; [reflexivity|exists outs; reflexivity].
           ++ intros _. exists outs, c. split; [reflexivity|apply first_more; exact Em].
           ++ rewrite steps_snoc, zlen_app. unfold current in *. cbn [sv_thread]. rewrite Et in A8. change (zlen [(c, @None intro)]) with 1. change (zlen [c]) with 1 in *. change (zlen (@nil Z)) with 0. lia.
        -- assert (H' : Some (mkServer Free (sv_queue s) (sv_mail s) (sv_left s) (sv_handled s ++ [(c, i)])) = Some s') by (rewrite <- H, A1; destruct i; congruence). clear H. injection H' as <-.
           exists (outs ++ [(c, Some i)]). constructor; cbn [sv_thread sv_queue sv_mail sv_left sv_handled current]; try exact L; try discriminate.
           ++ rewrite Ei. exact A1.
           ++ rewrite Ea, A3. unfold current. rewrite Et, map_app. cbn [map fst app sv_thread]. rewrite <- app_assoc. reflexivity.
           ++ rewrite A4, flat_map_app. reflexivity.
           ++ intros d i' Hd. apply in_app_or in Hd. destruct Hd as [Hd|[Hd|[]]]; [apply M5; exact Hd|]. injection Hd as -> ->. split; [apply first_more; exact Em|exact Hi].
           ++ intros d Hd. apply in_app_or in Hd. destruct Hd as [Hd|[Hd|[]]]; [left; apply M6; [discriminate|exact Hd]|discriminate].
           ++ rewrite steps_snoc, zlen_app. unfold current in *. cbn [sv_thread]. rewrite Et in A8. change (zlen [(c, Some i)]) with 1. change (zlen [c]) with 1 in *. change (zlen (@nil Z)) with 0. lia.
      * destruct (gone c (sv_left s)) eqn:Eg; [|discriminate]. injection H as <-.
        exists (outs ++ [(c, None)]). constructor; cbn [sv_thread sv_queue sv_mail sv_left sv_handled current]; try exact L; try discriminate.
        -- rewrite Ei. first [exact A1|reflexivity].
        -- rewrite Ea, A3. unfold current. rewrite Et, map_app. cbn [map fst app sv_thread]. rewrite <- app_assoc. reflexivity.
        -- rewrite A4, flat_map_app. cbn [flat_map]. unfold started. cbn [snd]. rewrite !app_nil_r. reflexivity.
        -- intros d i Hd. apply in_app_or in Hd. destruct Hd as [Hd|[Hd|[]]]; [apply M5; exact Hd|discriminate].
        -- intros d Hd. left. apply in_app_or in Hd. destruct Hd as [Hd|[Hd|[]]]; [apply M6; [discriminate|exact Hd]|]. injection Hd as ->. apply L. exact Eg.
        -- rewrite steps_snoc, zlen_app. unfold current in *. cbn [sv_thread]. rewrite Et in A8. change (zlen [(c, @None intro)]) with 1. change (zlen [c]) with 1 in *. change (zlen (@nil Z)) with 0. lia.
Qed.
Lemma after_run : forall es s, run server_init es = Some s -> exists outs, after es s outs.
Proof.
  assert (G : forall es pre s0 s outs, after pre s0 outs -> run s0 es = Some s -> exists outs, after (pre ++ es) s outs).
  { induction es as [|e es IH]; intros pre s0 s outs A H; cbn [run] in H; [injection H as <-; rewrite app_nil_r; eauto|]. destruct (step s0 e) as [s1|] eqn:E; [|discriminate].
    destruct (after_step _ _ _ _ _ A E) as (outs' & A'). replace (pre ++ e :: es) with ((pre ++ [e]) ++ es) by (rewrite <- app_assoc; reflexivity). eapply IH; eassumption. }
  intros es s H. apply (G es [] server_init s []); [|exact H]. constructor; try reflexivity; try discriminate; try (intros c i H0; destruct H0; fail). { intros c. split; [discriminate|intros []]. } { intros c []. }
Qed.

Lemma outs_served es s outs c : after es s outs -> served c s -> exists i, In (c, Some i) outs.
Proof.
  intros A (i & H). rewrite (a_handled _ _ _ A) in H. apply in_flat_map in H. destruct H as ([d o] & Hi & Hs). unfold started in Hs. cbn [fst snd] in Hs. destruct o as [i'|]; [|destruct Hs]. destruct Hs as [Hs|[]]. injection Hs as -> ->. eauto.
Qed.
(** a host in front of one the thread is done with *)
Lemma before_done (l1 l2 : list Z) c d : NoDup (l1 ++ l2) -> before c d (l1 ++ l2) -> In d l1 -> before c d l1.
Proof.
  revert l2. induction l1 as [|a l1 IH] using rev_ind; intros l2 Hn Hb Hd; [destruct Hd|]. apply in_app_or in Hd. destruct Hd as [Hd|[<-|[]]].
  - rewrite <- app_assoc in Hn, Hb. destruct (IH _ Hn Hb Hd) as (x & y & z & ->). exists x, y, (z ++ [a]). rewrite <- !app_assoc. cbn [app]. rewrite <- app_assoc. reflexivity.
  - destruct Hb as (x & y & z & E). rewrite <- app_assoc in E, Hn. cbn [app] in E, Hn. assert (E2 : l1 = x ++ c :: y).
    { assert (G : forall (p q r t : list Z) a, NoDup (p ++ a :: q) -> p ++ a :: q = r ++ a :: t -> p = r).
      { clear. induction p as [|b p IH]; intros q r t a Hn E; destruct r as [|e r]; cbn [app] in E; [reflexivity| | |].
        - injection E as -> E. cbn [app] in Hn. inversion Hn as [|? ? Hx]; subst. destruct Hx. apply in_or_app. right. left. reflexivity.
        - injection E as -> E. cbn [app] in Hn. inversion Hn as [|? ? Hx]; subst. destruct Hx. apply in_or_app. right. left. reflexivity.
        - injection E as -> E. f_equal. cbn [app] in Hn. inversion Hn; subst. eapply IH; eassumption. }
      apply (G l1 l2 (x ++ c :: y) z a); [exact Hn|]. rewrite E, <- app_assoc. reflexivity. }
    exists x, y, []. rewrite E2, <- app_assoc. reflexivity.
Qed.
Lemma waiting_for es s c d : run server_init es = Some s -> NoDup (arrivals es) -> before c d (arrivals es) -> ~ leaves c es ->
  first_message c es = None \/ first_message c es = Some IGarbage -> ~ served d s.
Proof.
  intros H Hn Hb Hl Hm Hs. destruct (after_run es s H) as (outs & A). destruct (outs_served _ _ _ _ A Hs) as (i & Hi).
  assert (Hd : In d (map fst outs)) by (apply in_map_iff; exists (d, Some i); auto).
  rewrite (a_all _ _ _ A) in Hn, Hb. apply before_done in Hb; [|exact Hn|exact Hd]. destruct Hb as (x & y & z & E).
  assert (Hc : exists o, In (c, o) outs). { assert (X : In c (map fst outs)) by (rewrite E; apply in_or_app; right; left; reflexivity). apply in_map_iff in X. destruct X as ([c' o] & Ec & Hc). cbn [fst] in Ec. subst. eauto. }
  destruct Hc as ([i'|] & Hc).
  - destruct (a_some _ _ _ A c i' Hc) as [X Y]. destruct Hm as [Hm|Hm]; congruence.
  - destruct (a_none _ _ _ A c Hc) as [X|(_ & o & Eo)]; [contradiction|]. rewrite Eo, map_app in E, Hn. cbn [map fst] in E, Hn. apply NoDup_app_inv in Hn. destruct Hn as (Hn & _).
    assert (Hlast : last (map fst o ++ [c]) 0 = last (d :: z) 0).
    { rewrite E. clear. induction x as [|a x IH]; cbn [app]; [|destruct (x ++ c :: y ++ d :: z) eqn:F; [destruct x; discriminate|exact IH]].
      assert (G : forall l : list Z, last (l ++ d :: z) 0 = last (d :: z) 0) by (induction l as [|a l IH]; [reflexivity|]; cbn [app]; destruct (l ++ d :: z) eqn:F; [destruct l; discriminate|rewrite <- IH; reflexivity]).
      apply (G (c :: y)). }
    rewrite last_last in Hlast. assert (Hin : In c (d :: z)). { rewrite Hlast. clear. generalize d. induction z as [|a z IH]; intros b; [left; reflexivity|]. right. apply IH. }
    rewrite E in Hn. apply NoDup_app_inv in Hn. destruct Hn as (_ & Hn & _). inversion Hn as [|? ? Hx]; subst. apply Hx. apply in_or_app. right. exact Hin.
Qed.
Lemma served_in_order es s : run server_init es = Some s -> NoDup (arrivals es) -> NoDup (map fst (sv_handled s)) /\
  (forall c d, before c d (map fst (sv_handled s)) -> before c d (arrivals es)) /\
  (forall c i, In (c, i) (sv_handled s) -> In c (arrivals es) /\ first_message c es = Some i) /\ steps es <= 2 * zlen (arrivals es).
Proof.
  intros H Hn. destruct (after_run es s H) as (outs & A). assert (Hall := a_all _ _ _ A). rewrite Hall in Hn. apply NoDup_app_inv in Hn. destruct Hn as (Hn & _).
  rewrite (a_handled _ _ _ A). split; [|split; [|split]].
  - clear - Hn. induction outs as [|[c o] outs IH]; cbn [flat_map map]; [constructor|]. inversion Hn as [|? ? Hx Hn']; subst. rewrite map_app. unfold started at 1. cbn [fst snd]. destruct o as [i|]; cbn [map app fst]; [|apply IH; exact Hn']. constructor; [|apply IH; exact Hn'].
    intros X. apply Hx. apply in_map_iff in X. destruct X as ([c' i'] & E & X). cbn [fst] in E. subst. apply in_flat_map in X. destruct X as ([c'' o'] & X & Y). apply in_map_iff. exists (c'', o'). split; [|exact X]. unfold started in Y. cbn [fst snd] in *. destruct o'; [|destruct Y]. destruct Y as [Y|[]]. injection Y as -> _. reflexivity.
  - intros c d Hb. rewrite Hall. assert (G : before c d (map fst outs)).
    { clear - Hb. induction outs as [|[a o] outs IH]; cbn [flat_map map] in *; [destruct Hb as (x & ? & ? & E); destruct x; discriminate|]. rewrite map_app in Hb. unfold started in Hb at 1. cbn [fst snd] in *. destruct o as [i|]; cbn [map app fst] in Hb.
      - destruct Hb as (x & y & z & E). destruct x as [|b x]; cbn [app] in E; injection E as -> E.
        + assert (Hd : In d (map fst outs)).
          { assert (X : In d (map fst (flat_map started outs))) by (rewrite E; apply in_or_app; right; left; reflexivity). apply in_map_iff in X. destruct X as ([d' i'] & Ed & X). cbn [fst] in Ed. subst d'. apply in_flat_map in X. destruct X as ([c'' o'] & X & Y). apply in_map_iff. exists (c'', o'). split; [|exact X]. unfold started in Y. cbn [fst snd] in *. destruct o'; [|destruct Y]. destruct Y as [Y|[]]. injection Y as -> _. reflexivity. }
          apply in_split in Hd. destruct Hd as (y' & z' & ->). exists [], y', z'. reflexivity.
        + destruct IH as (x' & y' & z' & ->); [exists x, y, z; exact E|]. exists (b :: x'), y', z'. reflexivity.
      - destruct (IH Hb) as (x' & y' & z' & ->). exists (a :: x'), y', z'. reflexivity. }
    destruct G as (x & y & z & ->). exists x, y, (z ++ current s ++ sv_queue s). rewrite <- app_assoc. cbn [app]. rewrite <- app_assoc. reflexivity.
  - intros c i Hi. assert (X : exists i', In (c, Some i') outs /\ i' = i).
    { apply in_flat_map in Hi. destruct Hi as ([d o] & Hi & Hs). unfold started in Hs. cbn [fst snd] in Hs. destruct o as [i'|]; [|destruct Hs]. destruct Hs as [Hs|[]]. injection Hs as -> ->. eauto. }
    destruct X as (i' & X & ->). split; [rewrite Hall; apply in_or_app; left; apply in_map_iff; exists (c, Some i); auto|apply (a_some _ _ _ A c i X)].
  - assert (S8 := a_steps _ _ _ A). rewrite Hall, !zlen_app. unfold zlen in *. rewrite map_length. lia.
Qed.
Lemma all_served es s : run server_init es = Some s -> step s (Serve true) = None ->
  (forall c, In c (arrivals es) -> leaves c es \/ exists i, first_message c es = Some i /\ i <> IGarbage) ->
  (forall c, In c (arrivals es) -> first_message c es <> Some IGarbage) ->
  forall c, In c (arrivals es) -> ~ leaves c es -> served c s.
Proof.
  intros H Hs Hok Hng c Hc Hl. destruct (after_run es s H) as (outs & A). assert (Hall := a_all _ _ _ A).
  assert (Hne : sv_thread s <> Ended).
  { intros E. destruct (a_ended _ _ _ A E) as (o & d & Eo & Ed). apply (Hng d); [|exact Ed]. rewrite Hall, Eo, map_app. apply in_or_app. left. apply in_or_app. right. left. reflexivity. }
  cbn [step] in Hs. unfold current in Hall. destruct (sv_thread s) as [|d|] eqn:Et; [| |destruct (Hne eq_refl)].
  - destruct (sv_queue s) as [|d q]; [|discriminate]. rewrite !app_nil_r in Hall. rewrite Hall in Hc. apply in_map_iff in Hc. destruct Hc as ([c' o] & E & Hc). cbn [fst] in E. subst c'. destruct o as [i|].
    + exists i. rewrite (a_handled _ _ _ A). apply in_flat_map. exists (c, Some i). split; [exact Hc|left; reflexivity].
    + destruct (a_none _ _ _ A c Hc) as [X|[X _]]; [contradiction|congruence].
  - exfalso. rewrite (a_mail _ _ _ A), mail_first in Hs. assert (Hd : In d (arrivals es)) by (rewrite Hall; apply in_or_app; right; left; reflexivity).
    destruct (Hok d Hd) as [X|(i & X & _)].
    + destruct (first_message d es) as [i|]; [destruct i; discriminate|]. apply (a_left _ _ _ A) in X. rewrite X in Hs. discriminate.
    + rewrite X in Hs. destruct i; discriminate.
Qed.
