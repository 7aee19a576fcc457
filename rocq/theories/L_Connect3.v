(** Connections of workers: every connection belongs to one job; closing. *)
From Verif Require Import Base M_Pool M_Worker S_Worker L_Worker1 M_Connect S_Connect L_Connect1 L_Connect2.

(** ** Every connection belongs to one job *)
Definition conn : Type := (Z * Z * wid * entry)%type.
Definition conns (evs : list event) : list conn :=
  concat (map (fun ev => match ev with EConnect me j mine e => [(me, j, mine, e)] | _ => [] end) evs).
(** socket s of worker p may be registered for job j and another worker w *)
Definition fits (cs : list conn) (p j : Z) (w : wid) (s : sock) : Prop :=
  exists me mine e, nth_error cs (fst s) = Some (me, j, mine, e) /\ (if snd s then eid e = p /\ w = mine else me = p /\ w = fst e).
Definition srv_fits (cs : list conn) (p : Z) (sv : server) : Prop :=
  (forall j w s, In ((j, w), s) (sv_workers sv) -> fits cs p j w s) /\
  (forall j r l s o, In ((j, r), l) (sv_inputs sv) -> In (s, o) l -> fits cs p j (r, o) s) /\
  (forall j r l s i, In ((j, r), l) (sv_outputs sv) -> In (s, i) l -> fits cs p j (i, r) s).
Definition inv (cs : list conn) (cl : cluster) : Prop :=
  cl_next cl = length cs /\
  (forall p, srv_fits cs p (cl_srv cl p)) /\
  (forall p c j w, In (c, (j, w)) (cl_queue cl p) -> fits cs p j w (c, true)) /\
  (forall p c j w, In (c, (j, w)) (cl_dialled cl p) -> fits cs p j w (c, false)).

Lemma fits_more cs x p j w s : fits cs p j w s -> fits (cs ++ [x]) p j w s.
Proof.
  intros (me & mine & e & H1 & H2). exists me, mine, e. split; [|exact H2]. rewrite nth_error_app1; [exact H1|]. apply nth_error_Some. rewrite H1. discriminate.
Qed.
Lemma srv_fits_more cs x p sv : srv_fits cs p sv -> srv_fits (cs ++ [x]) p sv.
Proof. intros (H1 & H2 & H3). repeat split; intros; apply fits_more; eauto. Qed.
Lemma dset_in {A V} (eqb : A -> A -> bool) (Hok : forall a b, eqb a b = true <-> a = b) (d : list (A * V)) k v k' v' : In (k', v') (dset eqb d k v) -> (k' = k /\ v' = v) \/ In (k', v') d.
Proof.
  induction d as [|[a b] d IH]; cbn [dset]; intros H.
  - destruct H as [H|[]]. injection H as <- <-. auto.
  - destruct (eqb a k) eqn:E.
    + destruct H as [H|H]; [|right; right; exact H]. injection H as <- <-. left. split; [apply Hok; exact E|reflexivity].
    + destruct H as [H|H]; [right; left; exact H|]. destruct (IH H); auto. right. right. assumption.
Qed.
Lemma dappend_in (d : list (rkey * list (sock * range))) k x k' l y : In (k', l) (dappend d k x) -> In y l -> (k' = k /\ y = x) \/ exists l', In (k', l') d /\ In y l'.
Proof.
  unfold dappend. intros H Hy. apply (dset_in rkey_eqb rkey_eqb_ok) in H. destruct H as [[-> ->]|H]; [|right; exists l; auto]. apply in_app_iff in Hy. destruct Hy as [Hy|[Hy|[]]]; [|left; auto].
  right. unfold dget in Hy. destruct (find (fun e => rkey_eqb (fst e) k) d) as [[k0 l0]|] eqn:E; [|destruct Hy]. cbn [option_map snd] in Hy. apply find_some in E. destruct E as [E1 E2]. cbn [fst] in E2. apply rkey_eqb_ok in E2. subst k0. exists l0. auto.
Qed.
Lemma srv_fits_register cs p sv j w s : srv_fits cs p sv -> fits cs p j w s -> srv_fits cs p (register sv j w s).
Proof.
  intros (H1 & H2 & H3) Hs. destruct w as [wi wo]. unfold register. split; [|split]; cbn [sv_workers sv_inputs sv_outputs fst snd].
  - intros j' w' s' H. apply (dset_in fkey_eqb fkey_eqb_ok) in H. destruct H as [[E ->]|H]; [|eauto]. injection E as -> ->. exact Hs.
  - intros j' r l s' o H Hl. destruct (dappend_in _ _ _ _ _ _ H Hl) as [[E E']|(l' & E & E')]; [|eauto]. injection E as -> ->. injection E' as -> ->. exact Hs.
  - intros j' r l s' o H Hl. destruct (dappend_in _ _ _ _ _ _ H Hl) as [[E E']|(l' & E & E')]; [|eauto]. injection E as -> ->. injection E' as -> ->. exact Hs.
Qed.
Lemma srv_fits_close cs p sv j : srv_fits cs p sv -> srv_fits cs p (close_connections sv j).
Proof.
  intros (H1 & H2 & H3). unfold close_connections. split; [|split]; cbn [sv_workers sv_inputs sv_outputs].
  - intros j' w' s' H. apply filter_In in H. eapply H1, H.
  - intros j' r l s' o H Hl. apply filter_In in H. eapply H2; [apply H|exact Hl].
  - intros j' r l s' o H Hl. apply filter_In in H. eapply H3; [apply H|exact Hl].
Qed.
Lemma at_cases {A} (Q : Z -> A -> Prop) f p a : (forall q, Q q (f q)) -> Q p a -> forall q, Q q (at_worker f p a q).
Proof. intros H1 H2 q. unfold at_worker. destruct (Z.eqb_spec q p) as [->|]; [exact H2|apply H1]. Qed.
Lemma step_inv cs cl ev : inv cs cl -> inv (cs ++ conns [ev]) (step cl ev).
Proof.
  intros (H1 & H2 & H3 & H4). destruct ev as [me j mine e|me|me|me j]; unfold conns; cbn [map concat app step]; rewrite ?app_nil_r.
  - unfold dial, inv. cbn [cl_next cl_srv cl_queue cl_dialled].
    assert (Hn : nth_error (cs ++ [(me, j, mine, e)]) (cl_next cl) = Some (me, j, mine, e)) by (rewrite H1, nth_error_app2, Nat.sub_diag by lia; reflexivity).
    split; [rewrite app_length; cbn [length]; lia|]. split; [intros p; apply srv_fits_more, H2|]. split.
    + apply (at_cases (fun p q => forall c j' w, In (c, (j', w)) q -> fits (cs ++ [(me, j, mine, e)]) p j' w (c, true))).
      * intros q c j' w H. apply fits_more, H3, H.
      * intros c j' w H. apply in_app_iff in H. destruct H as [H|[H|[]]]; [apply fits_more, H3, H|]. injection H as <- <- <-. exists me, mine, e. split; [exact Hn|]. cbn [snd]. auto.
    + apply (at_cases (fun p q => forall c j' w, In (c, (j', w)) q -> fits (cs ++ [(me, j, mine, e)]) p j' w (c, false))).
      * intros q c j' w H. apply fits_more, H4, H.
      * intros c j' w H. apply in_app_iff in H. destruct H as [H|[H|[]]]; [apply fits_more, H4, H|]. injection H as <- <- <-. exists me, mine, e. split; [exact Hn|]. cbn [snd]. auto.
  - unfold note_dialled. destruct (cl_dialled cl me) as [|[c [j w]] q] eqn:E; [split; auto|]. unfold inv. cbn [cl_next cl_srv cl_queue cl_dialled]. split; [exact H1|]. split; [|split; [exact H3|]].
    + apply (at_cases (fun p sv => srv_fits cs p sv)); [exact H2|]. apply srv_fits_register; [apply H2|]. apply H4. rewrite E. left. reflexivity.
    + apply (at_cases (fun p q => forall c j' w, In (c, (j', w)) q -> fits cs p j' w (c, false))); [exact H4|]. intros c' j' w' H. apply H4. rewrite E. right. exact H.
  - unfold accept. destruct (cl_queue cl me) as [|[c [j w]] q] eqn:E; [split; auto|]. unfold inv. cbn [cl_next cl_srv cl_queue cl_dialled]. split; [exact H1|]. split; [|split; [|exact H4]].
    + apply (at_cases (fun p sv => srv_fits cs p sv)); [exact H2|]. apply srv_fits_register; [apply H2|]. apply H3. rewrite E. left. reflexivity.
    + apply (at_cases (fun p q => forall c j' w, In (c, (j', w)) q -> fits cs p j' w (c, true))); [exact H3|]. intros c' j' w' H. apply H3. rewrite E. right. exact H.
  - unfold inv. cbn [cl_next cl_srv cl_queue cl_dialled]. split; [exact H1|]. split; [|auto]. apply (at_cases (fun p sv => srv_fits cs p sv)); [exact H2|]. apply srv_fits_close, H2.
Qed.
Lemma happen_inv : forall evs cs cl, inv cs cl -> inv (cs ++ conns evs) (happen cl evs).
Proof.
  induction evs as [|ev evs IH]; intros cs cl H; [unfold conns; cbn [map concat]; rewrite app_nil_r; exact H|]. change (happen cl (ev :: evs)) with (happen (step cl ev) evs).
  replace (cs ++ conns (ev :: evs)) with ((cs ++ conns [ev]) ++ conns evs); [apply IH, step_inv, H|]. rewrite <- app_assoc. f_equal. unfold conns. cbn [map concat]. rewrite app_nil_r. reflexivity.
Qed.
Lemma history_inv evs : inv (conns evs) (happen empty_cluster evs).
Proof. apply (happen_inv evs [] empty_cluster). split; [reflexivity|]. split; [|split]; intros p; [split; [|split]; intros; contradiction|intros; contradiction|intros; contradiction]. Qed.
Lemma uses_fits cs p sv j s : srv_fits cs p sv -> uses sv j s -> exists w, fits cs p j w s.
Proof. intros (H1 & H2 & H3) [(w & H)|[(r & l & o & H & Hl)|(r & l & i & H & Hl)]]; eauto. Qed.
Lemma one_job evs p q j j' c b b' : uses (cl_srv (happen empty_cluster evs) p) j (c, b) -> uses (cl_srv (happen empty_cluster evs) q) j' (c, b') ->
  j = j' /\ (b = b' -> p = q).
Proof.
  destruct (history_inv evs) as (_ & Hs & _). intros H H'. apply (uses_fits _ _ _ _ _ (Hs p)) in H. apply (uses_fits _ _ _ _ _ (Hs q)) in H'.
  destruct H as (w & me & mine & e & H1 & H2), H' as (w' & me' & mine' & e' & H1' & H2'). cbn [fst snd] in *. rewrite H1 in H1'. injection H1' as <- <- <- <-. split; [reflexivity|]. intros <-. destruct b; destruct H2, H2'; congruence.
Qed.

(** ** Closing *)
(** no trace of job j at worker p *)
Definition clean (j : Z) (sv : server) : Prop :=
  (forall w s, ~ In ((j, w), s) (sv_workers sv)) /\ (forall r l, ~ In ((j, r), l) (sv_inputs sv)) /\ (forall r l, ~ In ((j, r), l) (sv_outputs sv)).
Definition none_waiting (j : Z) (cl : cluster) : Prop := settled j cl.
Lemma clean_close j sv : clean j (close_connections sv j).
Proof. split; [|split]; intros; intros H; apply filter_In in H; destruct H as [_ H]; cbn [fst] in H; rewrite Z.eqb_refl in H; discriminate. Qed.
Lemma clean_other j j' sv : clean j sv -> clean j (close_connections sv j').
Proof. intros (H1 & H2 & H3). split; [|split]; intros; intros H; apply filter_In in H; destruct H as [H _]; [eapply H1|eapply H2|eapply H3]; exact H. Qed.
Lemma clean_register j j' sv w s : j' <> j -> clean j sv -> clean j (register sv j' w s).
Proof.
  intros Hj (H1 & H2 & H3). unfold register, dappend. split; [|split]; cbn [sv_workers sv_inputs sv_outputs]; intros; intros H.
  - apply (dset_in fkey_eqb fkey_eqb_ok) in H. destruct H as [[E _]|H]; [injection E as E _; congruence|]. eapply H1, H.
  - apply (dset_in rkey_eqb rkey_eqb_ok) in H. destruct H as [[E _]|H]; [injection E as E _; congruence|]. eapply H2, H.
  - apply (dset_in rkey_eqb rkey_eqb_ok) in H. destruct H as [[E _]|H]; [injection E as E _; congruence|]. eapply H3, H.
Qed.
Lemma step_settled j cl ev : no_connect j ev -> settled j cl -> settled j (step cl ev).
Proof.
  intros Hn Hs. destruct ev as [me j' mine e|me|me|me j']; cbn [step].
  - cbn [no_connect] in Hn. intros p c w. destruct (Hs p c w) as [Hq Hd]. unfold dial. cbn [cl_queue cl_dialled]. unfold at_worker. split; intros H.
    + destruct (Z.eqb_spec p (wk_id (en_worker e))) as [->|]; [|exact (Hq H)]. apply in_app_iff in H. destruct H as [H|[H|[]]]; [exact (Hq H)|]. injection H as _ H _. exact (Hn H).
    + destruct (Z.eqb_spec p me) as [->|]; [|exact (Hd H)]. apply in_app_iff in H. destruct H as [H|[H|[]]]; [exact (Hd H)|]. injection H as _ H _. exact (Hn H).
  - unfold note_dialled. destruct (cl_dialled cl me) as [|[c0 [j0 w0]] q] eqn:E; [exact Hs|]. intros p c w. cbn [cl_queue cl_dialled]. split; [apply Hs|]. unfold at_worker. intros H. destruct (Z.eqb_spec p me) as [->|]; [|exact (proj2 (Hs p c w) H)]. apply (proj2 (Hs me c w)). rewrite E. right. exact H.
  - unfold accept. destruct (cl_queue cl me) as [|[c0 [j0 w0]] q] eqn:E; [exact Hs|]. intros p c w. cbn [cl_queue cl_dialled]. split; [|apply Hs]. unfold at_worker. intros H. destruct (Z.eqb_spec p me) as [->|]; [|exact (proj1 (Hs p c w) H)]. apply (proj1 (Hs me c w)). rewrite E. right. exact H.
  - exact Hs.
Qed.
Lemma step_clean j p cl ev : no_connect j ev -> settled j cl -> clean j (cl_srv cl p) -> clean j (cl_srv (step cl ev) p).
Proof.
  intros Hn Hs Hc. destruct ev as [me j' mine e|me|me|me j']; cbn [step].
  - exact Hc.
  - unfold note_dialled. destruct (cl_dialled cl me) as [|[c0 [j0 w0]] q] eqn:E; [exact Hc|]. cbn [cl_srv]. unfold at_worker. destruct (Z.eqb_spec p me) as [->|]; [|exact Hc]. apply clean_register; [|exact Hc]. intros ->. apply (proj2 (Hs me c0 w0)). rewrite E. left. reflexivity.
  - unfold accept. destruct (cl_queue cl me) as [|[c0 [j0 w0]] q] eqn:E; [exact Hc|]. cbn [cl_srv]. unfold at_worker. destruct (Z.eqb_spec p me) as [->|]; [|exact Hc]. apply clean_register; [|exact Hc]. intros ->. apply (proj1 (Hs me c0 w0)). rewrite E. left. reflexivity.
  - cbn [cl_srv]. unfold at_worker. destruct (Z.eqb_spec p me) as [->|]; [|exact Hc]. apply clean_other, Hc.
Qed.
Lemma happen_clean j p : forall evs cl, (forall ev, In ev evs -> no_connect j ev) -> settled j cl -> clean j (cl_srv cl p) -> clean j (cl_srv (happen cl evs) p).
Proof.
  induction evs as [|ev evs IH]; intros cl Hn Hs Hc; [exact Hc|]. change (happen cl (ev :: evs)) with (happen (step cl ev) evs).
  assert (Hn' := Hn ev (or_introl eq_refl)). apply IH; [intros; apply Hn; right; assumption|apply step_settled; assumption|apply step_clean; assumption].
Qed.
Lemma clean_uses j sv s : clean j sv -> ~ uses sv j s.
Proof. intros (H1 & H2 & H3) [(w & H)|[(r & l & o & H & _)|(r & l & i & H & _)]]; [eapply H1|eapply H2|eapply H3]; exact H. Qed.
Lemma clean_registered j sv : clean j sv -> registered sv j = [].
Proof.
  intros (H1 & _). unfold registered. replace (filter _ _) with (@nil (fkey * sock)); [reflexivity|]. symmetry. induction (sv_workers sv) as [|[[j' w] s] l IH]; [reflexivity|]. cbn [filter fst].
  destruct (Z.eqb_spec j' j) as [->|]; [exfalso; apply (H1 w s); left; reflexivity|]. apply IH. intros w' s' X. apply (H1 w' s'). right. exact X.
Qed.
Lemma happen_app evs evs' cl : happen cl (evs ++ evs') = happen (happen cl evs) evs'.
Proof. apply fold_left_app. Qed.
Lemma closed_job evs evs' p job : settled job (happen empty_cluster evs) -> (forall ev, In ev evs' -> no_connect job ev) ->
  let sv := cl_srv (happen empty_cluster (evs ++ EClose p job :: evs')) p in registered sv job = [] /\ forall s, ~ uses sv job s.
Proof.
  intros Hs Hn sv. assert (Hc : clean job sv).
  { unfold sv. rewrite happen_app. change (happen ?c (?x :: evs')) with (happen (step c x) evs'). apply happen_clean; [exact Hn|exact Hs|]. cbn [step cl_srv]. rewrite at_same. apply clean_close. }
  split; [apply clean_registered, Hc|]. intros s. apply clean_uses, Hc.
Qed.
Lemma registered_other sv job j : job <> j -> registered (close_connections sv job) j = registered sv j /\ (forall w, socket_to (close_connections sv job) j w = socket_to sv j w) /\
  (forall r, to_inputs (close_connections sv job) j r = to_inputs sv j r /\ to_outputs (close_connections sv job) j r = to_outputs sv j r).
Proof.
  intros Hj. assert (E : negb (job =? j) = true) by (destruct (Z.eqb_spec job j); [contradiction|reflexivity]). split; [|split].
  - unfold registered, close_connections. cbn [sv_workers]. f_equal. induction (sv_workers sv) as [|[[j' w] s] l IH]; [reflexivity|]. cbn [filter fst]. destruct (Z.eqb_spec job j') as [->|]; cbn [negb].
    + destruct (Z.eqb_spec j' j); [contradiction|exact IH].
    + cbn [filter fst]. destruct (j' =? j); [f_equal|]; exact IH.
  - intros w. unfold socket_to, close_connections. cbn [sv_workers]. apply (dget_filter fkey_eqb fkey_eqb_ok (fun k : fkey => negb (job =? fst k))). exact E.
  - intros r. unfold to_inputs, to_outputs, close_connections. cbn [sv_inputs sv_outputs]. split.
    + exact (f_equal (fun z => match z with Some l => l | None => [] end) (dget_filter rkey_eqb rkey_eqb_ok (fun k : rkey => negb (job =? fst k)) (sv_inputs sv) (j, r) E)).
    + exact (f_equal (fun z => match z with Some l => l | None => [] end) (dget_filter rkey_eqb rkey_eqb_ok (fun k : rkey => negb (job =? fst k)) (sv_outputs sv) (j, r) E)).
Qed.

(** a connection that is accepted after the closing stays *)
Lemma dset_has {A V} (eqb : A -> A -> bool) (Hok : forall a b, eqb a b = true <-> a = b) (d : list (A * V)) k v : In k (map fst (dset eqb d k v)).
Proof. induction d as [|[a b] d IH]; cbn [dset]; [left; reflexivity|]. destruct (eqb a k) eqn:E; [left; cbn [fst]; apply Hok, E|right; exact IH]. Qed.
Lemma dset_keeps {A V} (eqb : A -> A -> bool) (d : list (A * V)) k v k' : In k' (map fst d) -> In k' (map fst (dset eqb d k v)).
Proof. induction d as [|[a b] d IH]; cbn [dset]; intros H; [destruct H|]. destruct (eqb a k); [exact H|]. destruct H as [H|H]; [left; exact H|right; apply IH, H]. Qed.
Lemma keeps_step p job w cl ev : no_close p job ev -> In (job, w) (map fst (sv_workers (cl_srv cl p))) -> In (job, w) (map fst (sv_workers (cl_srv (step cl ev) p))).
Proof.
  intros Hn H. destruct ev as [me j' mine e|me|me|me j']; cbn [step].
  - exact H.
  - unfold note_dialled. destruct (cl_dialled cl me) as [|[c0 [j0 w0]] q]; [exact H|]. cbn [cl_srv]. unfold at_worker. destruct (Z.eqb_spec p me) as [->|]; [|exact H]. cbn [register sv_workers]. apply dset_keeps, H.
  - unfold accept. destruct (cl_queue cl me) as [|[c0 [j0 w0]] q]; [exact H|]. cbn [cl_srv]. unfold at_worker. destruct (Z.eqb_spec p me) as [->|]; [|exact H]. cbn [register sv_workers]. apply dset_keeps, H.
  - cbn [cl_srv]. unfold at_worker. destruct (Z.eqb_spec p me) as [->|]; [|exact H]. cbn [close_connections sv_workers]. cbn [no_close] in Hn. apply in_map_iff in H. destruct H as ([k s] & E & H). cbn [fst] in E. subst k. apply in_map_iff. exists ((job, w), s). split; [reflexivity|]. apply filter_In. split; [exact H|]. cbn [fst]. destruct (Z.eqb_spec j' job) as [->|]; [exfalso; apply Hn; auto|reflexivity].
Qed.
Lemma keeps_happen p job w : forall evs cl, (forall ev, In ev evs -> no_close p job ev) -> In (job, w) (map fst (sv_workers (cl_srv cl p))) -> In (job, w) (map fst (sv_workers (cl_srv (happen cl evs) p))).
Proof.
  induction evs as [|ev evs IH]; intros cl Hn H; [exact H|]. change (happen cl (ev :: evs)) with (happen (step cl ev) evs). apply IH; [intros; apply Hn; right; assumption|]. apply keeps_step; [apply Hn; left; reflexivity|exact H].
Qed.
Lemma in_registered sv job w : In w (registered sv job) <-> In (job, w) (map fst (sv_workers sv)).
Proof.
  unfold registered. rewrite !in_map_iff. split.
  - intros ([[j w'] s] & E & H). cbn [fst snd] in E. subst w'. apply filter_In in H. destruct H as [H Ej]. cbn [fst] in Ej. apply Z.eqb_eq in Ej. subst j. exists ((job, w), s). auto.
  - intros ([k s] & E & H). cbn [fst] in E. subst k. exists ((job, w), s). split; [reflexivity|]. apply filter_In. split; [exact H|]. apply Z.eqb_refl.
Qed.
Lemma late_accept evs evs' p job c w q : cl_queue (happen empty_cluster evs) p = (c, (job, w)) :: q -> (forall ev, In ev evs' -> no_close p job ev) ->
  In w (registered (cl_srv (happen empty_cluster (evs ++ EClose p job :: EAccept p :: evs')) p) job).
Proof.
  intros E Hn. apply in_registered. rewrite happen_app. change (happen ?c (?x :: ?y :: evs')) with (happen (step (step c x) y) evs'). apply keeps_happen; [exact Hn|].
  cbn [step]. unfold accept. cbn [cl_queue]. rewrite E. cbn [cl_srv]. rewrite !at_same. cbn [register sv_workers]. apply (dset_has fkey_eqb fkey_eqb_ok).
Qed.

(** workers without connections *)
Lemma quiet p : forall evs cl, (forall me j mine e, In (EConnect me j mine e) evs -> p <> me /\ p <> wk_id (en_worker e)) ->
  cl_queue cl p = [] -> cl_dialled cl p = [] -> cl_queue (happen cl evs) p = [] /\ cl_dialled (happen cl evs) p = [].
Proof.
  induction evs as [|ev evs IH]; intros cl H Hq Hd; [auto|]. change (happen cl (ev :: evs)) with (happen (step cl ev) evs). apply IH; [intros; eapply H; right; eassumption| |].
  - destruct ev as [me j mine e|me|me|me j]; cbn [step]; [|unfold note_dialled; destruct (cl_dialled cl me) as [|[c [j w]] q]; exact Hq| |exact Hq].
    + destruct (H me j mine e (or_introl eq_refl)) as [_ N]. unfold dial. cbn [cl_queue]. rewrite at_other by exact N. exact Hq.
    + unfold accept. destruct (cl_queue cl me) as [|[c [j w]] q] eqn:E; [exact Hq|]. cbn [cl_queue]. rewrite at_other; [exact Hq|]. intros ->. congruence.
  - destruct ev as [me j mine e|me|me|me j]; cbn [step]; [| |unfold accept; destruct (cl_queue cl me) as [|[c [j w]] q]; exact Hd|exact Hd].
    + destruct (H me j mine e (or_introl eq_refl)) as [N _]. unfold dial. cbn [cl_dialled]. rewrite at_other by exact N. exact Hd.
    + unfold note_dialled. destruct (cl_dialled cl me) as [|[c [j w]] q] eqn:E; [exact Hd|]. cbn [cl_dialled]. rewrite at_other; [exact Hd|]. intros ->. congruence.
Qed.
