(** Lemmas about connections that several threads use. *)
From Verif Require Import Base M_Sock S_Sock L_Sock M_Shared S_Shared.

Lemma nth_upd_same {A} (l : list A) i v x : nth_error l i = Some x -> nth_error (upd l i v) i = Some v.
Proof. revert i; induction l as [|a l IH]; intros [|i] E; cbn in *; try discriminate; auto. Qed.
Lemma nth_upd_other {A} (l : list A) i j (v : A) : i <> j -> nth_error (upd l i v) j = nth_error l j.
Proof. revert i j; induction l as [|a l IH]; intros [|i] [|j] E; cbn; auto; congruence. Qed.
Lemma of_thread_app {A} i (a b : list (nat * A)) : of_thread i (a ++ b) = of_thread i a ++ of_thread i b.
Proof. unfold of_thread. rewrite filter_app, map_app. reflexivity. Qed.
Lemma of_thread_one {A} i j (x : A) : of_thread i [(j, x)] = if Nat.eqb j i then [x] else [].
Proof. unfold of_thread. cbn. destruct (Nat.eqb j i); reflexivity. Qed.

(** ** sending *)
Definition clear (ts : list sthread) (but : nat -> Prop) : Prop := forall j t, nth_error ts j = Some t -> writing t <> None -> but j.
Definition excl (s : sending) : Prop :=
  if sendlock s then exists i, clear (sthreads s) (fun j => j = i) else clear (sthreads s) (fun _ => False).
Definition frames (log : list (nat * list Z)) : list Z := concat (map framed (map snd log)).
Definition owed (progs : list (list (list Z))) (ts : list sthread) (log : list (nat * list Z)) (cur : nat -> list (list Z)) : Prop :=
  length ts = length progs /\
  forall j prog t, nth_error progs j = Some prog -> nth_error ts j = Some t -> of_thread j log ++ cur j ++ filter fits (todo t) = filter fits prog.
Definition sinv (progs : list (list (list Z))) (s : sending) : Prop :=
  excl s /\ exists log part, wire s = frames log ++ part /\ (forall e, In e log -> (fst e < length progs)%nat) /\
  if up s then
    (exists i ms m rest, nth_error (sthreads s) i = Some (mkS ms (Some rest)) /\ rest <> [] /\ part ++ rest = framed m /\
      owed progs (sthreads s) log (fun j => if Nat.eqb i j then [m] else []))
    \/ (part = [] /\ (forall j t, nth_error (sthreads s) j = Some t -> writing t = None \/ writing t = Some []) /\
        owed progs (sthreads s) log (fun _ => []))
  else length (sthreads s) = length progs /\ (exists m, is_prefix part (framed m)) /\
       forall j prog, nth_error progs j = Some prog -> is_prefix (of_thread j log) (filter fits prog).

Lemma clear_upd ts i t but : clear ts but -> (writing t <> None -> but i) -> clear (upd ts i t) but.
Proof.
  intros H Hi j t' E N. destruct (Nat.eq_dec i j) as [<-|D].
  - destruct (nth_error ts i) as [x|] eqn:Ex.
    + rewrite (nth_upd_same _ _ _ _ Ex) in E. injection E as <-. auto.
    + exfalso. assert (nth_error (upd ts i t) i <> None) by congruence. apply nth_error_Some in H0. rewrite upd_length in H0. apply nth_error_Some in H0. contradiction.
  - rewrite nth_upd_other in E by auto. eapply H; eauto.
Qed.
Lemma excl_step s s' : send_step s s' -> excl s -> excl s'.
Proof.
  intros St. destruct St; unfold excl; cbn [sendlock sthreads]; intros HE; auto.
  - exists i. apply clear_upd; auto. intros j t E N. destruct (HE j t E N).
  - apply clear_upd; auto.
  - destruct l.
    + destruct HE as [i0 HE]. exists i0. apply clear_upd; auto. intros _. eapply HE; [eassumption|cbn; discriminate].
    + apply clear_upd; auto. intros _. eapply HE; [eassumption|cbn; discriminate].
  - destruct l; [|exfalso; eapply HE; [eassumption|cbn; discriminate]]. destruct HE as [i0 HE].
    assert (i = i0) by (eapply HE; [eassumption|cbn; discriminate]). subst i0.
    intros j t E N. destruct (Nat.eq_dec i j) as [<-|D].
    + rewrite (nth_upd_same _ _ _ _ H) in E. injection E as <-. apply N; reflexivity.
    + rewrite nth_upd_other in E by auto. specialize (HE j t E N). congruence.
  - destruct l; [|exfalso; eapply HE; [eassumption|cbn; discriminate]]. destruct HE as [i0 HE].
    assert (i = i0) by (eapply HE; [eassumption|cbn; discriminate]). subst i0.
    intros j t E N. destruct (Nat.eq_dec i j) as [<-|D].
    + rewrite (nth_upd_same _ _ _ _ H) in E. injection E as <-. apply N; reflexivity.
    + rewrite nth_upd_other in E by auto. specialize (HE j t E N). congruence.
Qed.
Lemma send_fits m : (exists frame, send m = Ok frame /\ frame = framed m /\ fits m = true) \/ (exists e, send m = Raise e /\ fits m = false).
Proof.
  unfold fits. destruct (Z.ltb_spec (zlen m) (2 ^ 31)) as [H|H].
  - left. exists (framed m). rewrite send_ok; auto.
  - right. exists GenericException. rewrite send_err; auto.
Qed.
Lemma framed_ne m : framed m <> [].
Proof. unfold framed. discriminate. Qed.
(** replacing one thread *)
Lemma owed_upd progs ts log cur i t x log' cur' : owed progs ts log cur -> nth_error ts i = Some x ->
  (of_thread i log' ++ cur' i ++ filter fits (todo t) = of_thread i log ++ cur i ++ filter fits (todo x)) ->
  (forall j, j <> i -> of_thread j log' = of_thread j log /\ cur' j = cur j) -> owed progs (upd ts i t) log' cur'.
Proof.
  intros [HL H] Ex Ei Ej. split; [rewrite upd_length; auto|]. intros j prog t' Ep Et. destruct (Nat.eq_dec i j) as [<-|D].
  - rewrite (nth_upd_same _ _ _ _ Ex) in Et. injection Et as <-. rewrite Ei. eapply H; eauto.
  - rewrite nth_upd_other in Et by auto. destruct (Ej j (not_eq_sym D)) as [-> ->]. eapply H; eauto.
Qed.
Lemma owed_prefix progs ts log cur : owed progs ts log cur ->
  forall j prog, nth_error progs j = Some prog -> is_prefix (of_thread j log) (filter fits prog).
Proof.
  intros [HL H] j prog Ep. destruct (nth_error ts j) as [t|] eqn:Et.
  - exists (cur j ++ filter fits (todo t)). symmetry. eapply H; eauto.
  - exfalso. apply nth_error_None in Et. assert (nth_error progs j <> None) by congruence. apply nth_error_Some in H0. lia.
Qed.
(** the connection goes down: what has been written stays *)
Lemma sinv_down progs ts l w u l' : excl (mkSending ts l' w false) -> sinv progs (mkSending ts l w u) -> sinv progs (mkSending ts l' w false).
Proof.
  intros HE (_ & log & part & Hw & Hi & H). split; auto. exists log, part. split; auto. split; auto. cbn [up sthreads] in *. destruct u; auto.
  destruct H as [(i & ms & m & rest & _ & _ & E & Ho)|(-> & _ & Ho)].
  - split; [apply Ho|]. split; [exists m, rest; auto|]. eapply owed_prefix; eauto.
  - split; [apply Ho|]. split; [exists [], (framed []); reflexivity|]. eapply owed_prefix; eauto.
Qed.
Lemma sinv_step progs s s' : send_step s s' -> sinv progs s -> sinv progs s'.
Proof.
  intros St Inv. assert (HX : excl s') by (eapply excl_step; [eassumption|apply Inv]).
  destruct St as [ts w u i m ms frame Et Es|ts w u i m ms e Et Es|ts l w i ms a b Et Ha|ts l w u i ms Et|ts l w i ms rest Et|ts w u|ts l w u].
  - (* enter *) destruct Inv as (HE & log & part & Hw & Hi & H). split; auto. exists log, part. split; auto. split; auto. cbn [up sthreads wire] in *.
    destruct (send_fits m) as [(fr & E1 & E2 & E3)|(e & E1 & _)]; [|congruence]. rewrite Es in E1. injection E1 as <-. subst frame.
    destruct u.
    + destruct H as [(i0 & ms0 & m0 & rest0 & E0 & N0 & _)|(-> & HN & Ho)].
      * exfalso. eapply (HE i0); [exact E0|cbn; discriminate].
      * left. exists i, ms, m, (framed m). rewrite (nth_upd_same _ _ _ _ Et). repeat split; auto using framed_ne.
        { rewrite upd_length; apply Ho. }
        eapply owed_upd; eauto; cbn [todo].
        { rewrite Nat.eqb_refl. cbn [filter]. rewrite E3. reflexivity. }
        { intros j D. split; auto. destruct (Nat.eqb_spec i j); congruence. }
    + rewrite upd_length. exact H.
  - (* refused *) destruct Inv as (HE & log & part & Hw & Hi & H). split; auto. exists log, part. split; auto. split; auto. cbn [up sthreads wire] in *.
    destruct (send_fits m) as [(fr & E1 & _)|(e0 & E1 & E3)]; [congruence|].
    destruct u.
    + destruct H as [(i0 & ms0 & m0 & rest0 & E0 & N0 & _)|(-> & HN & Ho)].
      * exfalso. eapply (HE i0); [exact E0|cbn; discriminate].
      * right. split; auto. split.
        { intros j t Ej. destruct (Nat.eq_dec i j) as [<-|D]; [rewrite (nth_upd_same _ _ _ _ Et) in Ej; injection Ej as <-; auto|].
          rewrite nth_upd_other in Ej by auto. eapply HN; eauto. }
        eapply owed_upd; eauto; cbn [todo]. cbn [filter]. rewrite E3. reflexivity.
    + rewrite upd_length. exact H.
  - (* write *) destruct Inv as (HE & log & part & Hw & Hi & H). cbn [up sthreads wire sendlock] in *.
    destruct H as [(i0 & ms0 & m & rest & E0 & N0 & Ef & Ho)|(-> & HN & Ho)].
    2:{ exfalso. destruct (HN i _ Et) as [E|E]; cbn in E; [discriminate|]. injection E as E. destruct a; [congruence|discriminate]. }
    assert (i0 = i).
    { unfold excl in HE. cbn [sendlock sthreads] in HE. destruct l; [|exfalso; eapply (HE i0); [exact E0|cbn; discriminate]].
      destruct HE as [k HE]. transitivity k; [|symmetry]; eapply HE; eauto; cbn; discriminate. }
    subst i0. rewrite Et in E0. injection E0 as <- <-. split; auto. destruct b as [|b0 b].
    + exists (log ++ [(i, m)]), []. split.
      { cbn [wire]. rewrite Hw. unfold frames. rewrite !map_app, concat_app. cbn [map concat snd]. rewrite !app_nil_r in *. rewrite <- Ef. rewrite <- app_assoc. reflexivity. }
      split.
      { intros e He. apply in_app_iff in He. destruct He as [He|[<-|[]]]; auto. cbn [fst]. rewrite <- (proj1 Ho). apply nth_error_Some. congruence. }
      cbn [up]. right. split; auto. cbn [sthreads]. split.
      { intros j t Ej. destruct (Nat.eq_dec i j) as [<-|D]; [rewrite (nth_upd_same _ _ _ _ Et) in Ej; injection Ej as <-; auto|].
        rewrite nth_upd_other in Ej by auto. left. destruct (writing t) eqn:Ew; auto. exfalso.
        unfold excl in HE. cbn [sendlock sthreads] in HE. destruct l; [|eapply (HE i); [exact Et|cbn; discriminate]].
        destruct HE as [k HE]. apply D. transitivity k; [|symmetry]; eapply HE; eauto; cbn; congruence. }
      eapply owed_upd; eauto; cbn [todo].
      { rewrite of_thread_app, of_thread_one, Nat.eqb_refl, <- app_assoc. reflexivity. }
      { intros j D. rewrite of_thread_app, of_thread_one. destruct (Nat.eqb_spec i j); [congruence|]. rewrite app_nil_r. auto. }
    + exists log, (part ++ a). cbn [wire]. split; [rewrite Hw, app_assoc; reflexivity|]. split; auto. cbn [up sthreads]. left. exists i, ms, m, (b0 :: b).
      rewrite (nth_upd_same _ _ _ _ Et). split; [reflexivity|]. split; [discriminate|]. split; [rewrite <- app_assoc; auto|].
      eapply owed_upd; eauto.
  - (* leave *) destruct Inv as (HE & log & part & Hw & Hi & H). cbn [up sthreads wire sendlock] in *. split; auto. exists log, part. split; auto. split; auto. cbn [up sthreads].
    destruct u; [|rewrite upd_length; exact H].
    destruct H as [(i0 & ms0 & m & rest & E0 & N0 & Ef & Ho)|(-> & HN & Ho)].
    + exfalso. assert (i0 = i).
      { unfold excl in HE. cbn [sendlock sthreads] in HE. destruct l; [|exfalso; eapply (HE i0); [exact E0|cbn; discriminate]].
        destruct HE as [k HE]. transitivity k; [|symmetry]; eapply HE; eauto; cbn; discriminate. }
      subst i0. rewrite Et in E0. injection E0 as _ E0. congruence.
    + right. split; auto. split.
      { intros j t Ej. destruct (Nat.eq_dec i j) as [<-|D]; [rewrite (nth_upd_same _ _ _ _ Et) in Ej; injection Ej as <-; auto|].
        rewrite nth_upd_other in Ej by auto. eapply HN; eauto. }
      eapply owed_upd; eauto.
  - (* error *) destruct Inv as (HE & log & part & Hw & Hi & H). cbn [up sthreads wire sendlock] in *. split; auto. exists log, part. split; auto. split; auto. cbn [up sthreads].
    rewrite upd_length. exact H.
  - eapply sinv_down; eauto.
  - eapply sinv_down; eauto.
Qed.
Lemma sinv_init progs : sinv progs (senders progs).
Proof.
  assert (HN : forall j t, nth_error (map (fun ms => mkS ms None) progs) j = Some t -> exists prog, nth_error progs j = Some prog /\ t = mkS prog None).
  { intros j t E. rewrite nth_error_map in E. destruct (nth_error progs j) as [p|]; [|discriminate]. injection E as <-. eauto. }
  split.
  - intros j t E N. destruct (HN j t E) as (p & _ & ->). apply N; reflexivity.
  - exists [], []. split; [reflexivity|]. split; [intros e []|]. right. split; auto. split.
    + intros j t E. destruct (HN j t E) as (p & _ & ->). auto.
    + split; [apply map_length|]. intros j prog t Ep Et. destruct (HN j t Et) as (p & Ep' & ->). cbn. congruence.
Qed.
Lemma sinv_steps progs s : steps send_step (senders progs) s -> sinv progs s.
Proof. intros H. remember (senders progs) as s0 eqn:E. induction H; subst; [apply sinv_init|]. eapply sinv_step; eauto. Qed.

Lemma sent_whole progs s : steps send_step (senders progs) s ->
  exists log part, wire s = concat (map framed (map snd log)) ++ part /\
    (exists m, is_prefix part (framed m)) /\
    (forall e, In e log -> (fst e < length progs)%nat) /\
    (forall i prog, nth_error progs i = Some prog -> is_prefix (of_thread i log) (filter fits prog)) /\
    (up s = true -> sendlock s = false -> part = []) /\
    (up s = true -> all_sent s -> part = [] /\ forall i prog, nth_error progs i = Some prog -> of_thread i log = filter fits prog).
Proof.
  intros H. apply sinv_steps in H. destruct H as (HE & log & part & Hw & Hi & H). exists log, part. split; [exact Hw|]. destruct (up s).
  - destruct H as [(i & ms & m & rest & Et & Hr & Ef & Ho)|(-> & HN & Ho)].
    + split; [exists m, rest; auto|]. split; [exact Hi|]. split; [eapply owed_prefix; eauto|]. split.
      * intros _ L. exfalso. unfold excl in HE. rewrite L in HE. eapply (HE i); [exact Et|cbn; discriminate].
      * intros _ A. exfalso. unfold all_sent in A. rewrite Forall_forall in A. apply nth_error_In in Et. apply A in Et. discriminate.
    + split; [exists [], (framed []); reflexivity|]. split; [exact Hi|]. split; [eapply owed_prefix; eauto|]. split; auto.
      intros _ A. split; auto. intros i prog Ep. destruct Ho as [HL Ho]. destruct (nth_error (sthreads s) i) as [t|] eqn:Et.
      * pose proof (Ho i prog t Ep Et) as E. unfold all_sent in A. rewrite Forall_forall in A. apply nth_error_In in Et. apply A in Et. subst t. cbn in E. rewrite app_nil_r in E. exact E.
      * exfalso. apply nth_error_None in Et. assert (nth_error progs i <> None) by congruence. apply nth_error_Some in H. lia.
  - destruct H as (HL & Hp & Ho). split; auto. split; auto. split; auto. split; intros; discriminate.
Qed.

(** ** sending comes to an end *)
Definition swork (t : sthread) : Z :=
  fold_right Z.add 0 (map (fun m => zlen m + 6) (todo t)) + match writing t with None => 0 | Some rest => zlen rest + 1 end.
Lemma sum_upd {A} (f : A -> Z) : forall l i x v, nth_error l i = Some x ->
  fold_right Z.add 0 (map f (upd l i v)) = fold_right Z.add 0 (map f l) - f x + f v.
Proof. induction l as [|a l IH]; intros [|i] x v E; cbn in *; try discriminate; [injection E as ->; lia|]. rewrite (IH _ _ v E). lia. Qed.
Lemma work_upd ts i x t l w u l' w' u' : nth_error ts i = Some x ->
  send_work (mkSending (upd ts i t) l' w' u') = send_work (mkSending ts l w u) - swork x + swork t.
Proof. intros E. unfold send_work. cbn [sthreads]. apply (sum_upd swork); auto. Qed.
Lemma step_work s s' : send_step s s' -> send_work s' < send_work s \/ sthreads s' = sthreads s.
Proof.
  intros St. destruct St as [ts w u i m ms frame Et Es|ts w u i m ms e Et Es|ts l w i ms a b Et Ha|ts l w u i ms Et|ts l w i ms rest Et|ts w u|ts l w u];
    auto; left.
  - rewrite (work_upd _ _ _ _ false w u _ _ _ Et). unfold swork. cbn [todo writing map fold_right].
    destruct (send_fits m) as [(fr & E1 & E2 & E3)|(e & E1 & _)]; [|congruence]. rewrite Es in E1. injection E1 as <-. subst frame. rewrite zlen_framed. lia.
  - rewrite (work_upd _ _ _ _ false w u _ _ _ Et). unfold swork. cbn [todo writing map fold_right]. pose proof (zlen_nonneg m). lia.
  - rewrite (work_upd _ _ _ _ l w true _ _ _ Et). unfold swork. cbn [todo writing map fold_right]. rewrite zlen_app.
    destruct a; [congruence|]. rewrite zlen_cons. pose proof (zlen_nonneg a). lia.
  - rewrite (work_upd _ _ _ _ l w u _ _ _ Et). unfold swork. cbn [todo writing map fold_right]. change (zlen (@nil Z)) with 0. lia.
  - rewrite (work_upd _ _ _ _ l w false _ _ _ Et). unfold swork. cbn [todo writing map fold_right]. pose proof (zlen_nonneg rest). lia.
Qed.
Lemma locked_writer progs s : steps send_step (senders progs) s -> sendlock s = true -> exists i ms rest, nth_error (sthreads s) i = Some (mkS ms (Some rest)).
Proof.
  intros H. remember (senders progs) as s0 eqn:E0. induction H as [s|s1 s2 s3 H IH St]; [subst; discriminate|]. specialize (IH E0).
  destruct St; cbn [sendlock sthreads] in *; intros L; try discriminate; try (destruct (IH L) as (j & ms' & rest' & Ej)).
  - exists i, ms, frame. apply (nth_upd_same _ _ _ _ H0).
  - exists i, ms, b. apply (nth_upd_same _ _ _ _ H0).
  - exists j, ms', rest'. exact Ej.
Qed.
Lemma not_all {A} (P : A -> Prop) (dec : forall x, P x \/ ~ P x) l : ~ Forall P l -> exists i x, nth_error l i = Some x /\ ~ P x.
Proof.
  induction l as [|a l IH]; intros H; [destruct H; constructor|]. destruct (dec a) as [Ha|Ha].
  - destruct IH as (i & x & E & N); [intros F; apply H; constructor; auto|]. exists (S i), x. auto.
  - exists 0%nat, a. auto.
Qed.
Lemma send_progress progs s : steps send_step (senders progs) s -> ~ all_sent s ->
  exists s', send_step s s' /\ up s' = up s /\ send_work s' < send_work s.
Proof.
  intros H N. pose proof (locked_writer progs s H) as HL. destruct (sinv_steps progs s H) as (HE & _).
  assert (G : exists s', send_step s s' /\ up s' = up s /\ sthreads s' <> sthreads s).
  { destruct s as [ts l w u]. cbn [sthreads sendlock up] in *.
    assert (Hu : forall i x y, nth_error ts i = Some x -> x <> y -> upd ts i y <> ts).
    { intros i x y Ex D E. pose proof (nth_upd_same ts i y x Ex) as E2. rewrite E in E2. congruence. }
    destruct l.
    - destruct (HL eq_refl) as (i & ms & rest & Et). destruct rest as [|b rest].
      + eexists. split; [apply st_leave; exact Et|]. split; [reflexivity|]. apply (Hu _ _ _ Et). discriminate.
      + destruct u.
        * eexists. split; [apply (st_write ts true w i ms (b :: rest) []); [rewrite app_nil_r; exact Et|discriminate]|]. split; [reflexivity|]. apply (Hu _ _ _ Et). discriminate.
        * eexists. split; [eapply st_error; exact Et|]. split; [reflexivity|]. apply (Hu _ _ _ Et). discriminate.
    - destruct (not_all (fun t => t = mkS [] None)) with (l := ts) as (i & [td wr] & Et & D).
      { intros [[|m td] [r|]]; (left; reflexivity) || (right; discriminate). }
      { exact N. }
      assert (wr = None) by (destruct wr; auto; exfalso; eapply (HE i); [exact Et|cbn; discriminate]). subst wr.
      destruct td as [|m td]; [congruence|]. destruct (send_fits m) as [(fr & E1 & _)|(e & E1 & _)].
      + eexists. split; [eapply st_enter; eauto|]. split; [reflexivity|]. apply (Hu _ _ _ Et). discriminate.
      + eexists. split; [eapply st_refused; eauto|]. split; [reflexivity|]. apply (Hu _ _ _ Et). intros E. injection E as E.
        apply (f_equal (@length _)) in E. cbn in E. lia. }
  destruct G as (s' & St & Eu & D). exists s'. split; auto. split; auto. destruct (step_work s s' St); [auto|contradiction].
Qed.

(** ** receiving *)
Definition rinv (c0 : conn) (r : receiving) : Prop :=
  let '(c, rs) := recv_calls (length (results r)) c0 in
  map snd (results r) = rs /\
  if recvlock r then
    exists i k total msg size, nth_error (rthreads r) i = Some (mkR k (Some (total, msg, size))) /\
      (forall j t, nth_error (rthreads r) j = Some t -> reading t <> None -> j = i) /\
      recv_loop (incoming (rconn r)) total msg size = recv c /\ lastbytes (rconn r) = []
  else rconn r = c /\ forall j t, nth_error (rthreads r) j = Some t -> reading t = None.
Lemma only_upd (ts : list rthread) i x k v : nth_error ts i = Some x -> (forall j t, nth_error ts j = Some t -> reading t <> None -> j = i) ->
  forall j t, nth_error (upd ts i (mkR k v)) j = Some t -> reading t <> None -> j = i.
Proof.
  intros Ex H j t E N. destruct (Nat.eq_dec i j) as [<-|D]; auto. rewrite nth_upd_other in E by auto. eauto.
Qed.
Lemma none_upd (ts : list rthread) i x k : nth_error ts i = Some x -> (forall j t, nth_error ts j = Some t -> reading t <> None -> j = i) ->
  forall j t, nth_error (upd ts i (mkR k None)) j = Some t -> reading t = None.
Proof.
  intros Ex H j t E. destruct (Nat.eq_dec i j) as [<-|D].
  - rewrite (nth_upd_same _ _ _ _ Ex) in E. injection E as <-. reflexivity.
  - rewrite nth_upd_other in E by auto. destruct (reading t) eqn:Er; auto. exfalso. apply D. symmetry. apply (H j t); congruence.
Qed.
Lemma calls_snoc c0 rs (x : nat * res (list Z)) c l : recv_calls (length rs) c0 = (c, l) ->
  recv_calls (length (rs ++ [x])) c0 = (fst (recv c), l ++ [snd (recv c)]).
Proof. intros E. rewrite app_length, Nat.add_comm. cbn [length Nat.add recv_calls]. rewrite E. destruct (recv c); reflexivity. Qed.
Lemma zlen_ne {A} (s : list A) : s <> [] -> (zlen s =? 0) = false.
Proof. intros H. apply Z.eqb_neq. destruct s; [congruence|]. rewrite zlen_cons. pose proof (zlen_nonneg s). lia. Qed.
Lemma rinv_step c0 r r' : recv_step false r r' -> rinv c0 r -> rinv c0 r'.
Proof.
  intros St Inv. destruct St as [ts c rs i k Et Hl|ts c rs i k size Et Hl Eu|ts l lb s segs rs i k total msg size Et Hl Hs Hn|ts l lb s segs rs i k total msg size' Et Hl Hs Hn Eu|ts l lb rs i k total msg size Et Hl|ts l c rs i k total msg size Et Hl|]; [..|discriminate];
    unfold rinv in *; cbn [results recvlock rthreads rconn] in *.
  - destruct (recv_calls (length rs) c0) as [cc l]. destruct Inv as (E1 & -> & HN). split; auto.
    exists i, k, (lastbytes cc), [], maxsize. rewrite (nth_upd_same _ _ _ _ Et). split; auto. split; [|split; auto].
    + eapply only_upd; eauto. intros j t E N. exfalso. apply N. eauto.
    + cbn [incoming]. unfold recv. rewrite (proj2 (Z.ltb_ge _ _)) by lia. reflexivity.
  - destruct (recv_calls (length rs) c0) as [cc l]. destruct Inv as (E1 & -> & HN). split; auto.
    exists i, k, (lastbytes cc), (slice_from (lastbytes cc) SIZE_BYTES), size. rewrite (nth_upd_same _ _ _ _ Et). split; auto. split; [|split; auto].
    + eapply only_upd; eauto. intros j t E N. exfalso. apply N. eauto.
    + cbn [incoming]. unfold recv. rewrite (proj2 (Z.ltb_lt _ _)) by lia. rewrite Eu. reflexivity.
  - destruct (recv_calls (length rs) c0) as [cc l0]. destruct Inv as (E1 & Inv). split; auto. destruct l.
    2:{ exfalso. destruct Inv as (_ & HN). specialize (HN i _ Et). discriminate. }
    destruct Inv as (i0 & k0 & t0 & m0 & z0 & E0 & HN & EL & Eb). assert (i = i0) by (eapply HN; [exact Et|cbn; discriminate]). subst i0.
    rewrite Et in E0. injection E0 as <- <- <- <-. exists i, k, (total ++ s), (msg ++ s), size. rewrite (nth_upd_same _ _ _ _ Et). split; auto. split; [|split; auto].
    + eapply only_upd; eauto.
    + cbn [incoming] in *. rewrite <- EL. cbn [recv_loop]. rewrite (proj2 (Z.ltb_lt _ _)) by lia. rewrite (zlen_ne s Hs).
      destruct ((size =? maxsize) && (SIZE_BYTES <? zlen (total ++ s))) eqn:C; [|reflexivity]. exfalso. apply Hn.
      apply andb_true_iff in C. destruct C as [C1 C2]. apply Z.eqb_eq in C1. apply Z.ltb_lt in C2. auto.
  - destruct (recv_calls (length rs) c0) as [cc l0]. destruct Inv as (E1 & Inv). split; auto. destruct l.
    2:{ exfalso. destruct Inv as (_ & HN). specialize (HN i _ Et). discriminate. }
    destruct Inv as (i0 & k0 & t0 & m0 & z0 & E0 & HN & EL & Eb). assert (i = i0) by (eapply HN; [exact Et|cbn; discriminate]). subst i0.
    rewrite Et in E0. injection E0 as <- <- <- <-. exists i, k, (total ++ s), (msg ++ slice_from (total ++ s) SIZE_BYTES), size'. rewrite (nth_upd_same _ _ _ _ Et). split; auto. split; [|split; auto].
    + eapply only_upd; eauto.
    + cbn [incoming] in *. rewrite <- EL. cbn [recv_loop]. rewrite (proj2 (Z.ltb_lt _ _)) by lia. rewrite (zlen_ne s Hs).
      rewrite Z.eqb_refl, (proj2 (Z.ltb_lt _ _) Hn), Eu. reflexivity.
  - destruct (recv_calls (length rs) c0) as [cc l0] eqn:EC. rewrite (calls_snoc _ _ _ _ _ EC). destruct Inv as (E1 & Inv). destruct l.
    2:{ exfalso. destruct Inv as (_ & HN). specialize (HN i _ Et). discriminate. }
    destruct Inv as (i0 & k0 & t0 & m0 & z0 & E0 & HN & EL & Eb). assert (i = i0) by (eapply HN; [exact Et|cbn; discriminate]). subst i0.
    rewrite Et in E0. injection E0 as <- <- <- <-. cbn [incoming lastbytes] in *. subst lb.
    cbn [recv_loop] in EL. rewrite (proj2 (Z.ltb_lt _ _)) in EL by lia. rewrite <- EL. cbn [fst snd]. rewrite map_app, E1. split; auto.
    split; auto. eapply none_upd; eauto.
  - destruct (recv_calls (length rs) c0) as [cc l0] eqn:EC. rewrite (calls_snoc _ _ _ _ _ EC). destruct Inv as (E1 & Inv). destruct l.
    2:{ exfalso. destruct Inv as (_ & HN). specialize (HN i _ Et). discriminate. }
    destruct Inv as (i0 & k0 & t0 & m0 & z0 & E0 & HN & EL & Eb). assert (i = i0) by (eapply HN; [exact Et|cbn; discriminate]). subst i0.
    rewrite Et in E0. injection E0 as <- <- <- <-. destruct c as [lb inc]. cbn [incoming lastbytes] in *. subst lb.
    assert (EL2 : recv_loop inc total msg size = (mkConn (slice_from msg size) inc, Ok (slice_to msg size))).
    { destruct inc; cbn [recv_loop]; rewrite (proj2 (Z.ltb_ge _ _)) by lia; reflexivity. }
    rewrite EL2 in EL. rewrite <- EL. cbn [fst snd]. rewrite map_app, E1. split; auto. split; auto. eapply none_upd; eauto.
Qed.
Lemma rinv_init counts segs : rinv (mkConn [] segs) (receivers counts segs).
Proof.
  unfold rinv. cbn. split; auto. split; auto. intros j t E. rewrite nth_error_map in E. destruct (nth_error counts j); [|discriminate]. injection E as <-. reflexivity.
Qed.
Lemma rinv_steps counts segs r : steps (recv_step false) (receivers counts segs) r -> rinv (mkConn [] segs) r.
Proof. intros H. remember (receivers counts segs) as r0 eqn:E. induction H; subst; [apply rinv_init|]. eapply rinv_step; eauto. Qed.
Lemma received_in_turn counts segs r : steps (recv_step false) (receivers counts segs) r ->
  map snd (results r) = snd (recv_calls (length (results r)) (mkConn [] segs)).
Proof. intros H. apply rinv_steps in H. unfold rinv in H. destruct (recv_calls _ _) as [c rs]. apply H. Qed.

Lemma recv_many_split : forall a b c c' ms, recv_many (a + b) c = (c', Ok ms) ->
  exists c1 ms1 ms2, recv_many a c = (c1, Ok ms1) /\ recv_many b c1 = (c', Ok ms2) /\ ms = ms1 ++ ms2 /\ length ms1 = a.
Proof.
  induction a as [|a IH]; intros b c c' ms E; cbn [Nat.add recv_many] in *.
  - exists c, [], ms. auto.
  - destruct (recv c) as [c1 [m|e]]; [|discriminate]. destruct (recv_many (a + b) c1) as [c2 [ms'|e]] eqn:E2; [|discriminate].
    injection E as <- <-. destruct (IH b c1 c2 ms' E2) as (c3 & ms1 & ms2 & -> & E4 & -> & L). exists c3, (m :: ms1), ms2. cbn. auto.
Qed.
Lemma recv_calls_ok : forall k c c' ms, recv_many k c = (c', Ok ms) -> recv_calls k c = (c', map Ok ms).
Proof.
  induction k as [|k IH]; intros c c' ms E.
  - cbn in *. injection E as <- <-. reflexivity.
  - replace (S k) with (k + 1)%nat in E by lia. destruct (recv_many_split k 1 c c' ms E) as (c1 & ms1 & ms2 & E1 & E2 & -> & _).
    cbn [recv_calls]. rewrite (IH _ _ _ E1). cbn [recv_many] in E2. destruct (recv c1) as [c2 [m|e]]; [|discriminate].
    injection E2 as <- <-. rewrite map_app. reflexivity.
Qed.
Lemma recv_calls_first k n c c' ms : recv_many n c = (c', Ok ms) -> (k <= n)%nat -> snd (recv_calls k c) = map Ok (firstn k ms).
Proof.
  intros E H. replace n with (k + (n - k))%nat in E by lia. destruct (recv_many_split _ _ _ _ _ E) as (c1 & ms1 & ms2 & E1 & _ & -> & L).
  rewrite (recv_calls_ok _ _ _ _ E1). cbn [snd]. f_equal. rewrite firstn_app, L, Nat.sub_diag. cbn [firstn]. rewrite app_nil_r, firstn_all2 by lia. reflexivity.
Qed.

(** ** calls are counted *)
Definition rcalls (t : rthread) : nat := (calls t + match reading t with None => 0 | Some _ => 1 end)%nat.
Lemma list_sum_upd {A} (f : A -> nat) : forall l i x v, nth_error l i = Some x ->
  (list_sum (map f (upd l i v)) + f x = list_sum (map f l) + f v)%nat.
Proof. induction l as [|a l IH]; intros [|i] x v E; cbn in *; try discriminate; [injection E as ->; lia|]. specialize (IH _ _ v E). unfold list_sum in IH. lia. Qed.
Lemma calls_step T r r' : recv_step T r r' ->
  (length (results r') + list_sum (map rcalls (rthreads r')) = length (results r) + list_sum (map rcalls (rthreads r)))%nat.
Proof.
  intros St. destruct St; cbn [results rthreads];
    match goal with E : nth_error ?ts ?i = Some ?x |- context [upd ?ts ?i ?v] => pose proof (list_sum_upd rcalls ts i x v E) as L end;
    unfold rcalls in L at 2 4; cbn [calls reading] in L; rewrite ?app_length; cbn [length]; lia.
Qed.
Lemma calls_steps T counts segs r : steps (recv_step T) (receivers counts segs) r -> (length (results r) <= list_sum counts)%nat.
Proof.
  intros H. assert (G : (length (results r) + list_sum (map rcalls (rthreads r)) = list_sum counts)%nat); [|lia].
  remember (receivers counts segs) as r0 eqn:E. induction H as [s|s1 s2 s3 H IH St]; subst.
  - cbn. rewrite map_map. unfold rcalls. cbn. f_equal. clear. induction counts as [|a l IH]; cbn; [auto|]. f_equal; auto.
  - rewrite (calls_step _ _ _ St). auto.
Qed.

(** ** messages of several threads arrive *)
Lemma filter_all {A} (p : A -> bool) l : (forall x, In x l -> p x = true) -> filter p l = l.
Proof. induction l as [|a l IH]; intros H; cbn; auto. rewrite H by (cbn; auto). f_equal. apply IH. intros; apply H; cbn; auto. Qed.
Lemma log_fits progs s log : steps send_step (senders progs) s -> up s = true -> all_sent s ->
  (forall i prog, nth_error progs i = Some prog -> of_thread i log = filter fits prog) ->
  (forall e, In e log -> (fst e < length progs)%nat) -> forall m, In m (map snd log) -> zlen m < 2 ^ 31.
Proof.
  intros _ _ _ H Hi m Hm. apply in_map_iff in Hm. destruct Hm as ([i m'] & <- & He). specialize (Hi _ He). cbn [fst snd] in *.
  destruct (nth_error progs i) as [prog|] eqn:Ep; [|apply nth_error_None in Ep; lia].
  assert (In m' (of_thread i log)). { unfold of_thread. apply in_map_iff. exists (i, m'). split; auto. apply filter_In. split; auto. cbn. apply Nat.eqb_refl. }
  rewrite (H i prog Ep) in H0. apply filter_In in H0. destruct H0 as [_ H0]. unfold fits in H0. apply Z.ltb_lt in H0. exact H0.
Qed.
Lemma mmap_send_ok msgs : (forall m, In m msgs -> zlen m < 2 ^ 31) -> mmap send msgs = Ok (map framed msgs).
Proof. induction msgs as [|m l IH]; intros H; cbn; auto. rewrite send_ok by (apply H; cbn; auto). cbn [bind]. rewrite IH; auto. intros; apply H; cbn; auto. Qed.
Lemma all_threads progs s segs : steps send_step (senders progs) s -> up s = true -> all_sent s ->
  concat segs = wire s -> (forall x, In x segs -> x <> []) ->
  exists log, concat segs = concat (map framed (map snd log)) /\ (forall e, In e log -> (fst e < length progs)%nat) /\
    (forall i prog, nth_error progs i = Some prog -> of_thread i log = filter fits prog) /\
    (headers_not_cut_twice (map snd log) segs -> last (map snd log) [0] <> [] ->
     forall counts r, (list_sum counts <= length log)%nat -> steps (recv_step false) (receivers counts segs) r ->
       map snd (results r) = map Ok (firstn (length (results r)) (map snd log))).
Proof.
  intros H U A Es Hs. destruct (sent_whole progs s H) as (log & part & Hw & _ & Hi & _ & _ & Hd). destruct (Hd U A) as [-> Ho].
  rewrite app_nil_r in Hw. exists log. split; [congruence|]. split; auto. split; auto. intros Hg Hl counts r Hc Hr.
  pose proof (log_fits progs s log H U A Ho Hi) as Hf.
  pose proof (all_arrive (map snd log) _ segs (mmap_send_ok _ Hf) ltac:(congruence) Hs Hg Hl) as R.
  rewrite (received_in_turn counts segs r Hr). eapply recv_calls_first; [exact R|]. rewrite map_length. pose proof (calls_steps _ _ _ _ Hr). lia.
Qed.

(** ** receiving comes to an end *)
Definition rwork (t : rthread) : nat := (2 * calls t + match reading t with None => 0 | Some _ => 1 end)%nat.
Lemma recv_decreases T r r' : recv_step T r r' -> (recv_work r' < recv_work r)%nat.
Proof.
  intros St. unfold recv_work. fold rwork. destruct St; cbn [results rthreads rconn incoming];
    match goal with E : nth_error ?ts ?i = Some ?x |- context [upd ?ts ?i ?v] => pose proof (list_sum_upd rwork ts i x v E) as L end;
    unfold rwork in L at 2 4; cbn [calls reading] in L;
    repeat match goal with |- context [list_sum (map ?f ?l)] => change (list_sum (map f l)) with (list_sum (map rwork l)) end; cbn [length]; lia.
Qed.
Lemma unpack_four l : SIZE_BYTES < zlen l -> exists z, unpack_i (slice_to l SIZE_BYTES) = Ok z.
Proof.
  unfold SIZE_BYTES. intros H. destruct l as [|a [|b [|c [|d l]]]]; try (exfalso; vm_compute in H; discriminate). eexists. reflexivity.
Qed.
Lemma recv_progress counts segs r : (forall x, In x segs -> x <> []) -> steps (recv_step false) (receivers counts segs) r -> ~ all_received r ->
  exists r', recv_step false r r'.
Proof.
  intros Hs H N. assert (Hs' : forall x, In x (incoming (rconn r)) -> x <> []).
  { clear N. remember (receivers counts segs) as r0 eqn:E. induction H as [s|s1 s2 s3 H IH St]; subst; [exact Hs|].
    specialize (IH eq_refl). destruct St; cbn [rconn incoming] in *; auto; intros x Hx; apply IH; cbn; auto. }
  apply rinv_steps in H. unfold rinv in H. destruct (recv_calls _ _) as [c rs]. destruct H as [_ H].
  destruct r as [ts l [lb inc] res]. cbn [recvlock rthreads rconn incoming] in *. destruct l.
  - destruct H as (i & k & total & msg & size & Et & _). destruct (Z_lt_le_dec (zlen msg) size) as [L|L].
    2:{ eexists. eapply rt_leave; eauto. }
    destruct inc as [|s inc]; [eexists; eapply rt_ended; eauto|]. assert (s <> []) by (apply Hs'; cbn; auto).
    destruct (Z.eq_dec size maxsize) as [->|D]; [|eexists; eapply rt_read; eauto; tauto].
    destruct (Z_lt_le_dec SIZE_BYTES (zlen (total ++ s))) as [L2|L2]; [|eexists; eapply rt_read; eauto; lia].
    destruct (unpack_four _ L2) as (z & Ez). eexists. eapply rt_read_size; eauto.
  - destruct H as [_ HN]. destruct (not_all (fun t => t = mkR 0 None)) with (l := ts) as (i & [k rd] & Et & D).
    { intros [[|k] [q|]]; (left; reflexivity) || (right; discriminate). }
    { exact N. }
    assert (rd = None) by exact (HN i _ Et). subst rd. destruct k as [|k]; [congruence|].
    destruct (Z_lt_le_dec SIZE_BYTES (zlen lb)) as [L|L].
    + destruct (unpack_four _ L) as (z & Ez). eexists. eapply rt_enter_known; eauto.
    + eexists. eapply rt_enter; eauto.
Qed.

(** ** timeouts *)
Lemma timed_out a m2 : 0 < zlen m2 < 256 -> zlen a < 2 ^ 31 - 1 ->
  let m1 := a ++ [0] in let s1 := firstn (length a + 4) (framed m1) in let s2 := [0] ++ framed m2 in
  s1 ++ s2 = framed m1 ++ framed m2 /\
  exists r, steps (recv_step true) (receivers [2%nat] [s1; s2]) r /\ results r = [(0%nat, Raise GenericException); (0%nat, Ok [])].
Proof.
  intros H2 Ha m1 s1 s2. assert (E1 : s1 ++ [0] = framed m1).
  { unfold s1, framed, m1. cbn [app]. rewrite Nat.add_comm. cbn [firstn Nat.add]. rewrite firstn_app, Nat.sub_diag, firstn_all. cbn [firstn]. rewrite app_nil_r. reflexivity. }
  split; [unfold s2; rewrite app_assoc, E1; reflexivity|].
  assert (Hz : zlen s1 = zlen a + 4) by (apply (f_equal zlen) in E1; rewrite zlen_framed, zlen_app in E1; unfold m1 in E1; rewrite zlen_app in E1; change (zlen [0]) with 1 in E1; lia).
  set (B := [(0%nat, @Raise (list Z) GenericException)]). pose proof (zlen_nonneg a) as Ha0.
  (* the first call reads s1 and times out *)
  assert (F : exists total msg size, zlen msg < size /\
    steps (recv_step true) (receivers [2%nat] [s1; s2]) (mkReceiving [mkR 1 (Some (total, msg, size))] true (mkConn [] [s2]) [])).
  { assert (S1 : steps (recv_step true) (receivers [2%nat] [s1; s2]) (mkReceiving [mkR 1 (Some ([], [], maxsize))] true (mkConn [] [s1; s2]) [])).
    { eapply steps_one; [apply steps_refl|]. apply (rt_enter true [mkR 2 None] (mkConn [] [s1; s2]) [] 0%nat 1%nat); [reflexivity|vm_compute; discriminate]. }
    assert (Hne : s1 <> []) by (intros E; rewrite E in Hz; change (zlen (@nil Z)) with 0 in Hz; lia).
    destruct (Z.eq_dec (zlen a) 0) as [E0|D0].
    - exists s1, s1, maxsize. split; [rewrite Hz, E0; reflexivity|]. eapply steps_one; [exact S1|].
      apply (rt_read true [mkR 1 (Some ([], [], maxsize))] true [] s1 [s2] [] 0%nat 1%nat [] [] maxsize); auto; [reflexivity|].
      cbn [app]. unfold SIZE_BYTES. lia.
    - assert (EH : unpack_i (slice_to s1 SIZE_BYTES) = Ok (zlen m1) /\ slice_from s1 SIZE_BYTES ++ [0] = m1 ++ []).
      { apply (prefix_head m1 [] s1 [0]); [unfold m1; rewrite zlen_app; change (zlen [0]) with 1; lia|lia|rewrite app_nil_r; exact E1]. }
      destruct EH as [EH ET]. exists s1, (slice_from s1 SIZE_BYTES), (zlen m1). split.
      { apply (f_equal zlen) in ET. rewrite !zlen_app in ET. change (zlen [0]) with 1 in ET. change (zlen (@nil Z)) with 0 in ET. lia. }
      eapply steps_one; [exact S1|].
      apply (rt_read_size true [mkR 1 (Some ([], [], maxsize))] true [] s1 [s2] [] 0%nat 1%nat [] [] (zlen m1)); auto; [reflexivity|].
      cbn [app]. unfold SIZE_BYTES. lia. }
  destruct F as (total & msg & size & Hl & S1).
  assert (S2 : steps (recv_step true) (receivers [2%nat] [s1; s2]) (mkReceiving [mkR 1 None] false (mkConn [] [s2]) B)).
  { eapply steps_one; [exact S1|]. apply (rt_timeout true [mkR 1 (Some (total, msg, size))] true (mkConn [] [s2]) [] 0%nat 1%nat total msg size); auto. }
  assert (S3 : steps (recv_step true) (receivers [2%nat] [s1; s2]) (mkReceiving [mkR 0 (Some ([], [], maxsize))] true (mkConn [] [s2]) B)).
  { eapply steps_one; [exact S2|]. apply (rt_enter true [mkR 1 None] (mkConn [] [s2]) B 0%nat 0%nat); [reflexivity|vm_compute; discriminate]. }
  assert (EQ : unpack_i (slice_to s2 SIZE_BYTES) = Ok 0).
  { change (slice_to s2 SIZE_BYTES) with [0; zlen m2 / 2 ^ 24; zlen m2 / 2 ^ 16 mod 256; zlen m2 / 2 ^ 8 mod 256].
    rewrite !(Z.div_small (zlen m2)) by lia. reflexivity. }
  eexists. split.
  - eapply steps_one; [eapply steps_one; [exact S3|]|].
    + apply (rt_read_size true [mkR 0 (Some ([], [], maxsize))] true [] s2 [] B 0%nat 0%nat [] [] 0); auto; [reflexivity|discriminate|].
      cbn [app]. unfold SIZE_BYTES, s2. rewrite zlen_app, zlen_framed. change (zlen [0]) with 1. lia.
    + eapply (rt_leave true _ true _ B 0%nat 0%nat); [reflexivity|]. apply zlen_nonneg.
  - reflexivity.
Qed.
