(** Several jobs: every execution is finite. *)
From Coq Require Import Sorted.
From Verif Require Import Base M_Kron M_Measure M_Net S_Net L_Net M_Worker S_Worker L_Worker1 M_Jobs S_Jobs L_Jobs1 L_Jobs2 L_Jobs3.

Fixpoint nsum (f : nat -> nat) (n : nat) : nat := match n with O => O | S n => nsum f n + f n end.
Lemma nsum_same f g n : (forall j, (j < n)%nat -> f j = g j) -> nsum f n = nsum g n.
Proof. induction n as [|n IH]; intros H; cbn; [reflexivity|]. rewrite IH by (intros; apply H; lia). rewrite (H n) by lia. reflexivity. Qed.
Lemma nsum_inc f n j : (j < n)%nat -> nsum (nset f j (S (f j))) n = S (nsum f n).
Proof.
  induction n as [|n IH]; intros H; [lia|]. cbn. destruct (Nat.eq_dec n j) as [->|Hn].
  - rewrite nset_eq. rewrite (nsum_same (nset f j (S (f j))) f); [lia|]. intros k Hk. apply nset_ne. lia.
  - rewrite IH by lia. rewrite nset_ne by exact Hn. lia.
Qed.

Section Finite.
  Context {K : Type} {OK : OrdRing K}.
  Variables (rsqrt : K -> K) (capd capu : Z -> option nat) (capw : nat -> wid -> wid -> option nat) (jobs : nat -> job K).
  Notation net := (net pid (msg K) (ending K)).
  Notation world := (world K).
  Notation cap := (job_cap capd capu capw jobs).
  Notation at_ j w := (j_at (jobs j) w).
  Notation ws j := (j_ws (jobs j)).
  Notation exec j := (exec pid_eqb (cap j)).
  Notation wexec := (wexec rsqrt capd capu capw jobs).
  Notation inv := (inv rsqrt capd capu capw jobs).
  Hypothesis Hplaced : forall j, placed jobs j.
  Hypothesis Hclean : forall j, clean rsqrt capd capu capw jobs j.

  (** what happens once *)
  Inductive event := EStart (j : nat) | ESent (j : nat) (w : wid) | EServe (j : nat) | ERet (j : nat) | ERead (j : nat) (w : wid) | ELeft (j : nat) (w : wid).
  Definition happened (W : world) (segs : Z -> list (nat * wid)) (e : event) : Prop :=
    match e with
    | EStart j => threads W j <> None
    | ESent j w => threads W j <> None /\ ~ uns (threads W j) w
    | EServe j => match threads W j with Some (Serving _) | Some (Returned _) => True | _ => False end
    | ERet j => match threads W j with Some (Returned _) => True | _ => False end
    | ERead j w => threads W j <> None /\ ~ uns (threads W j) w /\ ~ In (j, w) (segs (at_ j w))
    | ELeft j w => (threads W j <> None /\ ~ uns (threads W j) w /\ ~ In (j, w) (segs (at_ j w))) /\ forall p, workers W (at_ j w) <> WJob j w p
    end.
  Definition events (M : nat) : list event :=
    flat_map (fun j => EStart j :: EServe j :: ERet j :: flat_map (fun w => [ESent j w; ERead j w; ELeft j w]) (ws j)) (seq 0 M).
  Lemma event_job M j e : (j < M)%nat -> In e (EStart j :: EServe j :: ERet j :: flat_map (fun w => [ESent j w; ERead j w; ELeft j w]) (ws j)) -> In e (events M).
  Proof. intros H He. apply in_flat_map. exists j. split; [apply in_seq; lia|exact He]. Qed.
  Lemma event_worker j w e : In w (ws j) -> In e [ESent j w; ERead j w; ELeft j w] -> In e (EStart j :: EServe j :: ERet j :: flat_map (fun w => [ESent j w; ERead j w; ELeft j w]) (ws j)).
  Proof. intros Hw He. right. right. right. apply in_flat_map. exists w. auto. Qed.

  (** a step is a step of one job by itself, or something that had not happened yet *)
  Definition counted (W W' : world) (S S' : nat -> net) (segs segs' : Z -> list (nat * wid)) : Prop :=
    (forall e, happened W segs e -> happened W' segs' e) /\
    ((exists j x s', threads W j <> None /\ exec j (S j) x = Some s' /\ S' = nset S j s') \/
     (S' = S /\ exists e j, ~ happened W segs e /\ happened W' segs' e /\ threads W' j <> None /\
        In e (EStart j :: EServe j :: ERet j :: flat_map (fun w => [ESent j w; ERead j w; ELeft j w]) (ws j)))).

  Lemma counted_mgr W S segs j p p' d u s' : threads W j = Some (Serving p) -> exec j (S j) Mgr = Some s' ->
    counted W (mkWorld (free W) (nset (threads W) j (Some (Serving p'))) (workers W) d u (data W)) S (nset S j s') segs segs.
  Proof.
    intros Et He. split.
    - intros e. destruct e as [j'|j' w'|j'|j'|j' w'|j' w']; cbn [happened threads workers]; (destruct (Nat.eq_dec j' j) as [->|Hn]; [rewrite nset_eq, Et|rewrite nset_ne by exact Hn; auto]); cbn; intuition discriminate.
    - left. exists j, Mgr, s'. split; [rewrite Et; discriminate|auto].
  Qed.
  Lemma counted_wk W S segs T N i j w p p' d u dt s' : inv W S segs T N -> workers W i = WJob j w p -> exec j (S j) (Wk w) = Some s' ->
    counted W (mkWorld (free W) (threads W) (zset (workers W) i (WJob j w p')) d u dt) S (nset S j s') segs segs.
  Proof.
    intros I Ew He. destruct (busy_started rsqrt capd capu capw jobs _ _ _ _ _ _ _ _ _ I Ew) as (Hw & Ha & _ & _). split.
    - intros e. destruct e as [j'|j' w'|j'|j'|j' w'|j' w']; cbn [happened threads workers]; auto.
      intros [H1 H2]. split; [exact H1|]. intros p0. destruct (Z.eq_dec (at_ j' w') i) as [E|E]; [|rewrite zset_ne by exact E; apply H2].
      rewrite E, zset_eq. intros E2. injection E2 as -> -> _. apply (H2 p). rewrite E. exact Ew.
    - left. exists j, (Wk w), s'. split; [|auto]. assert (Hq : In (j, w) (cur (workers W i) ++ segs i)) by (rewrite Ew; left; reflexivity).
      apply (i_queue _ _ _ _ _ _ _ _ _ _ I _ _ _ Hq).
  Qed.

  Ltac threads_cases j := match goal with |- context[nset _ j _ ?j'] => destruct (Nat.eq_dec j' j) as [->|?Hn]; [rewrite ?nset_eq|rewrite ?nset_ne by assumption] end.

  Lemma step_counted W S segs T N a W' : inv W S segs T N -> wexec W a = Some W' ->
    exists S' segs' T' N', inv W' S' segs' T' N' /\ counted W W' S S' segs segs'.
  Proof.
    intros I H. destruct a as [j|j|i]; cbn [M_Jobs.wexec] in H.
    - exists S, segs, (nset T j N), (Datatypes.S N). split; [exact (inv_start rsqrt capd capu capw jobs Hplaced _ _ _ _ _ _ _ I H)|].
      unfold start in H. destruct (threads W j) as [?|] eqn:Et; [discriminate|]. destruct (forallb _ _); [|discriminate]. injection H as <-. split.
      + intros e. destruct e as [j'|j' w'|j'|j'|j' w'|j' w']; cbn [happened threads workers]; threads_cases j; auto; rewrite Et; intuition.
      + right. split; [reflexivity|]. exists (EStart j), j. cbn [happened threads]. rewrite Et, nset_eq. split; [auto|]. split; [discriminate|]. split; [discriminate|left; reflexivity].
    - destruct (threads W j) as [[[|w rest]|p|p]|] eqn:Et.
      + exists S, segs, T, N. split; [exact (inv_serving rsqrt capd capu capw jobs _ _ _ _ _ _ _ I Et H)|].
        unfold thread_step in H. rewrite Et in H. injection H as <-. split.
        * intros e. destruct e as [j'|j' w'|j'|j'|j' w'|j' w']; cbn [happened threads workers]; threads_cases j; auto; rewrite Et; cbn; intuition discriminate.
        * right. split; [reflexivity|]. exists (EServe j), j. cbn [happened threads]. rewrite Et, nset_eq. split; [auto|]. split; [exact Logic.I|]. split; [discriminate|right; left; reflexivity].
      + destruct (i_rest _ _ _ _ _ _ _ _ _ _ I j _ Et) as [Hnd Hincl]. inversion Hnd as [|? ? Hnw _]; subst. assert (Hw : In w (ws j)) by (apply Hincl; left; reflexivity).
        do 4 eexists. split; [exact (inv_setting rsqrt capd capu capw jobs Hplaced _ _ _ _ _ _ _ _ _ I Et H)|].
        unfold thread_step in H. rewrite Et in H. destruct (has_room _ _); [|discriminate]. injection H as <-.
        assert (Hs : forall j' w', In (j', w') (zset segs (at_ j w) (segs (at_ j w) ++ [(j, w)]) (at_ j' w')) -> In (j', w') (segs (at_ j' w')) \/ (j', w') = (j, w)).
        { intros j' w'. destruct (Z.eq_dec (at_ j' w') (at_ j w)) as [E|E]; [rewrite E, zset_eq; intros Hin; apply in_app_or in Hin; destruct Hin as [Hin|[<-|[]]]; auto|rewrite zset_ne by exact E; auto]. }
        assert (Hu : forall j' w', ~ uns (threads W j') w' -> ~ uns (nset (threads W) j (Some (Setting rest)) j') w' /\ (j', w') <> (j, w)).
        { intros j' w'. threads_cases j; [rewrite Et; cbn|].
          - intros Hn. split; [auto|]. intros E. injection E as ->. auto.
          - intros Hn'. split; [exact Hn'|]. congruence. }
        assert (Hn : forall j', threads W j' <> None -> nset (threads W) j (Some (Setting rest)) j' <> None) by (intros j'; threads_cases j; [discriminate|auto]).
        split.
        * intros e. destruct e as [j'|j' w'|j'|j'|j' w'|j' w']; cbn [happened threads workers].
          -- auto.
          -- intros [H1 H2]. split; [auto|apply Hu; exact H2].
          -- threads_cases j; [rewrite Et; auto|auto].
          -- threads_cases j; [rewrite Et; auto|auto].
          -- intros (H1 & H2 & H3). destruct (Hu _ _ H2) as [H4 H5]. split; [auto|]. split; [exact H4|]. intros Hin. destruct (Hs _ _ Hin); auto.
          -- intros ((H1 & H2 & H3) & H6). destruct (Hu _ _ H2) as [H4 H5]. split; [|exact H6]. split; [auto|]. split; [exact H4|]. intros Hin. destruct (Hs _ _ Hin); auto.
        * right. split; [reflexivity|]. exists (ESent j w), j. cbn [happened threads]. rewrite Et, nset_eq. cbn [uns].
          split; [intros [_ Hn']; apply Hn'; left; reflexivity|]. split; [split; [discriminate|exact Hnw]|]. split; [discriminate|]. apply (event_worker j w); [exact Hw|left; reflexivity].
      + unfold thread_step in H. rewrite Et in H.
        assert (Hret : ended p -> exists S' segs' T' N', inv (mkWorld (fun i => free W i || existsb (fun w => i =? at_ j w) (ws j)) (nset (threads W) j (Some (Returned p))) (workers W) (downs W) (ups W) (data W)) S' segs' T' N' /\
          counted W (mkWorld (fun i => free W i || existsb (fun w => i =? at_ j w) (ws j)) (nset (threads W) j (Some (Returned p))) (workers W) (downs W) (ups W) (data W)) S S' segs segs').
        { intros Hp. exists S, segs, T, N. split; [apply (inv_returned rsqrt capd capu capw jobs Hclean _ _ _ _ _ _ _ I Et Hp)|]. split.
          - intros e. destruct e as [j'|j' w'|j'|j'|j' w'|j' w']; cbn [happened threads workers]; threads_cases j; auto; rewrite Et; cbn; intuition discriminate.
          - right. split; [reflexivity|]. exists (ERet j), j. cbn [happened threads]. rewrite Et, nset_eq. split; [auto|]. split; [exact Logic.I|]. split; [discriminate|right; right; left; reflexivity]. }
        destruct p as [r|e|to m k|from k].
        * injection H as <-. exact (Hret Logic.I).
        * injection H as <-. exact (Hret Logic.I).
        * destruct to as [|w]; [discriminate|]. destruct (existsb (wid_eqb w) (ws j)) eqn:Ein; cbn [andb] in H; [|discriminate]. apply has_in in Ein.
          destruct (has_room _ _) eqn:Er; [|discriminate]. injection H as <-.
          destruct (inv_mgr_send rsqrt capd capu capw jobs Hclean W S segs T N j w m k I Et Ein Er) as (s' & He & I'). do 4 eexists. split; [exact I'|]. exact (counted_mgr _ _ _ _ _ _ _ _ _ Et He).
        * destruct from as [|w]; [discriminate|]. destruct (existsb (wid_eqb w) (ws j)) eqn:Ein; [|discriminate]. apply has_in in Ein.
          destruct (ups W (at_ j w)) as [|m l] eqn:Eu; [discriminate|]. injection H as <-.
          destruct (inv_mgr_recv rsqrt capd capu capw jobs Hplaced W S segs T N j w k m l I Et Ein Eu) as (s' & He & I'). do 4 eexists. split; [exact I'|]. exact (counted_mgr _ _ _ _ _ _ _ _ _ Et He).
      + unfold thread_step in H. rewrite Et in H. discriminate.
      + unfold thread_step in H. rewrite Et in H. discriminate.
    - unfold worker_step in H. destruct (workers W i) as [|j w p|e] eqn:Ew.
      + destruct (downs W i) as [|d l] eqn:Ed; [discriminate|]. injection H as <-.
        assert (Hsegs := i_down _ _ _ _ _ _ _ _ _ _ I i). rewrite Ed, Ew in Hsegs. cbn [body app] in Hsegs.
        destruct (inv_idle rsqrt capd capu capw jobs W S segs T N i d l I Ew Ed) as (j & w & -> & I'). do 4 eexists. split; [exact I'|].
        destruct (segs i) as [|[j0 w0] q] eqn:Eq; [discriminate|]. assert (E : (j0, w0) = (j, w)) by (injection Hsegs as -> -> _; reflexivity). injection E as -> ->. clear Hsegs. cbn [tl].
        assert (Eqq : cur (workers W i) ++ segs i = [] ++ (j, w) :: q) by (rewrite Ew, Eq; reflexivity).
        assert (Hin : In (j, w) (cur (workers W i) ++ segs i)) by (rewrite Eqq; left; reflexivity).
        destruct (i_queue _ _ _ _ _ _ _ _ _ _ I _ _ _ Hin) as (Hw & Ha & Hst & Hns).
        assert (Hs : forall j' w', ~ In (j', w') (segs (at_ j' w')) -> ~ In (j', w') (zset segs i q (at_ j' w')) /\ (j', w') <> (j, w)).
        { intros j' w' Hn. split.
          - destruct (Z.eq_dec (at_ j' w') i) as [E|E]; [rewrite E, zset_eq; rewrite E, Eq in Hn; intros Hin'; apply Hn; right; exact Hin'|rewrite zset_ne by exact E; exact Hn].
          - intros E. injection E as -> ->. apply Hn. rewrite Ha, Eq. left. reflexivity. }
        split.
        * intros e. destruct e as [j'|j' w'|j'|j'|j' w'|j' w']; cbn [happened threads workers]; auto.
          -- intros (H1 & H2 & H3). split; [auto|]. split; [auto|apply Hs; exact H3].
          -- intros ((H1 & H2 & H3) & H4). destruct (Hs _ _ H3) as [H5 H6]. split; [auto|]. intros p0. destruct (Z.eq_dec (at_ j' w') i) as [E|E]; [|rewrite zset_ne by exact E; apply H4].
             rewrite E, zset_eq. intros E2. apply H6. cbn in E2. congruence.
        * right. split; [reflexivity|]. exists (ERead j w), j. cbn [happened threads]. rewrite Ha, Eq, zset_eq.
          split; [intros (_ & _ & Hn); apply Hn; left; reflexivity|]. split; [split; [exact Hst|split; [exact Hns|]]|split; [exact Hst|apply (event_worker j w); [exact Hw|right; left; reflexivity]]].
          intros Hq. apply (once rsqrt capd capu capw jobs W S segs T N i j w [] q (j, w) I Eqq Hq). reflexivity.
      + destruct p as [r|e|[|v] m k|[|v] k].
        * injection H as <-. do 4 eexists. split; [exact (inv_left rsqrt capd capu capw jobs Hclean W S segs T N i j w r I Ew)|].
          assert (Eqq : cur (workers W i) ++ segs i = [] ++ (j, w) :: segs i) by (rewrite Ew; reflexivity).
          assert (Hin : In (j, w) (cur (workers W i) ++ segs i)) by (rewrite Eqq; left; reflexivity).
          destruct (i_queue _ _ _ _ _ _ _ _ _ _ I _ _ _ Hin) as (Hw & Ha & Hst & Hns).
          split.
          -- intros e. destruct e as [j'|j' w'|j'|j'|j' w'|j' w']; cbn [happened threads workers]; auto.
             intros [H1 H2]. split; [exact H1|]. intros p0. destruct (Z.eq_dec (at_ j' w') i) as [E|E]; [rewrite E, zset_eq; discriminate|rewrite zset_ne by exact E; apply H2].
          -- right. split; [reflexivity|]. exists (ELeft j w), j. cbn [happened threads workers]. rewrite Ha, zset_eq.
             split; [intros [_ Hn]; exact (Hn _ Ew)|]. split; [split; [split; [exact Hst|split; [exact Hns|]]|discriminate]|split; [exact Hst|apply (event_worker j w); [exact Hw|right; right; left; reflexivity]]].
             intros Hq. apply (once rsqrt capd capu capw jobs W S segs T N i j w [] (segs i) (j, w) I Eqq Hq). reflexivity.
        * exfalso. destruct (busy_started rsqrt capd capu capw jobs _ _ _ _ _ _ _ _ _ I Ew) as (Hw & Ha & Hf & Hp). exact (no_failure rsqrt capd capu capw jobs j (Hclean j) (S j) w e (i_alone _ _ _ _ _ _ _ _ _ _ I j) Hw Hp).
        * destruct (has_room _ _) eqn:Er; [|discriminate]. injection H as <-. destruct (inv_wk_send_mgr rsqrt capd capu capw jobs Hplaced Hclean W S segs T N i j w m k I Ew Er) as (s' & He & I'). do 4 eexists. split; [exact I'|exact (counted_wk _ _ _ _ _ _ _ _ _ _ _ _ _ _ I Ew He)].
        * destruct (has_room _ _) eqn:Er; [|discriminate]. injection H as <-. destruct (inv_wk_send rsqrt capd capu capw jobs W S segs T N i j w v m k I Ew Er) as (s' & He & I'). do 4 eexists. split; [exact I'|exact (counted_wk _ _ _ _ _ _ _ _ _ _ _ _ _ _ I Ew He)].
        * destruct (downs W i) as [|d l] eqn:Ed; [discriminate|]. injection H as <-. destruct (inv_wk_recv_mgr rsqrt capd capu capw jobs Hclean W S segs T N i j w k d l I Ew Ed) as (m & s' & -> & He & I'). do 4 eexists. split; [exact I'|exact (counted_wk _ _ _ _ _ _ _ _ _ _ _ _ _ _ I Ew He)].
        * destruct (data W j v w) as [|m l] eqn:Ed; [discriminate|]. injection H as <-. destruct (inv_wk_recv rsqrt capd capu capw jobs W S segs T N i j w v k m l I Ew Ed) as (s' & He & I'). do 4 eexists. split; [exact I'|exact (counted_wk _ _ _ _ _ _ _ _ _ _ _ _ _ _ I Ew He)].
      + discriminate.
  Qed.

  Lemma started_acts acts : forall W W', wruns rsqrt capd capu capw jobs W acts = Some W' -> forall j, threads W' j <> None -> threads W j <> None \/ In (AStart j) acts.
  Proof.
    induction acts as [|a acts IH]; intros W W' H j Hj; cbn [wruns] in H; [injection H as <-; auto|].
    destruct (wexec W a) as [W1|] eqn:E; [|discriminate]. destruct (IH W1 W' H j Hj) as [H1|H1]; [|right; right; exact H1].
    assert (Ht : threads W1 j = threads W j \/ threads W j <> None \/ a = AStart j).
    { destruct a as [j0|j0|i0]; cbn [M_Jobs.wexec] in E.
      - destruct (Nat.eq_dec j j0) as [->|Hn]; [auto|left]. unfold start in E. destruct (threads W j0); [discriminate|]. destruct (forallb _ _); [|discriminate]. injection E as <-. cbn. apply nset_ne. exact Hn.
      - destruct (Nat.eq_dec j j0) as [->|Hn].
        + right. left. unfold thread_step in E. destruct (threads W j0); [discriminate|discriminate].
        + left. unfold thread_step in E. destruct (threads W j0) as [[[|w rest]|[r|e|[|w] m k|[|w] k]|p]|]; try discriminate;
            repeat match type of E with context[if ?b then _ else _] => destruct b; try discriminate | context[match ?l with [] => _ | _ => _ end] => destruct l; try discriminate end; injection E as <-; cbn; apply nset_ne; exact Hn.
      - left. unfold worker_step in E. destruct (workers W i0) as [|j1 w1 [r|e|[|w] m k|[|w] k]|e]; try discriminate;
          repeat match type of E with (if ?b then _ else _) = _ => destruct b; try discriminate | (match ?l with [] => _ | _ => _ end) = _ => destruct l; try discriminate end; injection E as <-; reflexivity. }
    destruct Ht as [Ht|[Ht|Ht]]; [left; rewrite <- Ht; exact H1|left; exact Ht|right; left; exact Ht].
  Qed.

  Lemma total acts : forall W S segs T N (L : nat -> nat) log W' M, inv W S segs T N ->
    (forall j, exists sched, runs pid_eqb (cap j) (j_net rsqrt (jobs j)) sched = Some (S j) /\ length sched = L j) ->
    NoDup log -> (forall e, In e log -> happened W segs e) -> incl log (events M) ->
    (forall j, threads W j <> None -> (j < M)%nat) -> (forall j, In (AStart j) acts -> (j < M)%nat) ->
    wruns rsqrt capd capu capw jobs W acts = Some W' ->
    exists S' L' log', (forall j, exists sched, runs pid_eqb (cap j) (j_net rsqrt (jobs j)) sched = Some (S' j) /\ length sched = L' j) /\
      NoDup log' /\ incl log' (events M) /\ (length acts + (length log + nsum L M) = length log' + nsum L' M)%nat.
  Proof.
    induction acts as [|a acts IH]; intros W S segs T N L log W' M I HL Hnd Hlog Hincl HM Ha H; cbn [wruns] in H.
    { injection H as <-. exists S, L, log. auto. }
    destruct (wexec W a) as [W1|] eqn:E; [|discriminate].
    assert (HM1 : forall j, threads W1 j <> None -> (j < M)%nat).
    { intros j Hj. destruct (started_acts [a] W W1) with (j := j) as [Hs|[Hs|[]]]; auto; [cbn [wruns]; rewrite E; reflexivity|]. subst a. apply Ha. left. reflexivity. }
    destruct (step_counted W S segs T N a W1 I E) as (S1 & segs1 & T1 & N1 & I1 & Hmono & Hcase).
    destruct Hcase as [(j & x & s' & Hj & He & ->)|(-> & e & j & Hn & Hh & Hj & He)].
    - destruct (IH W1 (nset S j s') segs1 T1 N1 (nset L j (Datatypes.S (L j))) log W' M I1) as (S' & L' & log' & H1 & H2 & H3 & H4); auto.
      + intros j'. destruct (Nat.eq_dec j' j) as [->|Hn]; [rewrite !nset_eq|rewrite !nset_ne by exact Hn; apply HL].
        destruct (HL j) as (sched & Hr & El). exists (sched ++ [x]). split; [exact (runs_snoc pid_eqb _ _ _ _ _ _ Hr He)|]. rewrite app_length, El. cbn. lia.
      + intros j' Hj'. apply Ha. right. exact Hj'.
      + exists S', L', log'. split; [exact H1|]. split; [exact H2|]. split; [exact H3|]. rewrite nsum_inc in H4 by (apply HM; exact Hj). cbn [length]. lia.
    - destruct (IH W1 S segs1 T1 N1 L (e :: log) W' M I1) as (S' & L' & log' & H1 & H2 & H3 & H4); auto.
      + constructor; [|exact Hnd]. intros Hin. apply Hn, Hlog, Hin.
      + intros e' [<-|He']; [exact Hh|apply Hmono, Hlog, He'].
      + intros e' [<-|He']; [|apply Hincl; exact He']. apply (event_job M j e (HM1 j Hj) He).
      + intros j' Hj'. apply Ha. right. exact Hj'.
      + exists S', L', log'. split; [exact H1|]. split; [exact H2|]. split; [exact H3|]. cbn [length] in *. lia.
  Qed.

  Lemma nsum_bound M : exists B, forall L S, (forall j, exists sched, runs pid_eqb (cap j) (j_net rsqrt (jobs j)) sched = Some (S j) /\ length sched = L j) -> (nsum L M <= B)%nat.
  Proof.
    induction M as [|M [B IH]]; [exists O; intros; cbn; lia|]. destruct (Hclean M) as [b Hb]. exists (B + b)%nat. intros L S H. cbn. specialize (IH L S H).
    destruct (H M) as (sched & Hr & El). destruct (Hb sched _ Hr) as [Hl _]. lia.
  Qed.
  Lemma jobs_finite M : exists bound, forall acts W, (forall j, In (AStart j) acts -> (j < M)%nat) -> wruns rsqrt capd capu capw jobs world0 acts = Some W -> (length acts <= bound)%nat.
  Proof.
    destruct (nsum_bound M) as [B HB]. exists (length (events M) + B)%nat. intros acts W Ha H.
    destruct (total acts world0 (fun j => j_net rsqrt (jobs j)) (fun _ => []) (fun _ => O) O (fun _ => O) [] W M) as (S' & L' & log' & H1 & H2 & H3 & H4); auto.
    - apply inv_init.
    - intros j. exists []. split; reflexivity.
    - constructor.
    - intros e [].
    - intros e [].
    - intros j Hj. cbn in Hj. contradiction.
    - assert (H5 := NoDup_incl_length H2 H3). specialize (HB L' S' H1). cbn [length] in H4. lia.
  Qed.
End Finite.
