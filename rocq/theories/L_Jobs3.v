(** Several jobs: every step is a step of one job by itself. *)
From Coq Require Import Sorted.
From Verif Require Import Base M_Kron M_Measure M_Net S_Net L_Net M_Worker L_Worker1 M_Jobs S_Jobs L_Jobs1 L_Jobs2.

Section Step.
  Context {K : Type} {OK : OrdRing K}.
  Variables (rsqrt : K -> K) (capd capu : Z -> option nat) (capw : nat -> wid -> wid -> option nat) (jobs : nat -> job K).
  Notation net := (net pid (msg K) (ending K)).
  Notation proc := (proc pid (msg K) (ending K)).
  Notation world := (world K).
  Notation cap := (job_cap capd capu capw jobs).
  Notation at_ j w := (j_at (jobs j) w).
  Notation ws j := (j_ws (jobs j)).
  Notation exec j := (exec pid_eqb (cap j)).
  Notation wexec := (wexec rsqrt capd capu capw jobs).
  Notation inv := (inv rsqrt capd capu capw jobs).
  Hypothesis Hplaced : forall j, placed jobs j.
  Hypothesis Hclean : forall j, clean rsqrt capd capu capw jobs j.

  Lemma same_worker W S segs T N i j w q : inv W S segs T N -> In (j, w) (cur (workers W i) ++ segs i) -> In (j, q) (cur (workers W i) ++ segs i) -> q = w.
  Proof.
    intros I H1 H2. destruct (i_queue _ _ _ _ _ _ _ _ _ _ I _ _ _ H1) as (A1 & A2 & _). destruct (i_queue _ _ _ _ _ _ _ _ _ _ I _ _ _ H2) as (B1 & B2 & _).
    apply (Hplaced j); auto. congruence.
  Qed.
  (** in a queue a job occurs once *)
  Lemma once W S segs T N i j w pre post q : inv W S segs T N -> cur (workers W i) ++ segs i = pre ++ (j, w) :: post -> In q (pre ++ post) -> fst q <> j.
  Proof.
    intros I E Hq Ej. assert (HT := i_time _ _ _ _ _ _ _ _ _ _ I i). rewrite E in HT. clear E. apply in_app_or in Hq.
    induction pre as [|a pre IH]; cbn in HT.
    - destruct Hq as [[]|Hq]. inversion HT as [|? ? _ Hf]; subst. rewrite Forall_forall in Hf. specialize (Hf q Hq). cbn in Hf. lia.
    - inversion HT as [|? ? HT' Hf]; subst. destruct Hq as [[<-|Hq]|Hq]; [|apply IH; auto|apply IH; auto].
      rewrite Forall_forall in Hf. specialize (Hf (fst a, w)). cbn in Hf. assert (T (fst a) < T (fst a))%nat; [|lia]. apply Hf, in_or_app. right. left. reflexivity.
  Qed.

  (** ** A step of the manager of job j *)
  Lemma inv_mgr W S segs T N j p s' d u : inv W S segs T N -> threads W j = Some (Serving p) -> exec j (S j) Mgr = Some s' ->
    (forall i, d i = body (nset S j s') (workers W i) ++ flat (nset S j s') (segs i)) ->
    (forall w, In w (ws j) -> u (at_ j w) = chans s' (Wk w) Mgr) ->
    (forall i, (forall w, In w (ws j) -> at_ j w <> i) -> u i = ups W i) ->
    inv (mkWorld (free W) (nset (threads W) j (Some (Serving (procs s' Mgr)))) (workers W) d u (data W)) (nset S j s') segs T N.
  Proof.
    intros I Ej He Hd Hu Hu'. set (t := Some (Serving (procs s' Mgr))).
    assert (Hunf : forall j', unf (nset (threads W) j t j') <-> unf (threads W j')).
    { intros j'. destruct (Nat.eq_dec j' j) as [->|Hn]; [rewrite nset_eq, Ej; cbn; tauto|rewrite nset_ne by exact Hn; tauto]. }
    assert (Huns : forall j' w', uns (nset (threads W) j t j') w' <-> uns (threads W j') w').
    { intros j' w'. destruct (Nat.eq_dec j' j) as [->|Hn]; [rewrite nset_eq, Ej; cbn; tauto|rewrite nset_ne by exact Hn; tauto]. }
    assert (Hnone : forall j', nset (threads W) j t j' <> None <-> threads W j' <> None).
    { intros j'. destruct (Nat.eq_dec j' j) as [->|Hn]; [rewrite nset_eq, Ej; unfold t; split; discriminate|rewrite nset_ne by exact Hn; tauto]. }
    assert (Hproc : forall j' w, procs (nset S j s' j') (Wk w) = procs (S j') (Wk w)).
    { intros j' w. destruct (Nat.eq_dec j' j) as [->|Hn]; [rewrite nset_eq|rewrite nset_ne by exact Hn; reflexivity].
      apply (exec_proc pid_eqb pid_eqb_ok (cap j) (S j) Mgr s' (Wk w) He). discriminate. }
    assert (Huj : unf (threads W j)) by (rewrite Ej; exact Logic.I).
    constructor; cbn [threads workers downs ups data free].
    - intros j'. destruct (Nat.eq_dec j' j) as [->|Hn]; [rewrite nset_eq|rewrite nset_ne by exact Hn; apply (i_alone _ _ _ _ _ _ _ _ _ _ I)].
      apply (alone_step rsqrt capd capu capw jobs j (S j) Mgr s'); [apply (i_alone _ _ _ _ _ _ _ _ _ _ I)|exact He].
    - intros j'. destruct (Nat.eq_dec j' j) as [->|Hn]; [rewrite !nset_eq; reflexivity|rewrite !nset_ne by exact Hn; apply (i_thread _ _ _ _ _ _ _ _ _ _ I)].
    - intros j' rest'. destruct (Nat.eq_dec j' j) as [->|Hn]; [rewrite nset_eq; discriminate|rewrite nset_ne by exact Hn; apply (i_rest _ _ _ _ _ _ _ _ _ _ I)].
    - intros j' w v. rewrite (i_data _ _ _ _ _ _ _ _ _ _ I). destruct (Nat.eq_dec j' j) as [->|Hn]; [rewrite nset_eq|rewrite nset_ne by exact Hn; reflexivity].
      destruct (exec_cases pid_eqb (cap j) (S j) Mgr s' He) as [(to & m & k & _ & _ & ->)|(from & m & l & k & _ & _ & ->)]; cbn [chans]; symmetry; apply (set2_ne pid_eqb pid_eqb_ok); congruence.
    - intros k j' w p' E. rewrite Hproc. apply (i_worker _ _ _ _ _ _ _ _ _ _ I) with k. exact E.
    - apply (i_alive _ _ _ _ _ _ _ _ _ _ I).
    - exact Hd.
    - intros k j' w' Hq. rewrite Hnone, Huns. apply (i_queue _ _ _ _ _ _ _ _ _ _ I); exact Hq.
    - intros k j' w' Hq. rewrite Hproc. apply (i_segs _ _ _ _ _ _ _ _ _ _ I) with k; exact Hq.
    - intros j' w'. rewrite Hnone, Huns, Hproc. apply (i_class _ _ _ _ _ _ _ _ _ _ I).
    - intros j' w' Hj Hw. apply Hunf in Hj. destruct (Nat.eq_dec j' j) as [->|Hn]; [rewrite nset_eq; apply Hu; exact Hw|rewrite nset_ne by exact Hn].
      rewrite Hu'; [apply (i_ups _ _ _ _ _ _ _ _ _ _ I); assumption|]. intros v Hv E. apply Hn. apply (i_own _ _ _ _ _ _ _ _ _ _ I j' j w' v); auto.
    - intros k Hk. rewrite Hu'; [apply (i_ups0 _ _ _ _ _ _ _ _ _ _ I); intros j' w' Hj'; apply Hk, Hunf, Hj'|]. intros w Hw. apply Hk; [apply Hunf; exact Huj|exact Hw].
    - intros k Hk j' w'. rewrite Hunf. apply (i_free _ _ _ _ _ _ _ _ _ _ I); assumption.
    - intros k. destruct (i_taken _ _ _ _ _ _ _ _ _ _ I k) as [E|(j' & w' & Hj & H')]; [left; exact E|right]. exists j', w'. rewrite Hunf. auto.
    - intros j1 j2 w1 w2. rewrite !Hunf. apply (i_own _ _ _ _ _ _ _ _ _ _ I).
    - intros j' w'. rewrite Hunf, Huns, Hproc. apply (i_last _ _ _ _ _ _ _ _ _ _ I).
    - apply (i_time _ _ _ _ _ _ _ _ _ _ I).
    - intros j' w' a. rewrite Huns. apply (i_later _ _ _ _ _ _ _ _ _ _ I).
    - intros j'. rewrite Hnone. apply (i_clock _ _ _ _ _ _ _ _ _ _ I).
  Qed.

  Lemma exec_send (s : net) c x to m k : procs s x = Send to m k -> has_room (c x to) (chans s x to) = true ->
    M_Net.exec pid_eqb c s x = Some (mkNet (set1 pid_eqb (procs s) x k) (set2 pid_eqb (chans s) x to (chans s x to ++ [m]))).
  Proof. intros H1 H2. unfold M_Net.exec. rewrite H1, H2. reflexivity. Qed.
  Lemma exec_recv (s : net) c x from k m l : procs s x = Recv from k -> chans s from x = m :: l ->
    M_Net.exec pid_eqb c s x = Some (mkNet (set1 pid_eqb (procs s) x (k m)) (set2 pid_eqb (chans s) from x l)).
  Proof. intros H1 H2. unfold M_Net.exec. rewrite H1, H2. reflexivity. Qed.
  Lemma down_len W S segs T N j w : inv W S segs T N -> unf (threads W j) -> In w (ws j) -> ~ uns (threads W j) w ->
    (length (chans (S j) Mgr (Wk w)) <= length (downs W (at_ j w)))%nat.
  Proof.
    intros I Hu Hw Hn. rewrite (i_down _ _ _ _ _ _ _ _ _ _ I). destruct (i_last _ _ _ _ _ _ _ _ _ _ I j w Hu Hw) as [H|[[pre H]|[[r H] _]]]; [contradiction| |].
    - apply queue_len. rewrite H. apply in_or_app. right. left. reflexivity.
    - rewrite (left_read rsqrt capd capu capw jobs j (Hclean j) (S j) w r (i_alone _ _ _ _ _ _ _ _ _ _ I j) Hw H). cbn. lia.
  Qed.

  Lemma inv_mgr_send W S segs T N j w m k : inv W S segs T N -> threads W j = Some (Serving (Send (Wk w) m k)) -> In w (ws j) ->
    has_room (capd (at_ j w)) (downs W (at_ j w)) = true ->
    exists s', exec j (S j) Mgr = Some s' /\
      inv (mkWorld (free W) (nset (threads W) j (Some (Serving k))) (workers W) (zset (downs W) (at_ j w) (downs W (at_ j w) ++ [DOp m])) (ups W) (data W)) (nset S j s') segs T N.
  Proof.
    intros I Ej Hw Hr. assert (Sj := i_thread _ _ _ _ _ _ _ _ _ _ I j). rewrite Ej in Sj.
    assert (Huj : unf (threads W j)) by (rewrite Ej; exact Logic.I). assert (Hns : ~ uns (threads W j) w) by (rewrite Ej; auto).
    assert (He := exec_send (S j) (cap j) Mgr (Wk w) m k Sj (room_less _ _ _ (down_len W S segs T N j w I Huj Hw Hns) Hr)).
    set (s' := mkNet _ _) in He. exists s'. split; [exact He|].
    assert (Ep : procs s' Mgr = k) by (cbn; reflexivity). rewrite <- Ep at 1.
    apply (inv_mgr W S segs T N j _ s' _ _ I Ej He).
    - assert (Hout : forall j' w', (j', w') <> (j, w) -> chans (nset S j s' j') Mgr (Wk w') = chans (S j') Mgr (Wk w')).
      { intros j' w' Hn. destruct (Nat.eq_dec j' j) as [->|Hj]; [rewrite nset_eq|rewrite nset_ne by exact Hj; reflexivity].
        cbn [chans s']. apply (set2_ne pid_eqb pid_eqb_ok). intros E. apply Hn. congruence. }
      assert (Hin : chans s' Mgr (Wk w) = chans (S j) Mgr (Wk w) ++ [m]) by (cbn [chans s']; apply (set2_eq pid_eqb pid_eqb_ok)).
      intros i. destruct (Z.eq_dec i (at_ j w)) as [->|Hi].
      + rewrite zset_eq, (i_down _ _ _ _ _ _ _ _ _ _ I). set (i := at_ j w) in *.
        destruct (i_last _ _ _ _ _ _ _ _ _ _ I j w Huj Hw) as [H|[[pre H]|[[r H] _]]]; [contradiction| |].
        * fold i in H. assert (Hone : forall q, In q pre -> fst q <> j). { intros q Hq. apply (once W S segs T N i j w pre [] q I H). rewrite app_nil_r. exact Hq. }
          destruct (segs i) as [|q0 l0] eqn:Esegs using rev_ind.
          -- rewrite app_nil_r in H. destruct (workers W i) as [|j1 w1 p1|e1]; cbn in H; try (destruct pre; discriminate).
             destruct pre as [|? [|? ?]]; try discriminate. injection H as -> ->. cbn [body flat concat map]. rewrite nset_eq, Hin, map_app, !app_nil_r. reflexivity.
          -- clear IHl0. rewrite app_assoc in H. apply app_inj_tail in H. destruct H as [Hpre ->].
             rewrite !flat_app, (app_assoc (body _ _)), (app_assoc (body _ _)), <- app_assoc. f_equal.
             ++ symmetry. apply queue_ext. intros q Hq. rewrite Hpre in Hq. destruct q as [jq wq]. apply Hout. intros E. injection E as -> ->. apply (Hone _ Hq). reflexivity.
             ++ unfold flat, seg. cbn. rewrite nset_eq. fold s'. change (chans s' Mgr (Wk w)) with (chans s' Mgr (Wk w)). rewrite Hin, map_app, !app_nil_r. reflexivity.
        * exfalso. assert (Hs' := alone_step rsqrt capd capu capw jobs j (S j) Mgr s' (i_alone _ _ _ _ _ _ _ _ _ _ I j) He).
          assert (Hp : procs s' (Wk w) = Ret r) by (rewrite (exec_proc pid_eqb pid_eqb_ok (cap j) (S j) Mgr s' (Wk w) He); [exact H|discriminate]).
          assert (E := left_read rsqrt capd capu capw jobs j (Hclean j) s' w r Hs' Hw Hp). rewrite Hin in E. apply app_eq_nil in E. destruct E. discriminate.
      + rewrite zset_ne by exact Hi. rewrite (i_down _ _ _ _ _ _ _ _ _ _ I). symmetry. apply queue_ext. intros [jq wq] Hq. apply Hout. intros E. injection E as -> ->.
        apply Hi. symmetry. apply (i_queue _ _ _ _ _ _ _ _ _ _ I _ _ _ Hq).
    - intros v Hv. rewrite (i_ups _ _ _ _ _ _ _ _ _ _ I j v Huj Hv). cbn [chans s']. symmetry. apply (set2_ne pid_eqb pid_eqb_ok). discriminate.
    - reflexivity.
  Qed.

  Lemma inv_mgr_recv W S segs T N j w k m l : inv W S segs T N -> threads W j = Some (Serving (Recv (Wk w) k)) -> In w (ws j) -> ups W (at_ j w) = m :: l ->
    exists s', exec j (S j) Mgr = Some s' /\
      inv (mkWorld (free W) (nset (threads W) j (Some (Serving (k m)))) (workers W) (downs W) (zset (ups W) (at_ j w) l) (data W)) (nset S j s') segs T N.
  Proof.
    intros I Ej Hw Hr. assert (Sj := i_thread _ _ _ _ _ _ _ _ _ _ I j). rewrite Ej in Sj.
    assert (Huj : unf (threads W j)) by (rewrite Ej; exact Logic.I).
    assert (Hc := Hr). rewrite (i_ups _ _ _ _ _ _ _ _ _ _ I j w Huj Hw) in Hc.
    assert (He := exec_recv (S j) (cap j) Mgr (Wk w) k m l Sj Hc).
    set (s' := mkNet _ _) in He. exists s'. split; [exact He|].
    assert (Ep : procs s' Mgr = k m) by (cbn; reflexivity). rewrite <- Ep at 1.
    apply (inv_mgr W S segs T N j _ s' _ _ I Ej He).
    - intros i. rewrite (i_down _ _ _ _ _ _ _ _ _ _ I). symmetry. apply queue_ext. intros [j' w'] _. cbn [fst snd].
      destruct (Nat.eq_dec j' j) as [->|Hj]; [rewrite nset_eq|rewrite nset_ne by exact Hj; reflexivity]. cbn [chans s']. apply (set2_ne pid_eqb pid_eqb_ok). discriminate.
    - intros v Hv. destruct (peqb_dec wid_eqb wid_eqb_ok v w) as [->|Hn].
      + rewrite zset_eq. cbn [chans s']. symmetry. apply (set2_eq pid_eqb pid_eqb_ok).
      + rewrite zset_ne; [|intros E; apply Hn, (Hplaced j); auto]. rewrite (i_ups _ _ _ _ _ _ _ _ _ _ I j v Huj Hv). cbn [chans s']. symmetry. apply (set2_ne pid_eqb pid_eqb_ok). congruence.
    - intros i Hi. apply zset_ne. intros ->. exact (Hi w Hw eq_refl).
  Qed.

  (** ** A step of worker w of job j *)
  Lemma busy_started W S segs T N i j w p : inv W S segs T N -> workers W i = WJob j w p ->
    In w (ws j) /\ at_ j w = i /\ (unf (threads W j) \/ ended (procs (S j) Mgr)) /\ procs (S j) (Wk w) = p.
  Proof.
    intros I Ew. assert (Hq : In (j, w) (cur (workers W i) ++ segs i)) by (rewrite Ew; left; reflexivity).
    destruct (i_queue _ _ _ _ _ _ _ _ _ _ I _ _ _ Hq) as (H1 & H2 & H3 & _). split; [exact H1|]. split; [exact H2|].
    split; [|exact (i_worker _ _ _ _ _ _ _ _ _ _ I _ _ _ _ Ew)].
    assert (Ht := i_thread _ _ _ _ _ _ _ _ _ _ I j). destruct (threads W j) as [[rest|p'|p']|]; cbn; auto. right. destruct Ht as [-> Ht]. exact Ht.
  Qed.
  (** the current job of a worker has had a message, or the worker waits for the first *)
  Lemma busy_alone W S segs T N i j w p : inv W S segs T N -> workers W i = WJob j w p -> unf (threads W j) -> segs i = [].
  Proof.
    intros I Ew Hu. destruct (busy_started _ _ _ _ _ _ _ _ _ I Ew) as (Hw & Ha & _ & Hp).
    assert (Hq : In (j, w) (cur (workers W i) ++ segs i)) by (rewrite Ew; left; reflexivity).
    destruct (i_last _ _ _ _ _ _ _ _ _ _ I j w Hu Hw) as [H|[[pre H]|[_ H]]].
    - exfalso. apply (i_queue _ _ _ _ _ _ _ _ _ _ I) in Hq. tauto.
    - rewrite Ha in H. assert (HT := i_time _ _ _ _ _ _ _ _ _ _ I i). rewrite Ew in H, HT. cbn [cur app] in H, HT.
      exact (sorted_last _ _ _ _ _ HT H (irr T) eq_refl).
    - rewrite Ha, Ew in H. discriminate.
  Qed.

  Lemma inv_wk W S segs T N i j w p s' d u dt : inv W S segs T N -> workers W i = WJob j w p -> exec j (S j) (Wk w) = Some s' ->
    (forall rest, threads W j <> Some (Setting rest)) ->
    (forall k, d k = body (nset S j s') (zset (workers W) i (WJob j w (procs s' (Wk w))) k) ++ flat (nset S j s') (segs k)) ->
    (forall v, unf (threads W j) -> In v (ws j) -> u (at_ j v) = chans s' (Wk v) Mgr) ->
    (forall k, (unf (threads W j) -> k <> i) -> u k = ups W k) ->
    (forall j' v v', dt j' v v' = chans (nset S j s' j') (Wk v) (Wk v')) ->
    inv (mkWorld (free W) (threads W) (zset (workers W) i (WJob j w (procs s' (Wk w)))) d u dt) (nset S j s') segs T N.
  Proof.
    intros I Ew He Hset Hd Hu Hu' Hdt.
    destruct (busy_started _ _ _ _ _ _ _ _ _ I Ew) as (Hw & Ha & _ & Hp).
    assert (Hq0 : In (j, w) (cur (workers W i) ++ segs i)) by (rewrite Ew; left; reflexivity).
    assert (Hst : threads W j <> None) by apply (i_queue _ _ _ _ _ _ _ _ _ _ I _ _ _ Hq0).
    assert (Hproc : forall j' w', (j', w') <> (j, w) -> procs (nset S j s' j') (Wk w') = procs (S j') (Wk w')).
    { intros j' w' Hn. destruct (Nat.eq_dec j' j) as [->|Hj]; [rewrite nset_eq|rewrite nset_ne by exact Hj; reflexivity].
      apply (exec_proc pid_eqb pid_eqb_ok (cap j) (S j) (Wk w) s' (Wk w') He). congruence. }
    assert (Hcur : forall k, cur (zset (workers W) i (WJob j w (procs s' (Wk w))) k) = cur (workers W k)).
    { intros k. destruct (Z.eq_dec k i) as [->|Hk]; [rewrite zset_eq, Ew; reflexivity|rewrite zset_ne by exact Hk; reflexivity]. }
    assert (Hnr : forall r, procs (S j) (Wk w) <> Ret r) by (intros r E; unfold M_Net.exec in He; rewrite E in He; discriminate).
    constructor; cbn [threads workers downs ups data free].
    - intros j'. destruct (Nat.eq_dec j' j) as [->|Hn]; [rewrite nset_eq|rewrite nset_ne by exact Hn; apply (i_alone _ _ _ _ _ _ _ _ _ _ I)].
      apply (alone_step rsqrt capd capu capw jobs j (S j) (Wk w) s'); [apply (i_alone _ _ _ _ _ _ _ _ _ _ I)|exact He].
    - intros j'. destruct (Nat.eq_dec j' j) as [->|Hn]; [rewrite nset_eq|rewrite nset_ne by exact Hn; apply (i_thread _ _ _ _ _ _ _ _ _ _ I)].
      assert (Ht := i_thread _ _ _ _ _ _ _ _ _ _ I j). rewrite (exec_proc pid_eqb pid_eqb_ok (cap j) (S j) (Wk w) s' Mgr He) by discriminate.
      destruct (threads W j) as [[rest|p'|p']|] eqn:Et; [destruct (Hset rest eq_refl)|exact Ht|exact Ht|contradiction].
    - apply (i_rest _ _ _ _ _ _ _ _ _ _ I).
    - exact Hdt.
    - intros k j' w' p'. destruct (Z.eq_dec k i) as [->|Hk].
      + rewrite zset_eq. intros E. injection E as <- <- <-. rewrite nset_eq. reflexivity.
      + rewrite zset_ne by exact Hk. intros E. rewrite Hproc; [apply (i_worker _ _ _ _ _ _ _ _ _ _ I) with k; exact E|]. intros E2. injection E2 as -> ->.
        apply Hk. destruct (busy_started _ _ _ _ _ _ _ _ _ I E) as (_ & Ha' & _). congruence.
    - intros k e. destruct (Z.eq_dec k i) as [->|Hk]; [rewrite zset_eq; discriminate|rewrite zset_ne by exact Hk; apply (i_alive _ _ _ _ _ _ _ _ _ _ I)].
    - exact Hd.
    - intros k j' w' Hq. rewrite Hcur in Hq. apply (i_queue _ _ _ _ _ _ _ _ _ _ I); exact Hq.
    - intros k j' w' Hq. rewrite Hproc; [apply (i_segs _ _ _ _ _ _ _ _ _ _ I) with k; exact Hq|]. intros E2. injection E2 as -> ->.
      assert (k = i). { assert (Hq' : In (j, w) (cur (workers W k) ++ segs k)) by (apply in_or_app; auto). apply (i_queue _ _ _ _ _ _ _ _ _ _ I) in Hq'. intuition congruence. } subst k.
      assert (E : cur (workers W i) ++ segs i = [] ++ (j, w) :: segs i) by (rewrite Ew; reflexivity).
      apply (once W S segs T N i j w [] (segs i) (j, w) I E Hq). reflexivity.
    - intros j' w' Hj Hw'. destruct (i_class _ _ _ _ _ _ _ _ _ _ I j' w' Hj Hw') as [H|[H|[[p' H]|[r H]]]]; auto.
      + right. right. left. destruct (Z.eq_dec (at_ j' w') i) as [E|E]; [|rewrite zset_ne by exact E; eauto]. rewrite E, zset_eq. rewrite E, Ew in H. injection H as <- <- _. eauto.
      + right. right. right. exists r. rewrite Hproc; [exact H|]. intros E. injection E as -> ->. exact (Hnr r H).
    - intros j' w' Hj Hw'. destruct (Nat.eq_dec j' j) as [->|Hn]; [rewrite nset_eq; apply Hu; assumption|rewrite nset_ne by exact Hn].
      rewrite Hu'; [apply (i_ups _ _ _ _ _ _ _ _ _ _ I); assumption|]. intros Huj E. apply Hn. apply (i_own _ _ _ _ _ _ _ _ _ _ I j' j w' w); auto. congruence.
    - intros k Hk. rewrite Hu'; [apply (i_ups0 _ _ _ _ _ _ _ _ _ _ I); exact Hk|]. intros Huj E. apply (Hk j w Huj Hw). congruence.
    - apply (i_free _ _ _ _ _ _ _ _ _ _ I).
    - apply (i_taken _ _ _ _ _ _ _ _ _ _ I).
    - apply (i_own _ _ _ _ _ _ _ _ _ _ I).
    - intros j' w' Hj Hw'. rewrite Hcur. destruct (i_last _ _ _ _ _ _ _ _ _ _ I j' w' Hj Hw') as [H|[H|[[r H] H']]]; auto.
      right. right. split; [|exact H']. exists r. rewrite Hproc; [exact H|]. intros E. injection E as -> ->. exact (Hnr r H).
    - intros k. rewrite Hcur. apply (i_time _ _ _ _ _ _ _ _ _ _ I).
    - intros j' w' a. rewrite Hcur. apply (i_later _ _ _ _ _ _ _ _ _ _ I).
    - apply (i_clock _ _ _ _ _ _ _ _ _ _ I).
  Qed.

  (** a worker that can do something other than wait for the manager serves a job whose setup is complete *)
  Lemma busy_set W S segs T N i j w p rest : inv W S segs T N -> workers W i = WJob j w p -> threads W j = Some (Setting rest) ->
    exists k, p = Recv Mgr k /\ downs W i = [].
  Proof.
    intros I Ew Et. destruct (busy_started _ _ _ _ _ _ _ _ _ I Ew) as (Hw & Ha & _ & Hp).
    assert (Sj := i_thread _ _ _ _ _ _ _ _ _ _ I j). rewrite Et in Sj. rewrite Sj, (net_worker rsqrt (jobs j) w Hw) in Hp.
    destruct (worker_recv rsqrt (jobs j) w) as [k Hk]. exists k. split; [congruence|].
    rewrite (i_down _ _ _ _ _ _ _ _ _ _ I), (busy_alone W S segs T N i j w p I Ew), Ew by (rewrite Et; exact Logic.I). cbn. rewrite Sj. reflexivity.
  Qed.

  Lemma downs_still W S segs T N i j w p p' s' : inv W S segs T N -> workers W i = WJob j w p -> (forall v, chans s' Mgr (Wk v) = chans (S j) Mgr (Wk v)) ->
    forall k, downs W k = body (nset S j s') (zset (workers W) i (WJob j w p') k) ++ flat (nset S j s') (segs k).
  Proof.
    intros I Ew H k. rewrite (i_down _ _ _ _ _ _ _ _ _ _ I).
    assert (E : body S (workers W k) = body S (zset (workers W) i (WJob j w p') k)).
    { destruct (Z.eq_dec k i) as [->|Hk]; [rewrite zset_eq, Ew; reflexivity|rewrite zset_ne by exact Hk; reflexivity]. }
    rewrite E. symmetry. apply queue_ext. intros [jq wq] _. cbn [fst snd]. destruct (Nat.eq_dec jq j) as [->|Hn]; [rewrite nset_eq; apply H|rewrite nset_ne by exact Hn; reflexivity].
  Qed.

  Lemma inv_wk_send_mgr W S segs T N i j w m k : inv W S segs T N -> workers W i = WJob j w (Send Mgr m k) -> has_room (capu i) (ups W i) = true ->
    exists s', exec j (S j) (Wk w) = Some s' /\
      inv (mkWorld (free W) (threads W) (zset (workers W) i (WJob j w k)) (downs W) (zset (ups W) i (ups W i ++ [m])) (data W)) (nset S j s') segs T N.
  Proof.
    intros I Ew Hr. destruct (busy_started _ _ _ _ _ _ _ _ _ I Ew) as (Hw & Ha & Hf & Hp).
    assert (Huj : unf (threads W j)). { destruct Hf as [Hf|Hf]; [exact Hf|]. destruct (end_silent rsqrt capd capu capw jobs j (Hclean j) (S j) w m k (i_alone _ _ _ _ _ _ _ _ _ _ I j) Hw Hf Hp). }
    assert (Eu := i_ups _ _ _ _ _ _ _ _ _ _ I j w Huj Hw). rewrite Ha in Eu.
    assert (Hr' : has_room (cap j (Wk w) Mgr) (chans (S j) (Wk w) Mgr) = true) by (cbn; rewrite Ha, <- Eu; exact Hr).
    assert (He := exec_send (S j) (cap j) (Wk w) Mgr m k Hp Hr'). set (s' := mkNet _ _) in He. exists s'. split; [exact He|].
    assert (Ep : procs s' (Wk w) = k) by (cbn [procs s']; apply (set1_eq pid_eqb pid_eqb_ok)). rewrite <- Ep at 1.
    apply (inv_wk W S segs T N i j w _ s' _ _ _ I Ew He).
    - intros rest Et. destruct (busy_set _ _ _ _ _ _ _ _ _ _ I Ew Et) as (k' & E & _). discriminate.
    - apply (downs_still _ _ _ _ _ _ _ _ _ _ _ I Ew). intros v. cbn [chans s']. apply (set2_ne pid_eqb pid_eqb_ok). discriminate.
    - intros v _ Hv. destruct (peqb_dec wid_eqb wid_eqb_ok v w) as [->|Hn].
      + rewrite Ha, zset_eq. cbn [chans s']. rewrite (set2_eq pid_eqb pid_eqb_ok), Eu. reflexivity.
      + rewrite zset_ne; [|intros E; apply Hn, (Hplaced j); auto; congruence]. rewrite (i_ups _ _ _ _ _ _ _ _ _ _ I j v Huj Hv). cbn [chans s']. symmetry. apply (set2_ne pid_eqb pid_eqb_ok). congruence.
    - intros k' Hk'. apply zset_ne. auto.
    - intros j' v v'. rewrite (i_data _ _ _ _ _ _ _ _ _ _ I). destruct (Nat.eq_dec j' j) as [->|Hn]; [rewrite nset_eq|rewrite nset_ne by exact Hn; reflexivity].
      cbn [chans s']. symmetry. apply (set2_ne pid_eqb pid_eqb_ok). discriminate.
  Qed.

  Lemma dset_ok W S segs T N j s' a b x : inv W S segs T N ->
    (forall v v', chans s' (Wk v) (Wk v') = set2 pid_eqb (chans (S j)) (Wk a) (Wk b) x (Wk v) (Wk v')) ->
    forall j' v v', dset (data W) j a b x j' v v' = chans (nset S j s' j') (Wk v) (Wk v').
  Proof.
    intros I H j' v v'. unfold dset. destruct (Nat.eq_dec j' j) as [->|Hn].
    - rewrite nset_eq, H, Nat.eqb_refl, (i_data _ _ _ _ _ _ _ _ _ _ I). reflexivity.
    - rewrite nset_ne by exact Hn. apply Nat.eqb_neq in Hn. rewrite Hn. apply (i_data _ _ _ _ _ _ _ _ _ _ I).
  Qed.

  Lemma inv_wk_send W S segs T N i j w v m k : inv W S segs T N -> workers W i = WJob j w (Send (Wk v) m k) -> has_room (capw j w v) (data W j w v) = true ->
    exists s', exec j (S j) (Wk w) = Some s' /\
      inv (mkWorld (free W) (threads W) (zset (workers W) i (WJob j w k)) (downs W) (ups W) (dset (data W) j w v (data W j w v ++ [m]))) (nset S j s') segs T N.
  Proof.
    intros I Ew Hr. destruct (busy_started _ _ _ _ _ _ _ _ _ I Ew) as (Hw & Ha & _ & Hp).
    assert (Hr' : has_room (cap j (Wk w) (Wk v)) (chans (S j) (Wk w) (Wk v)) = true) by (cbn; rewrite <- (i_data _ _ _ _ _ _ _ _ _ _ I); exact Hr).
    assert (He := exec_send (S j) (cap j) (Wk w) (Wk v) m k Hp Hr'). set (s' := mkNet _ _) in He. exists s'. split; [exact He|].
    assert (Ep : procs s' (Wk w) = k) by (cbn [procs s']; apply (set1_eq pid_eqb pid_eqb_ok)). rewrite <- Ep at 1.
    apply (inv_wk W S segs T N i j w _ s' _ _ _ I Ew He).
    - intros rest Et. destruct (busy_set _ _ _ _ _ _ _ _ _ _ I Ew Et) as (k' & E & _). discriminate.
    - apply (downs_still _ _ _ _ _ _ _ _ _ _ _ I Ew). intros v'. cbn [chans s']. apply (set2_ne pid_eqb pid_eqb_ok). discriminate.
    - intros v' Huj Hv. rewrite (i_ups _ _ _ _ _ _ _ _ _ _ I j v' Huj Hv). cbn [chans s']. symmetry. apply (set2_ne pid_eqb pid_eqb_ok). discriminate.
    - reflexivity.
    - apply (dset_ok _ _ _ _ _ _ _ _ _ _ I). intros v1 v2. rewrite (i_data _ _ _ _ _ _ _ _ _ _ I). reflexivity.
  Qed.

  Lemma inv_wk_recv W S segs T N i j w v k m l : inv W S segs T N -> workers W i = WJob j w (Recv (Wk v) k) -> data W j v w = m :: l ->
    exists s', exec j (S j) (Wk w) = Some s' /\
      inv (mkWorld (free W) (threads W) (zset (workers W) i (WJob j w (k m))) (downs W) (ups W) (dset (data W) j v w l)) (nset S j s') segs T N.
  Proof.
    intros I Ew Hr. destruct (busy_started _ _ _ _ _ _ _ _ _ I Ew) as (Hw & Ha & _ & Hp).
    rewrite (i_data _ _ _ _ _ _ _ _ _ _ I) in Hr.
    assert (He := exec_recv (S j) (cap j) (Wk w) (Wk v) k m l Hp Hr). set (s' := mkNet _ _) in He. exists s'. split; [exact He|].
    assert (Ep : procs s' (Wk w) = k m) by (cbn [procs s']; apply (set1_eq pid_eqb pid_eqb_ok)). rewrite <- Ep at 1.
    apply (inv_wk W S segs T N i j w _ s' _ _ _ I Ew He).
    - intros rest Et. destruct (busy_set _ _ _ _ _ _ _ _ _ _ I Ew Et) as (k' & E & _). discriminate.
    - apply (downs_still _ _ _ _ _ _ _ _ _ _ _ I Ew). intros v'. cbn [chans s']. apply (set2_ne pid_eqb pid_eqb_ok). discriminate.
    - intros v' Huj Hv. rewrite (i_ups _ _ _ _ _ _ _ _ _ _ I j v' Huj Hv). cbn [chans s']. symmetry. apply (set2_ne pid_eqb pid_eqb_ok). discriminate.
    - reflexivity.
    - apply (dset_ok _ _ _ _ _ _ _ _ _ _ I). reflexivity.
  Qed.

  Lemma inv_wk_recv_mgr W S segs T N i j w k d l : inv W S segs T N -> workers W i = WJob j w (Recv Mgr k) -> downs W i = d :: l ->
    exists m s', d = DOp m /\ exec j (S j) (Wk w) = Some s' /\
      inv (mkWorld (free W) (threads W) (zset (workers W) i (WJob j w (k m))) (zset (downs W) i l) (ups W) (data W)) (nset S j s') segs T N.
  Proof.
    intros I Ew Hr. destruct (busy_started _ _ _ _ _ _ _ _ _ I Ew) as (Hw & Ha & Hf & Hp).
    assert (Ed := i_down _ _ _ _ _ _ _ _ _ _ I i). rewrite Hr, Ew in Ed. cbn [body] in Ed.
    destruct (chans (S j) Mgr (Wk w)) as [|m l'] eqn:Ec.
    { exfalso. destruct Hf as [Hf|Hf].
      - rewrite (busy_alone W S segs T N i j w _ I Ew Hf) in Ed. discriminate.
      - exact (end_closed rsqrt capd capu capw jobs j (Hclean j) (S j) w k (i_alone _ _ _ _ _ _ _ _ _ _ I j) Hw Hf Hp Ec). }
    cbn [map app] in Ed. injection Ed as -> El. exists m.
    assert (He := exec_recv (S j) (cap j) (Wk w) Mgr k m l' Hp Ec). set (s' := mkNet _ _) in He. exists s'. split; [reflexivity|]. split; [exact He|].
    assert (Ep : procs s' (Wk w) = k m) by (cbn [procs s']; apply (set1_eq pid_eqb pid_eqb_ok)). rewrite <- Ep at 1.
    assert (Hin : chans s' Mgr (Wk w) = l') by (cbn [chans s']; apply (set2_eq pid_eqb pid_eqb_ok)).
    assert (Hout : forall j' w', (j', w') <> (j, w) -> chans (nset S j s' j') Mgr (Wk w') = chans (S j') Mgr (Wk w')).
    { intros j' w' Hn. destruct (Nat.eq_dec j' j) as [->|Hj]; [rewrite nset_eq|rewrite nset_ne by exact Hj; reflexivity].
      cbn [chans s']. apply (set2_ne pid_eqb pid_eqb_ok). intros E. apply Hn. congruence. }
    apply (inv_wk W S segs T N i j w _ s' _ _ _ I Ew He).
    - intros rest Et. destruct (busy_set _ _ _ _ _ _ _ _ _ _ I Ew Et) as (k' & _ & E). congruence.
    - intros k'. destruct (Z.eq_dec k' i) as [->|Hk].
      + rewrite !zset_eq. cbn [body]. rewrite nset_eq, Hin, El. f_equal. symmetry. apply flat_ext. intros [jq wq] Hq. apply Hout. intros E. injection E as -> ->.
        assert (E : cur (workers W i) ++ segs i = [] ++ (j, w) :: segs i) by (rewrite Ew; reflexivity).
        apply (once W S segs T N i j w [] (segs i) (j, w) I E Hq). reflexivity.
      + rewrite !zset_ne by exact Hk. rewrite (i_down _ _ _ _ _ _ _ _ _ _ I). symmetry. apply queue_ext. intros [jq wq] Hq. apply Hout. intros E. injection E as -> ->.
        apply Hk. apply (i_queue _ _ _ _ _ _ _ _ _ _ I) in Hq. intuition congruence.
    - intros v' Huj Hv. rewrite (i_ups _ _ _ _ _ _ _ _ _ _ I j v' Huj Hv). cbn [chans s']. symmetry. apply (set2_ne pid_eqb pid_eqb_ok). discriminate.
    - reflexivity.
    - intros j' v v'. rewrite (i_data _ _ _ _ _ _ _ _ _ _ I). destruct (Nat.eq_dec j' j) as [->|Hn]; [rewrite nset_eq|rewrite nset_ne by exact Hn; reflexivity].
      cbn [chans s']. symmetry. apply (set2_ne pid_eqb pid_eqb_ok). discriminate.
  Qed.

  (** ** A worker process between jobs *)
  Lemma inv_idle W S segs T N i d l : inv W S segs T N -> workers W i = WIdle -> downs W i = d :: l ->
    exists j w, d = DSetup j w /\
      inv (mkWorld (free W) (threads W) (zset (workers W) i (WJob j w (j_worker rsqrt (jobs j) w))) (zset (downs W) i l) (ups W) (data W)) S (zset segs i (tl (segs i))) T N.
  Proof.
    intros I Ew Hd. assert (Ed := i_down _ _ _ _ _ _ _ _ _ _ I i). rewrite Hd, Ew in Ed. cbn [body app] in Ed.
    destruct (segs i) as [|[j w] q] eqn:Eq; [discriminate|]. change (d :: l = seg S (j, w) ++ flat S q) in Ed. cbn [seg app fst snd] in Ed. injection Ed as -> El.
    exists j, w. split; [reflexivity|]. cbn [tl]. apply (inv_worker rsqrt capd capu capw jobs W S segs _ T N i _ _ I).
    - intros k Hk. apply zset_ne. exact Hk.
    - intros k e. destruct (Z.eq_dec k i) as [->|Hk]; [rewrite zset_eq; discriminate|rewrite zset_ne by exact Hk; apply (i_alive _ _ _ _ _ _ _ _ _ _ I)].
    - intros j' w' p' E. injection E as <- <- <-. apply (i_segs _ _ _ _ _ _ _ _ _ _ I i). rewrite Eq. left. reflexivity.
    - intros k Hk. apply zset_ne. exact Hk.
    - rewrite !zset_eq. cbn [body]. exact El.
    - exists []. rewrite zset_eq, Ew, Eq. split; [reflexivity|]. intros ? ? [].
    - intros q' Hq'. rewrite zset_eq in Hq'. rewrite Eq. right. exact Hq'.
  Qed.
  Lemma inv_left W S segs T N i j w r : inv W S segs T N -> workers W i = WJob j w (Ret r) ->
    inv (mkWorld (free W) (threads W) (zset (workers W) i WIdle) (downs W) (ups W) (data W)) S segs T N.
  Proof.
    intros I Ew. destruct (busy_started _ _ _ _ _ _ _ _ _ I Ew) as (Hw & Ha & Hf & Hp). apply (inv_worker rsqrt capd capu capw jobs W S segs _ T N i _ _ I); auto.
    - intros k e. destruct (Z.eq_dec k i) as [->|Hk]; [rewrite zset_eq; discriminate|rewrite zset_ne by exact Hk; apply (i_alive _ _ _ _ _ _ _ _ _ _ I)].
    - discriminate.
    - rewrite (i_down _ _ _ _ _ _ _ _ _ _ I), Ew. cbn [body].
      rewrite (left_read rsqrt capd capu capw jobs j (Hclean j) (S j) w r (i_alone _ _ _ _ _ _ _ _ _ _ I j) Hw Hp). reflexivity.
    - exists [(j, w)]. rewrite Ew. split; [reflexivity|]. intros j' w' [E|[]]. injection E as <- <-. eauto.
  Qed.

  (** ** Every step *)
  Lemma inv_step W S segs T N a W' : inv W S segs T N -> wexec W a = Some W' -> exists S' segs' T' N', inv W' S' segs' T' N'.
  Proof.
    intros I H. destruct a as [j|j|i]; cbn [M_Jobs.wexec] in H.
    - exists S, segs, (nset T j N), (Datatypes.S N). exact (inv_start rsqrt capd capu capw jobs Hplaced _ _ _ _ _ _ _ I H).
    - destruct (threads W j) as [[[|w rest]|p|p]|] eqn:Et.
      + exists S, segs, T, N. exact (inv_serving rsqrt capd capu capw jobs _ _ _ _ _ _ _ I Et H).
      + do 4 eexists. exact (inv_setting rsqrt capd capu capw jobs Hplaced _ _ _ _ _ _ _ _ _ I Et H).
      + unfold thread_step in H. rewrite Et in H. destruct p as [r|e|to m k|from k].
        * injection H as <-. exists S, segs, T, N. apply (inv_returned rsqrt capd capu capw jobs Hclean _ _ _ _ _ _ _ I Et). exact Logic.I.
        * injection H as <-. exists S, segs, T, N. apply (inv_returned rsqrt capd capu capw jobs Hclean _ _ _ _ _ _ _ I Et). exact Logic.I.
        * destruct to as [|w]; [discriminate|]. destruct (existsb (wid_eqb w) (ws j)) eqn:Ein; cbn [andb] in H; [|discriminate]. apply has_in in Ein.
          destruct (has_room _ _) eqn:Er; [|discriminate]. injection H as <-.
          destruct (inv_mgr_send W S segs T N j w m k I Et Ein Er) as (s' & _ & I'). eauto.
        * destruct from as [|w]; [discriminate|]. destruct (existsb (wid_eqb w) (ws j)) eqn:Ein; [|discriminate]. apply has_in in Ein.
          destruct (ups W (at_ j w)) as [|m l] eqn:Eu; [discriminate|]. injection H as <-.
          destruct (inv_mgr_recv W S segs T N j w k m l I Et Ein Eu) as (s' & _ & I'). eauto.
      + unfold thread_step in H. rewrite Et in H. discriminate.
      + unfold thread_step in H. rewrite Et in H. discriminate.
    - unfold worker_step in H. destruct (workers W i) as [|j w p|e] eqn:Ew.
      + destruct (downs W i) as [|d l] eqn:Ed; [discriminate|]. injection H as <-. destruct (inv_idle W S segs T N i d l I Ew Ed) as (j & w & -> & I'). do 4 eexists. exact I'.
      + destruct p as [r|e|[|v] m k|[|v] k].
        * injection H as <-. do 4 eexists. exact (inv_left W S segs T N i j w r I Ew).
        * exfalso. destruct (busy_started _ _ _ _ _ _ _ _ _ I Ew) as (Hw & Ha & Hf & Hp). exact (no_failure rsqrt capd capu capw jobs j (Hclean j) (S j) w e (i_alone _ _ _ _ _ _ _ _ _ _ I j) Hw Hp).
        * destruct (has_room _ _) eqn:Er; [|discriminate]. injection H as <-. destruct (inv_wk_send_mgr W S segs T N i j w m k I Ew Er) as (s' & _ & I'). eauto.
        * destruct (has_room _ _) eqn:Er; [|discriminate]. injection H as <-. destruct (inv_wk_send W S segs T N i j w v m k I Ew Er) as (s' & _ & I'). eauto.
        * destruct (downs W i) as [|d l] eqn:Ed; [discriminate|]. injection H as <-. destruct (inv_wk_recv_mgr W S segs T N i j w k d l I Ew Ed) as (m & s' & -> & _ & I'). eauto.
        * destruct (data W j v w) as [|m l] eqn:Ed; [discriminate|]. injection H as <-. destruct (inv_wk_recv W S segs T N i j w v k m l I Ew Ed) as (s' & _ & I'). eauto.
      + discriminate.
  Qed.
  Lemma inv_runs acts : forall W S segs T N W', inv W S segs T N -> wruns rsqrt capd capu capw jobs W acts = Some W' -> exists S' segs' T' N', inv W' S' segs' T' N'.
  Proof.
    induction acts as [|a acts IH]; intros W S segs T N W' I H; cbn [wruns] in H; [injection H as <-; eauto|].
    destruct (wexec W a) as [W1|] eqn:E; [|discriminate]. destruct (inv_step W S segs T N a W1 I E) as (S1 & segs1 & T1 & N1 & I1). eapply IH; eassumption.
  Qed.
  Lemma inv_reached acts W : wruns rsqrt capd capu capw jobs world0 acts = Some W -> exists S segs T N, inv W S segs T N.
  Proof. apply (inv_runs acts _ _ _ _ _ _ (inv_init rsqrt capd capu capw jobs)). Qed.
End Step.
