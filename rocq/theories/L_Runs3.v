(** Runs by several threads: the results. *)
From Coq Require Import Sorted.
From Verif Require Import Base M_Kron M_Ops M_Feed M_Func M_Measure M_Graph S_Graph L_Graph1 L_Graph2 L_Graph3 L_Graph4 L_Graph5 L_Graph6 L_Graph7 L_Graph8 L_Graph9 L_Graph10
  L_Graph11 M_DistRun L_DistRun1 M_Runs S_Runs L_FloatRun2 L_Threads1 L_Runs1 L_Runs2.

Section System.
  Context {K : Type} {OK : OrdRing K}.
  Notation C := (Cx K).
  Implicit Types c : cache K.

  Lemma Forall_choice {A B} (P : A -> B -> Prop) : forall l, (forall a, In a l -> exists b, P a b) -> exists l', Forall2 P l l'.
  Proof.
    induction l as [|a l IH]; intros H; [exists []; constructor|].
    destruct (H a (or_introl eq_refl)) as [b Hb]. destruct IH as [l' Hl]; [intros; apply H; right; auto|]. exists (b :: l'). constructor; auto.
  Qed.
  Lemma Forall2_nth {A B} (P : A -> B -> Prop) l l' : Forall2 P l l' -> forall t a, nth_error l t = Some a -> exists b, nth_error l' t = Some b /\ P a b.
  Proof.
    induction 1 as [|x y l l' Hx Hl IH]; intros t a E; [destruct t; discriminate|].
    destruct t; cbn in *; [inversion E; subst; eauto|eauto].
  Qed.
  (** what is known about the traversal of a job *)
  Record info := mkInfo { f_srcs : list nat; f_order : list nat; f_gs : nat -> list (list Z) }.
  Definition info_ok (h : heap K) (j : job K) (f : info) : Prop :=
    sources h (j_args j) (f_srcs f) /\ NoDup (f_order f) /\ (forall i, In i (f_order f) <-> ancestor h (j_args j) i) /\
    (forall i, In i (f_order f) -> Forall2 (wires h (f_srcs f)) (inputs_of h i) (f_gs f i)) /\
    forall fr gn, (exists n g s, prepare (j_env j) h (j_args j) (j_feed j) (j_strict j) (j_state j) = Ok (fr, gn, n, g, s)) ->
      visits h fr gn = (map (fun i => (i, f_gs f i)) (f_order f), Ok tt).

  Section Jobs.
    Variables (h : heap K) (vis : list nat) (c0 : cache K) (jobs : list (job K)).
    Hypothesis B : built h vis.
    Hypothesis Hspl : splits_in_range h vis.
    Hypothesis Hjobs : forall j, In j jobs -> incl (j_args j) vis /\ enum_ok (j_env j).
    Hypothesis Hmeet : forall t t' j j', t <> t' -> nth_error jobs t = Some j -> nth_error jobs t' = Some j' -> may_meet h c0 (j_args j) (j_args j').

    Section Infos.
      Variable infos : list info.
      Hypothesis Hinf : Forall2 (info_ok h) jobs infos.
      Definition others_need (t : nat) (i : nat) : bool :=
        existsb (fun u => negb (Nat.eqb u t) && match nth_error infos u with Some f => mem i (f_order f) | None => false end) (seq 0 (length infos)).
      Definition aim (f : info) (i : nat) : option (mats_arg K) :=
        match c0 i with
        | Some ms => Some ms
        | None => match nd_kind (nd h i) with KMat o _ => match makemats o (f_gs f i) with Ok ms => Some ms | Raise _ => None end | _ => None end
        end.
      Definition needs (f : info) (i : nat) : Prop := In i (f_order f).
      Lemma others_need_spec t i : others_need t i = true <-> exists u f, u <> t /\ nth_error infos u = Some f /\ In i (f_order f).
      Proof.
        unfold others_need. rewrite existsb_exists. split.
        - intros (u & _ & H). apply andb_true_iff in H. destruct H as [H1 H2]. apply negb_true_iff, Nat.eqb_neq in H1.
          destruct (nth_error infos u) as [f|] eqn:E; [|discriminate]. exists u, f. split; auto. split; auto. apply mem_In; auto.
        - intros (u & f & H1 & H2 & H3). exists u. split.
          + apply in_seq. split; [lia|]. cbn. apply nth_error_Some. congruence.
          + rewrite H2. apply andb_true_iff. split; [apply negb_true_iff, Nat.eqb_neq; auto|apply mem_In; auto].
      Qed.
      Lemma info_at u f : nth_error infos u = Some f -> exists j, nth_error jobs u = Some j /\ info_ok h j f.
      Proof.
        intros E. destruct (nth_error jobs u) as [j|] eqn:Ej.
        - destruct (Forall2_nth _ _ _ Hinf u j Ej) as (f' & E' & Hf). exists j. split; auto. congruence.
        - apply nth_error_None in Ej. exfalso. assert (length jobs = length infos) by (eapply Forall2_len; eauto).
          assert (u < length infos)%nat by (apply nth_error_Some; congruence). lia.
      Qed.
      Lemma meets t u f g i o d : t <> u -> nth_error infos t = Some f -> nth_error infos u = Some g -> In i (f_order f) -> In i (f_order g) ->
        nd_kind (nd h i) = KMat o d -> c0 i = None -> d = false /\ f_gs f i = f_gs g i.
      Proof.
        intros Hne Et Eu If Ig Ek Ec. destruct (info_at t f Et) as (j & Ej & S1 & _ & A1 & W1 & _). destruct (info_at u g Eu) as (j' & Ej' & S2 & _ & A2 & W2 & _).
        apply (Hmeet t u j j' Hne Ej Ej' (f_srcs f) (f_srcs g) i o d); auto; [apply A1|apply A2]; auto.
      Qed.
      Lemma aim_same t u f g i : t <> u -> nth_error infos t = Some f -> nth_error infos u = Some g -> In i (f_order f) -> In i (f_order g) -> aim f i = aim g i.
      Proof.
        intros Hne Et Eu If Ig. unfold aim. destruct (c0 i) eqn:Ec; auto. destruct (nd_kind (nd h i)) as [|ix|o d|fn| |k] eqn:Ek; auto.
        destruct (meets t u f g i o d) as [_ ->]; auto.
      Qed.
      Definition std (t : nat) (f : info) : forall A, prog K A -> cache K -> A -> Prop := fun A => @steady K (needs f) (others_need t) (aim f) A.
      Lemma job_steady t j f : nth_error jobs t = Some j -> nth_error infos t = Some f ->
        std t f _ (run_p (j_env j) h (j_args j) (j_feed j) (j_strict j) (j_state j)) c0 (alone h c0 j).
      Proof.
        intros Ej Ef. destruct (info_at t f Ef) as (j' & Ej' & Hs & Hd & Ha & Hw & Hv). assert (j' = j) by congruence. subst j'.
        unfold std, alone.
        apply (run_steady (needs f) (others_need t) c0 (aim f) h (f_gs f)) with (ord := f_order f); auto.
        intros i o d Hi Hsh Ek. unfold aim. destruct (c0 i) as [ms|] eqn:Ec; auto. rewrite Ek. split; auto.
        apply others_need_spec in Hsh. destruct Hsh as (u & g & Hne & Eu & Ig). apply (meets t u f g i o d); auto.
      Qed.

      (** every thread is steady *)
      Definition sound (s : runs K (res (list C * list (nat * cval K)))) : Prop := forall t j f p, nth_error jobs t = Some j ->
        nth_error infos t = Some f -> nth_error (r_threads s) t = Some p -> std t f _ p (r_cache s) (alone h c0 j).
      Lemma sound_advance s u : length (r_threads s) = length jobs -> sound s -> sound (advance s u).
      Proof.
        intros Hl HS. unfold advance. destruct (nth_error (r_threads s) u) as [[a|i k|i ms k]|] eqn:Eu; auto.
        - intros t j f p Ej Ef Ep. cbn [r_threads r_cache] in *. rewrite nth_error_upd in Ep. destruct (Nat.eqb_spec u t) as [->|Hne].
          + rewrite Eu in Ep. inversion Ep; subst. pose proof (HS t j f _ Ej Ef Eu) as H. cbn [std steady] in H. apply H. apply rely_refl.
          + apply (HS t j f p); auto.
        - assert (Hlu : (u < length jobs)%nat) by (rewrite <- Hl; apply nth_error_Some; congruence).
          destruct (nth_error jobs u) as [ju|] eqn:Eju; [|apply nth_error_None in Eju; lia].
          destruct (Forall2_nth _ _ _ Hinf u ju Eju) as (g & Eg & _).
          pose proof (HS u ju g _ Eju Eg Eu) as Hu. destruct Hu as (Nu & Tu & Su).
          intros t j f p Ej Ef Ep. cbn [r_threads r_cache] in *. rewrite nth_error_upd in Ep. destruct (Nat.eqb_spec u t) as [->|Hne].
          + rewrite Eu in Ep. inversion Ep; subst. assert (f = g) by congruence. assert (j = ju) by congruence. subst. apply Su. apply rely_refl.
          + unfold std. apply (steady_rely _ _ _ p (r_cache s)); [|apply (HS t j f p); auto].
            intros x Hx. destruct (Nat.eq_dec x i) as [->|Hxi]; [|rewrite cache_set_other by auto; auto].
            rewrite cache_set_same. assert (St : others_need t i = true) by (apply others_need_spec; exists u, g; auto).
            assert (Sg : others_need u i = true) by (apply others_need_spec; exists t, f; auto).
            split; [congruence|]. intros _. right. rewrite (Tu Sg). apply (aim_same u t); auto.
      Qed.
      Lemma advance_length {A} (s : runs K A) u : length (r_threads (advance s u)) = length (r_threads s).
      Proof. unfold advance. destruct (nth_error (r_threads s) u) as [[a|i k|i ms k]|]; auto; apply upd_length. Qed.
      Lemma sound_advances sched : forall s, length (r_threads s) = length jobs -> sound s -> sound (advances s sched).
      Proof.
        induction sched as [|u sched IH]; intros s Hl HS; [exact HS|]. cbn [advances fold_left]. apply IH.
        - rewrite advance_length. auto.
        - apply sound_advance; auto.
      Qed.
      Lemma sound_start : sound (start h c0 jobs).
      Proof.
        intros t j f p Ej Ef Ep. cbn [start r_threads r_cache] in *. rewrite nth_error_map, Ej in Ep. inversion Ep; subst. apply job_steady; auto.
      Qed.
    End Infos.

    Lemma runs_alone sched t j r : nth_error jobs t = Some j -> ended (advances (start h c0 jobs) sched) t r -> r = alone h c0 j.
    Proof.
      intros Ej Er. destruct (Forall_choice (info_ok h) jobs) as [infos Hinf].
      { intros j' Hj'. destruct (Hjobs j' Hj') as [Ha He]. destruct (prepare_visits h vis (j_args j') B Ha Hspl) as (srcs & ord & gs & H1 & H2 & H3 & H4 & H5).
        exists (mkInfo srcs ord gs). split; auto. split; auto. split; auto. split; auto. intros fr gn Hp. eapply H5; eauto. }
      destruct (Forall2_nth _ _ _ Hinf t j Ej) as (f & Ef & _).
      pose proof (sound_advances infos Hinf sched (start h c0 jobs)) as HS. cbn [start r_threads] in HS. rewrite map_length in HS.
      specialize (HS eq_refl (sound_start infos Hinf)). exact (HS t j f _ Ej Ef Er).
    Qed.
  End Jobs.

  (** ** a successful run fills the caches *)
  Definition kept c c' : Prop := forall i, c i <> None -> c' i <> None.
  Lemma kept_set c i ms : kept c (cache_set c i ms).
  Proof. intros j Hj. unfold cache_set. destruct (Nat.eqb j i); [discriminate|auto]. Qed.
  Lemma feed_kept ev h a i gs : kept (a_cache a) (a_cache (fst (node_feed ev h a i gs))) /\
    (forall o d u, nd_kind (nd h i) = KMat o d -> snd (node_feed ev h a i gs) = Ok u -> a_cache (fst (node_feed ev h a i gs)) i <> None).
  Proof.
    destruct (is_mat (nd_kind (nd h i))) eqn:Em.
    - unfold node_feed, op_mats. destruct (nd_kind (nd h i)) as [|ix|o d|fn| |k]; try discriminate.
      destruct (a_cache a i) as [ms|] eqn:Ec.
      { destruct (bk_kron _ _ _); cbn [fst snd a_cache]; (split; [intros x Hx; auto|intros; congruence]). }
      destruct (makemats o gs) as [ms|e].
      2:{ cbn [fst snd a_cache]. split; [intros x Hx; auto|intros; congruence]. }
      destruct d.
      + destruct (adj_ms ms) as [ms'|e].
        2:{ cbn [fst snd a_cache]. split; [apply kept_set|intros; congruence]. }
        destruct (bk_kron _ _ _); cbn [fst snd a_cache]; (split; [intros x Hx; apply kept_set, kept_set; auto|intros; rewrite cache_set_same; discriminate]).
      + destruct (bk_kron _ _ _); cbn [fst snd a_cache]; (split; [apply kept_set|intros; rewrite cache_set_same; discriminate]).
    - assert (E : a = with_cache a (a_cache a)) by (destruct a; reflexivity).
      pose proof (feed_cache ev h a i gs (a_cache a) Em) as E2. rewrite <- E in E2. rewrite E2. cbn [fst with_cache a_cache].
      split; [intros x Hx; auto|intros o d u Ek; rewrite Ek in Em; discriminate].
  Qed.
  Lemma vfold_fills ev h fin : forall l a a', vfold (node_feed ev h) l fin a = (a', Ok tt) ->
    kept (a_cache a) (a_cache a') /\ forall i o d, In i (map fst l) -> nd_kind (nd h i) = KMat o d -> a_cache a' i <> None.
  Proof.
    induction l as [|[i gs] l IH]; intros a a' E; cbn [vfold map] in *.
    - inversion E; subst. split; [intros x Hx; auto|intros i o d []].
    - destruct (feed_kept ev h a i gs) as [H1 H2]. destruct (node_feed ev h a i gs) as [a1 [u|e]]; cbn [sbind] in E; [|discriminate].
      apply IH in E. destruct E as [H3 H4]. cbn [fst snd] in *. split; [intros x Hx; apply H3, H1; auto|].
      intros x o d [<-|Hx] Ek; [|eapply H4; eauto]. apply H3. eapply H2; eauto.
  Qed.
  Lemma run_fills h vis ev c args feed strict state c' r : built h vis -> incl args vis -> splits_in_range h vis -> enum_ok ev ->
    run ev c h args feed strict state = (c', Ok r) -> forall i o d, ancestor h args i -> nd_kind (nd h i) = KMat o d -> c' i <> None.
  Proof.
    intros B Ha Hs He E i o d Hi Ek. destruct (prepare_visits h vis args B Ha Hs) as (srcs & ord & gs & H1 & H2 & H3 & H4 & H5).
    rewrite run_prepare in E. destruct (prepare ev h args feed strict state) as [[[[[fr gn] n] g] s]|e] eqn:Ep; [|discriminate].
    destruct (make_state _ _ _ _ _ _ _ _) as [b|e]; [|discriminate]. rewrite run_visits in E.
    rewrite (H5 ev feed strict state He fr gn) in E by eauto. cbn [fst snd] in E.
    destruct (vfold _ _ _ _) as [a [[]|e]] eqn:Ev; [|discriminate]. inversion E; subst.
    destruct (vfold_fills _ _ _ _ _ _ Ev) as [_ H6]. apply (H6 i o d); auto. rewrite map_map. cbn [fst]. rewrite map_id. apply H3; auto.
  Qed.

  (** checking the condition on concrete circuits *)
  Definition meet_check (h : heap K) c (srcs srcs' L L' : list nat) : Prop := forall i o d, In i L -> In i L' -> nd_kind (nd h i) = KMat o d -> c i = None ->
    d = false /\ map (wire h srcs) (inputs_of h i) = map (wire h srcs') (inputs_of h i).
  Lemma meet_ok (h : heap K) vis c args args' srcs srcs' L L' : built h vis -> splits_in_range h vis -> incl args vis -> incl args' vis ->
    sources h args srcs -> sources h args' srcs' -> (forall i, ancestor h args i <-> In i L) -> (forall i, ancestor h args' i <-> In i L') ->
    meet_check h c srcs srcs' L L' -> may_meet h c args args'.
  Proof.
    intros B Hs Ha Ha' Hsrc Hsrc' HL HL' HC s s' i o d gs gs' S S' A A' Ek W W' Ec.
    pose proof (built_wf _ _ B) as Wf.
    assert (s = srcs).
    { apply sorted_lt_unique; [apply S|apply Hsrc|]. intros x. rewrite (proj2 S x), (proj2 Hsrc x). tauto. }
    assert (s' = srcs').
    { apply sorted_lt_unique; [apply S'|apply Hsrc'|]. intros x. rewrite (proj2 S' x), (proj2 Hsrc' x). tauto. }
    subst s s'. destruct (HC i o d) as [E1 E2]; auto; [apply HL; auto|apply HL'; auto|]. split; auto.
    assert (G : forall a sr g, incl a vis -> sources h a sr -> ancestor h a i -> Forall2 (wires h sr) (inputs_of h i) g -> g = map (wire h sr) (inputs_of h i)).
    { intros a sr g Hia Hsr Hai Hg. pose proof (splits_anc h vis a Wf Hia Hs) as Hsp.
      assert (Hin : forall x, In x (inputs_of h i) -> ancestor h a x) by (intros x Hx; eapply anc_input; eauto).
      revert Hg Hin. generalize (inputs_of h i). intros l Hg. induction Hg as [|x y l g Hx Hg IH]; intros Hin; [reflexivity|].
      cbn [map]. f_equal; [|apply IH; intros; apply Hin; right; auto].
      eapply wires_fun; eauto. apply Hin; left; auto. }
    rewrite (G args srcs gs), (G args' srcs' gs'); auto.
  Qed.
End System.
