(** Runs with measurements. *)
From Coq Require Import Sorted.
From Verif Require Import Base S_Bits L_Bits M_Kron S_Kron M_Ops S_Ops L_Ops4 M_Feed S_Feed L_Feed L_Feed2 M_Func S_Func L_Func L_Func2
  M_Measure S_Measure L_Measure1 L_Measure2 L_Measure3 L_Measure4 L_Measure6 L_Alg M_Graph S_Graph L_Graph1 L_Graph2 L_Graph3 L_Graph4 L_Graph5 L_Graph6
  L_Graph7 L_Graph8 L_Graph9 L_Graph10 L_Graph11 L_Grow1 S_Born.

Section Born.
  Context {K : Type} {OK : OrdRing K}.
  Notation C := (Cx K).
  Add Ring KRingB : (@rth K _).
  Implicit Types h : heap K.

  Lemma norm_ext n (v v' : Z -> C) : (forall r, 0 <= r < 2 ^ n -> v' r = v r) -> norm_of n v' = norm_of n v.
  Proof. intros H. apply sum_ext. intros r Hr. apply in_zrange in Hr. rewrite H; auto. Qed.
  Lemma adj_scalars (o : op K) : op_scalars_ok o -> op_scalars_ok (op_adj o).
  Proof. induction o as [| | |x|[a b]|k|o IH]; cbn [op_scalars_ok op_adj]; auto. intros H. rewrite <- H. unfold cnorm2, cconj. cbn [fst snd]. ring. Qed.
  Lemma op_acts_norm n (o : op K) groups (v : Z -> C) : 0 <= n -> op_fits o groups -> qubits_ok n (concat groups) -> op_scalars_ok o ->
    norm_of n (op_acts n o groups v) = norm_of n v.
  Proof.
    intros Hn Hf Hq Hs. pose proof (Z.pow_nonneg 2 n ltac:(lia)) as Hp.
    set (vec := map v (zrange 0 (2 ^ n))). assert (Hz : zlen vec = 2 ^ n) by (unfold vec; rewrite zlen_map, zlen_zrange; lia).
    destruct (op_accepted n o groups vec vec Python Hn Hf Hq Hz Hz I) as (ms & V & Em & Ev).
    assert (Ha : applied n ms vec V) by (split; auto; exists vec, Python; repeat split; auto).
    pose proof (op_norm n o groups ms vec V Hn Hf Hq Hs Em Ha) as E. unfold norm2 in E.
    transitivity (norm_of n (amp V)).
    - symmetry. apply norm_ext. intros r Hr. rewrite (op_acts_ok n o groups ms vec V Hn Hf Hq Em Ha r Hr).
      apply (op_acts_ext n Hn); auto; [apply Hq|]. intros x Hx. unfold amp, vec. rewrite znth_map_zrange by lia. reflexivity.
    - rewrite <- (norm_ext n v (amp vec)); [exact E|]. intros r Hr. unfold amp, vec. rewrite znth_map_zrange by lia. reflexivity.
  Qed.
  Lemma fxor_norm n reg1 reg2 f (v v' : Z -> C) : 0 <= n -> qubits_ok n (reg1 ++ reg2) ->
    (forall x, 0 <= x < 2 ^ n -> v' (fxor n reg1 reg2 f x) = v x) -> norm_of n v' = norm_of n v.
  Proof.
    intros Hn Hq H. unfold norm_of. rewrite (sum_reindex (zrange 0 (2 ^ n)) (zrange 0 (2 ^ n)) (fxor n reg1 reg2 f)).
    - apply sum_ext. intros x Hx. apply in_zrange in Hx. rewrite H; auto.
    - apply zrange_nodup. - apply zrange_nodup.
    - intros x Hx. apply in_zrange, fxor_range. auto.
    - intros x y Hx Hy E. apply in_zrange in Hx, Hy. rewrite <- (fxor_invol n reg1 reg2 f x), <- (fxor_invol n reg1 reg2 f y), E by auto. auto.
    - intros x Hx. apply in_zrange in Hx. exists (fxor n reg1 reg2 f x). split; [apply in_zrange, fxor_range; auto|apply fxor_invol; auto].
  Qed.
  Lemma collapsed_norm n g m s (v : Z -> C) : 0 <= m < 2 ^ zlen (measured_order n g) ->
    norm_of n (collapsed n g m s v) = (s * s * marginal n (measured_order n g) v m)%r.
  Proof.
    intros Hm. unfold norm_of. rewrite <- (below_all n (measured_order n g)). unfold below. rewrite (sum_single _ m).
    - rewrite collapsed_marginal, Z.eqb_refl. reflexivity.
    - apply zrange_nodup. - apply in_zrange. auto.
    - intros j _ Hj. rewrite collapsed_marginal. destruct (Z.eqb_spec j m); congruence.
  Qed.
  Lemma below_le n g (v : Z -> C) m : 0 <= m <= 2 ^ zlen g -> rle (below n g v m) (norm_of n v).
  Proof. intros Hm. unfold norm_of. rewrite <- (below_all n g). apply below_mono. lia. Qed.

  Section Nodes.
    Variables (h : heap K) (vis args : list nat) (srcs ord : list nat).
    Hypothesis W : wf h vis.
    Hypothesis Hargs : incl args vis.
    Hypothesis Hsplit : forall i idx k, ancestor h args i -> nd_kind (nd h i) = KSplit idx -> inputs_of h i <> [] -> In k idx -> 0 <= k < widths h (inputs_of h i).
    Hypothesis Hsrcs : sources h args srcs.
    Hypothesis Hord : StronglySorted lt ord.
    Hypothesis HordIn : forall i, In i ord <-> ancestor h args i.
    Variable ev : env K.
    Hypothesis Henum : enum_ok ev.
    Notation w := (wire h srcs).
    Notation n := (widths h srcs).
    Notation step := (fun a i => node_feed ev h a i (map w (inputs_of h i))).
    Hypothesis Hok : circuit_ok h args srcs n.
    Hypothesis Hsched : scheds_ok ev h n.
    Hypothesis Hg : gates_exact h args.
    Hypothesis Hd : draws_ok ev.
    Notation acc_ok := (acc_ok h args srcs).

    Lemma nn : 0 <= n.
    Proof. eapply n_nonneg; eauto. Qed.
    Lemma tprob_norm (a : acc K) : acc_ok a -> tprob (bk_state (a_back a)) = norm_of n (amps a).
    Proof.
      intros ((Hn & Hz & _) & Hb & _). rewrite Hb in *. unfold norm_of, tprob, amps, amp.
      rewrite (list_as_map 0%r (bk_state (a_back a))) at 1. rewrite sum_map, Hz. reflexivity.
    Qed.
    Lemma sem_norm i v v' cv : ancestor h args i -> nd_kind (nd h i) <> KMeasure ->
      node_sem (e_rsqrt ev) n (map w (inputs_of h i)) v v' (nd_kind (nd h i)) cv -> norm_of n v' = norm_of n v.
    Proof.
      intros Hi Hk S. pose proof nn as Hn. destruct (nd_kind (nd h i)) as [|ix|o d|func| |k] eqn:Ek; try congruence.
      - inversion S; subst. apply norm_ext; auto.
      - inversion S; subst. apply norm_ext; auto.
      - destruct (a_qubits_ok h vis args srcs W Hargs Hsplit Hsrcs Hok i Hi) as [Hq _]; [congruence|intros l; congruence|].
        destruct (op_ms_eff h vis args srcs W Hargs Hsplit Hsrcs Hok i o d Hi Ek) as (_ & _ & Hf & _). pose proof (Hg i o d Hi Ek) as Hs.
        inversion S; subst; cbn [op_eff] in Hf; (etransitivity; [apply norm_ext; eassumption|]); apply op_acts_norm; auto. apply adj_scalars; auto.
      - destruct (a_qubits_ok h vis args srcs W Hargs Hsplit Hsrcs Hok i Hi) as [Hq _]; [congruence|intros l; congruence|].
        inversion S as [| | | |func' f reg1 reg2 Eg Hf Hv| | |]; subst. rewrite Eg in Hq. cbn [concat] in Hq. rewrite app_nil_r in Hq.
        eapply fxor_norm; eauto.
      - inversion S; subst; apply norm_ext; auto.
    Qed.
    Lemma meas_norm i v v' m p : ancestor h args i -> nd_kind (nd h i) = KMeasure -> norm_of n v = 1%r ->
      node_sem (e_rsqrt ev) n (map w (inputs_of h i)) v v' KMeasure (CMeas m p) ->
      norm_of n v' = 1%r /\ 0 <= m < 2 ^ zlen (measured_order n (concat (map w (inputs_of h i)))) /\ rlt 0%r p /\
      p = marginal n (measured_order n (concat (map w (inputs_of h i)))) v m.
    Proof.
      intros Hi Ek Hnorm S. destruct (a_qubits_ok h vis args srcs W Hargs Hsplit Hsrcs Hok i Hi) as [Hq _]; [congruence|intros l; congruence|].
      inversion S as [| | | | |m' p' Hm' Hp' Hp0 Hv| |]; subst m' p'. set (gs := concat (map w (inputs_of h i))) in *.
      assert (Hmo : 0 <= m < 2 ^ zlen (measured_order n gs)) by (rewrite (zlen_mo n gs Hq); auto).
      assert (H0 : rlt 0%r p).
      { apply rlt_le_neq. split; [|congruence]. rewrite Hp'. apply marginal_nonneg. }
      split; auto. rewrite (norm_ext n _ _ Hv), collapsed_norm by auto. rewrite <- Hp'. destruct Hd as (_ & _ & Hrs). apply Hrs; auto.
      eapply rle_trans; [|rewrite <- Hnorm; apply (below_le n (measured_order n gs) v (m + 1)); lia].
      rewrite below_succ by lia. rewrite <- Hp'. replace p with (0 + p)%r at 1 by ring. apply rle_add_r.
      unfold below. apply sum_nonneg. intros x _. apply marginal_nonneg.
    Qed.

    (** outcome [cv] of node [i] executed on the amplitudes [v] is the one its draw selects *)
    Definition drawn (i : nat) (v : Z -> C) (cv : cval K) : Prop :=
      forall m p, cv = CMeas m p -> selected n (concat (map w (inputs_of h i))) v (e_rand ev i) m.
    Lemma node_measured i a : ancestor h args i -> acc_ok a -> norm_of n (amps a) = 1%r -> nd_kind (nd h i) = KMeasure ->
      exists a' cv, node_feed ev h a i (map w (inputs_of h i)) = (a', Ok tt) /\ acc_ok a' /\ a_cm a' = odict_set (a_cm a) i cv /\
        node_sem (e_rsqrt ev) n (map w (inputs_of h i)) (amps a) (amps a') (nd_kind (nd h i)) cv /\ norm_of n (amps a') = 1%r /\
        drawn i (amps a) cv.
    Proof.
      intros Hi Ha Hnorm Ek. pose proof Ha as (Hb & Hbn & Hc).
      destruct (a_qubits_ok h vis args srcs W Hargs Hsplit Hsrcs Hok i Hi) as [Hq _]; [congruence|intros l; congruence|].
      set (gs := concat (map w (inputs_of h i))) in *. rewrite <- Hbn in Hq.
      destruct Hd as (Hu & Hacc & Hrs). destruct (Hu i) as [U0 U1].
      pose proof (tprob_norm a Ha) as Ht. rewrite Hnorm in Ht.
      assert (Eu : (e_rand ev i * tprob (bk_state (a_back a)))%r = e_rand ev i) by (rewrite Ht; ring).
      assert (D : draw_ok (e_rand ev i) (tprob (bk_state (a_back a)))) by (split; rewrite Eu, ?Ht; auto).
      destruct (measure_total (e_rsqrt ev) (e_rand ev i) (a_back a) gs Hb Hq D) as (m & p & b' & Es & Em & Hp).
      assert (Hst : exists a', node_feed ev h a i (map w (inputs_of h i)) = (a', Ok tt) /\ a_cm a' = odict_set (a_cm a) i (CMeas m p)).
      { unfold node_feed. rewrite Ek, Hacc. fold gs. rewrite Em. eexists. split; reflexivity. }
      destruct Hst as (a' & E & Ecm). exists a', (CMeas m p). split; auto.
      destruct (node_partial h vis args srcs W Hargs Hsplit Hsrcs Hok ev Hsched i a a' Hi Ha E) as (Ha' & cv & Ecv & S).
      assert (Ecv' : cv = CMeas m p).
      { rewrite Ecm in Ecv. clear - Ecv. induction (a_cm a) as [|[k x] l IH]; cbn in Ecv.
        - congruence.
        - destruct (Nat.eqb k i); [congruence|]. apply IH. congruence. }
      rewrite Ecv' in S. split; auto. split; auto. split; auto.
      destruct (soft_born (bk_n (a_back a)) gs 0 (bk_state (a_back a)) (e_rand ev i) m p) as [SB _]; auto; [apply Hb|apply full_slice; auto|].
      destruct (SB Es) as (Hm & Hpm & L1 & L2). rewrite Eu in L1, L2. rewrite Hbn in *.
      assert (Hsel : selected n gs (amps a) (e_rand ev i) m).
      { split; [exact Hm|].
        assert (EB : forall k, below n (measured_order n gs) (amp_at 0 (bk_state (a_back a))) k = below n (measured_order n gs) (amps a) k).
        { intros k. unfold below. apply sum_ext. intros x _. apply L_Graph7.marginal_ext. intros r Hr. unfold amps, amp, amp_at. f_equal. lia. }
        rewrite <- !EB. auto. }
      split; [|intros m' p' E'; injection E' as <- <-; exact Hsel].
      rewrite Ek in S. apply (meas_norm i _ _ m p Hi Ek Hnorm S).
    Qed.
    Lemma node_born i a : ancestor h args i -> acc_ok a -> norm_of n (amps a) = 1%r ->
      exists a' cv, node_feed ev h a i (map w (inputs_of h i)) = (a', Ok tt) /\ acc_ok a' /\ a_cm a' = odict_set (a_cm a) i cv /\
        node_sem (e_rsqrt ev) n (map w (inputs_of h i)) (amps a) (amps a') (nd_kind (nd h i)) cv /\ norm_of n (amps a') = 1%r /\
        drawn i (amps a) cv.
    Proof.
      intros Hi Ha Hnorm. assert (Hm : nd_kind (nd h i) = KMeasure \/ nd_kind (nd h i) <> KMeasure).
      { destruct (nd_kind (nd h i)); auto; right; discriminate. }
      destruct Hm as [Ek|Hnm]; [apply node_measured; auto|].
      destruct (node_total h vis args srcs W Hargs Hsplit Hsrcs Hok ev Hsched i a Hi Hnm Ha) as (a' & E & R).
      destruct R as (Ha' & cv & Ecm & S). pose proof (sem_norm i _ _ cv Hi Hnm S) as En.
      exists a', cv. split; auto. split; auto. split; auto. split; auto. split; [congruence|].
      intros m p ->. inversion S; congruence.
    Qed.

    Lemma fold_born : forall todo a, NoDup todo -> incl todo ord -> acc_ok a -> norm_of n (amps a) = 1%r ->
      (forall i, In i todo -> ~ In i (map fst (a_cm a))) ->
      exists a' l, sfold step todo a = (a', Ok tt) /\ acc_ok a' /\ a_cm a' = a_cm a ++ l /\ map fst l = todo /\
        norm_of n (amps a') = 1%r /\
        forall l1 i m p l2, l = l1 ++ (i, CMeas m p) :: l2 -> exists v1, evolves (e_rsqrt ev) h srcs n l1 (amps a) v1 /\
          selected n (concat (map w (inputs_of h i))) v1 (e_rand ev i) m /\ p = marginal n (measured_order n (concat (map w (inputs_of h i)))) v1 m.
    Proof.
      induction todo as [|i todo IH]; intros a Hnd Hi Ha Hn Hf; cbn [sfold].
      - exists a, []. split; auto. split; auto. rewrite app_nil_r. split; auto. split; auto. split; auto.
        intros [|x l1] i m p l2 E; discriminate.
      - assert (Hai : ancestor h args i) by (apply HordIn, Hi; left; auto).
        destruct (node_born i a Hai Ha Hn) as (a1 & cv & E1 & Ha1 & Ecm & S & Hn1 & Hdr). rewrite E1. cbn [sbind].
        rewrite odict_set_fresh in Ecm by (apply Hf; left; auto). inversion Hnd as [|x y Hni Hd']; subst.
        destruct (IH a1) as (a' & l & E & Ha' & El & Em & Hn' & HD); auto.
        { intros x Hx. apply Hi. right; auto. }
        { intros x Hx Hc. rewrite Ecm, map_app, in_app_iff in Hc. destruct Hc as [Hc|[<-|[]]]; auto. apply (Hf x); auto. right; auto. }
        exists a', ((i, cv) :: l). split; auto. split; auto. split; [rewrite El, Ecm, <- app_assoc; auto|].
        split; [cbn; f_equal; auto|]. split; auto. intros [|[j cw] l1] j' m p l2 Eq.
        + cbn [app] in Eq. injection Eq as -> -> ->. exists (amps a). split; [constructor; auto|]. split; [eapply Hdr; eauto|].
          inversion S; auto.
        + cbn [app] in Eq. injection Eq as -> -> Eq. destruct (HD l1 j' m p l2 Eq) as (v1 & Ev & X). exists v1. split; [|exact X].
          econstructor; [eapply a_inputs; eauto|exact S|exact Ev].
    Qed.

    (** draws that select given outcomes *)
    Lemma draws_for l : forall v v', evolves (e_rsqrt ev) h srcs n l v v' -> norm_of n v = 1%r -> NoDup (map fst l) ->
      (forall i, In i (map fst l) -> ancestor h args i) ->
      exists u, (forall i, rlt 0%r (u i) /\ rle (u i) 1%r) /\
        forall l1 i m p l2, l = l1 ++ (i, CMeas m p) :: l2 -> exists v1, evolves (e_rsqrt ev) h srcs n l1 v v1 /\
          selected n (concat (map w (inputs_of h i))) v1 (u i) m /\ p = marginal n (measured_order n (concat (map w (inputs_of h i)))) v1 m.
    Proof.
      induction l as [|[i cv] l IH]; intros v v' E Hn Hnd Hi.
      - exists (fun _ => 1%r). split; [intros _; split; [apply rlt_0_1|apply rle_refl]|]. intros [|x l1] i m p l2 Eq; discriminate.
      - inversion E as [|i' cv' l' groups v0 v1 v2 Hg' S E']; subst. cbn [map fst] in Hnd. inversion Hnd as [|x y Hni Hnd']; subst.
        assert (Hai : ancestor h args i) by (apply Hi; left; auto).
        assert (Eg : groups = map w (inputs_of h i)).
        { clear - Hg' Hai W Hargs Hsplit Hsrcs. assert (Hin : forall j, In j (inputs_of h i) -> ancestor h args j) by (intros; eapply anc_input; eauto).
          induction Hg' as [|q g l gs Hq HF IH]; auto. cbn [map]. f_equal; [eapply wires_fun; eauto; apply Hin; left; auto|].
          apply IH. intros; apply Hin; right; auto. }
        subst groups.
        assert (X : norm_of n v1 = 1%r /\ exists ui, rlt 0%r ui /\ rle ui 1%r /\ forall m p, cv = CMeas m p ->
          selected n (concat (map w (inputs_of h i))) v ui m /\ p = marginal n (measured_order n (concat (map w (inputs_of h i)))) v m).
        { assert (Hm : nd_kind (nd h i) = KMeasure \/ nd_kind (nd h i) <> KMeasure).
          { destruct (nd_kind (nd h i)); auto; right; discriminate. }
          destruct Hm as [Ek|Hnm].
          - rewrite Ek in S. assert (Ecv : exists m p, cv = CMeas m p) by (inversion S; eauto). destruct Ecv as (m & p & ->).
            destruct (meas_norm i v v1 m p Hai Ek Hn S) as (N1 & Hm & Hp & Ep). split; auto.
            set (g := concat (map w (inputs_of h i))) in *.
            destruct (a_qubits_ok h vis args srcs W Hargs Hsplit Hsrcs Hok i Hai) as [Hq _]; [congruence|intros l0; congruence|].
            fold g in Hq. exists (below n (measured_order n g) v (m + 1)).
            assert (L : rlt (below n (measured_order n g) v m) (below n (measured_order n g) v (m + 1))).
            { rewrite below_succ, <- Ep by lia. apply (rlt_add_l _ _ (below n (measured_order n g) v m)) in Hp.
              replace (below n (measured_order n g) v m + 0)%r with (below n (measured_order n g) v m) in Hp by ring. exact Hp. }
            split; [|split].
            + eapply rle_lt_trans; [|exact L]. unfold below. apply sum_nonneg. intros x _. apply marginal_nonneg.
            + rewrite <- Hn. apply below_le. lia.
            + intros m' p' Eq. injection Eq as <- <-. split; auto. split; [rewrite (zlen_mo n g Hq) in Hm; exact Hm|]. split; auto. apply rle_refl.
          - split; [rewrite (sem_norm i v v1 cv Hai Hnm S); auto|]. exists 1%r. split; [apply rlt_0_1|]. split; [apply rle_refl|].
            intros m p ->. inversion S; congruence. }
        destruct X as (N1 & ui & U0 & U1 & US).
        destruct (IH v1 v' E' N1 Hnd') as (u & HU & HD); [intros j Hj; apply Hi; right; auto|].
        exists (fun j => if Nat.eqb j i then ui else u j). split; [intros j; destruct (Nat.eqb j i); auto|].
        intros [|[j cw] l1] j' m p l2 Eq.
        + cbn [app] in Eq. injection Eq as -> -> ->. rewrite Nat.eqb_refl. exists v. split; [constructor; auto|]. eapply US; eauto.
        + cbn [app] in Eq. injection Eq as -> -> Eq. destruct (HD l1 j' m p l2 Eq) as (v2 & Ev & X). exists v2.
          split; [econstructor; [exact Hg'|exact S|exact Ev]|].
          destruct (Nat.eqb_spec j' j) as [->|]; [|exact X]. exfalso. apply Hni. rewrite Eq, map_app. apply in_app_iff. right; left; auto.
    Qed.

    Lemma init_norm feed state init : initial h srcs n feed state init -> (forall g v, In (g, v) init -> total v = 1%r) ->
      norm_of n (amp (map (fed_amp n init) (zrange 0 (2 ^ n)))) = 1%r.
    Proof.
      intros HI Ht. pose proof nn as Hn.
      assert (Hf : feeds_ok n init).
      { destruct HI as [init (_ & _ & _ & _ & _ & _ & _ & Hf)|l _ _ Hl]; auto. split.
        - cbn [map concat fst]. rewrite app_nil_r. split; [apply zrange_nodup|]. intros q Hq. apply in_zrange in Hq. auto.
        - intros g a [E|[]]. inversion E; subst. rewrite zlen_zrange by lia. rewrite Z.sub_0_r. auto. }
      pose proof (fed_total n init Hn Hf) as E. unfold norm_of.
      transitivity (total (map (fed_amp n init) (zrange 0 (2 ^ n)))).
      - unfold total. rewrite sum_map. apply sum_ext. intros r Hr. apply in_zrange in Hr. unfold amp. rewrite znth_map_zrange by lia. reflexivity.
      - rewrite E. clear - Ht. induction init as [|[g v] init IH]; cbn [prod]; auto. cbn [snd]. rewrite (Ht g v) by (left; auto).
        rewrite IH by (intros; eapply Ht; right; eauto). ring.
    Qed.
  End Nodes.

  Lemma run_born h vis c l args srcs : session h vis c l -> splits_in_range h vis -> no_swap_dagger h vis ->
    incl args vis -> (forall args', In args' l -> same_qubits h args args') -> sources h args srcs ->
    let n := widths h srcs in circuit_ok h args srcs n -> gates_exact h args ->
    forall ev feed strict state init, enum_ok ev -> scheds_ok ev h n -> draws_ok ev -> initial h srcs n feed state init ->
    (forall g v, In (g, v) init -> total v = 1%r) -> (strict = true -> incl srcs (fed_nodes feed)) ->
    exists c' st_ cm, run ev c h args feed strict state = (c', Ok (st_, cm)) /\ norm2 n st_ = 1%r /\
      forall l1 i m p l2, cm = l1 ++ (i, CMeas m p) :: l2 -> exists groups v, Forall2 (wires h srcs) (inputs_of h i) groups /\
        evolves (e_rsqrt ev) h srcs n l1 (amp (map (fed_amp n init) (zrange 0 (2 ^ n)))) v /\
        selected n (concat groups) v (e_rand ev i) m /\ p = marginal n (measured_order n (concat groups)) v m.
  Proof.
    intros S Hs Hsd Ha Hsame Hsrc n Hok Hg ev feed strict state init He Hsc Hdr HI Ht Hst. pose proof (session_wf _ _ _ _ S) as W.
    pose proof (splits_anc h vis args W Ha Hs) as Hsp.
    destruct (ord_exists h vis args W Ha) as (ord & Ho & Hoi).
    pose proof (session_cache_valid h vis c l args srcs S Hs Hsd Ha Hsrc Hsame) as Hc.
    destruct (initial_keys h srcs _ _ _ HI) as [Hkd Hfi].
    destruct (run_start h vis args srcs ord W Ha Hsp Hsrc Ho Hoi ev He c feed strict state Hkd Hfi) as (fr & nn0 & Pf & ->).
    assert (strict && not_fed srcs feed = false) as ->.
    { destruct strict; auto. cbn. unfold not_fed. apply negb_false_iff, forallb_forall. intros q Hq. apply mem_In, Hst; auto. }
    rewrite (start_ok h vis args srcs W Ha Hsp Hsrc ev feed fr state init Pf HI).
    change (mkAcc _ nn0 [] c) with (start_acc h srcs ev init nn0 c).
    destruct (fold_born h vis args srcs ord W Ha Hsp Hsrc Hoi ev Hok Hsc Hg Hdr ord (start_acc h srcs ev init nn0 c)) as (a & l' & -> & Haok & El & Em & Hn & HD).
    { apply sorted_lt_NoDup; auto. } { apply incl_refl. } { eapply start_acc_ok; eauto. } { eapply init_norm; eauto. } { intros i _ []. }
    cbn in El. subst l'. eexists _, _, _. split; [reflexivity|]. split; [exact Hn|].
    intros l1 i m p l2 E. destruct (HD l1 i m p l2 E) as (v1 & X & Y & Z0). exists (map (wire h srcs) (inputs_of h i)), v1.
    split; [|auto]. eapply a_inputs; eauto. apply Hoi. rewrite <- Em, E, map_app. apply in_app_iff. right; left; auto.
  Qed.

  Lemma prefix_outcomes {A B} (P : A -> B -> Prop) l : forall l', length l = length l' ->
    (forall l1 x l2 l1' x' l2', l = l1 ++ x :: l2 -> l' = l1' ++ x' :: l2' -> Forall2 P l1 l1' -> P x x') -> Forall2 P l l'.
  Proof.
    intros l' Hl H. enough (G : forall l1 l1' l2 l2', l = l1 ++ l2 -> l' = l1' ++ l2' -> Forall2 P l1 l1' -> length l2 = length l2' -> Forall2 P l2 l2').
    { apply (G [] []); auto. }
    intros l1 l1' l2. revert l1 l1'. induction l2 as [|x l2 IH]; intros l1 l1' [|x' l2'] E E' F Hl2; cbn in Hl2; try discriminate; constructor.
    - eapply H; eauto.
    - apply (IH (l1 ++ [x]) (l1' ++ [x'])); [rewrite <- app_assoc; auto|rewrite <- app_assoc; auto| |congruence].
      apply Forall2_app; auto. constructor; auto. eapply H; eauto.
  Qed.
  Lemma select_unique n g (v v' : Z -> C) u m m' : (forall r, 0 <= r < 2 ^ n -> v' r = v r) -> selected n g v u m -> selected n g v' u m' -> m' = m.
  Proof.
    intros E (A1 & A2 & A3) (B1 & B2 & B3).
    assert (EB : forall k, below n (measured_order n g) v' k = below n (measured_order n g) v k).
    { intros k. unfold below. apply sum_ext. intros x _. apply L_Graph7.marginal_ext. exact E. }
    rewrite !EB in *.
    assert (G : forall a b, 0 <= a -> a < b -> rle u (below n (measured_order n g) v (a + 1)) -> rlt (below n (measured_order n g) v b) u -> False).
    { intros a b Ha Hab H1 H2. apply (rlt_irrefl u). eapply rle_lt_trans; [exact H1|].
      eapply rle_lt_trans; [|exact H2]. apply below_mono. lia. }
    destruct (Z.lt_total m m') as [H|[H|H]]; auto; exfalso; [eapply (G m m')|eapply (G m' m)]; eauto; lia.
  Qed.

  Lemma run_reaches h vis c l args srcs : session h vis c l -> splits_in_range h vis -> no_swap_dagger h vis ->
    incl args vis -> (forall args', In args' l -> same_qubits h args args') -> sources h args srcs ->
    let n := widths h srcs in circuit_ok h args srcs n -> gates_exact h args ->
    forall ev feed strict state init, enum_ok ev -> scheds_ok ev h n -> draws_ok ev -> initial h srcs n feed state init ->
    (forall g v, In (g, v) init -> total v = 1%r) -> (strict = true -> incl srcs (fed_nodes feed)) ->
    forall cm v', evolves (e_rsqrt ev) h srcs n cm (amp (map (fed_amp n init) (zrange 0 (2 ^ n)))) v' ->
    StronglySorted lt (map fst cm) -> (forall i, In i (map fst cm) <-> ancestor h args i) ->
    exists u c' st_ cm', draws_ok (with_draws ev u) /\ run (with_draws ev u) c h args feed strict state = (c', Ok (st_, cm')) /\ same_outcomes h cm cm'.
  Proof.
    intros S Hs Hsd Ha Hsame Hsrc n Hok Hg ev feed strict state init He Hsc Hdr HI Ht Hst cm v' E Hsort Hanc. pose proof (session_wf _ _ _ _ S) as W.
    pose proof (splits_anc h vis args W Ha Hs) as Hsp.
    assert (Hn0 : norm_of n (amp (map (fed_amp n init) (zrange 0 (2 ^ n)))) = 1%r) by (eapply init_norm; eauto).
    assert (Hnd : NoDup (map fst cm)) by (apply sorted_lt_NoDup; auto).
    destruct (draws_for h vis args srcs W Ha Hsp Hsrc ev Hok Hg Hdr cm _ v' E Hn0 Hnd) as (u & HU & HD); [intros i; apply Hanc|].
    exists u. set (ev' := with_draws ev u).
    assert (Hdr' : draws_ok ev') by (destruct Hdr as (_ & D2 & D3); split; [exact HU|split; assumption]).
    assert (He' : enum_ok ev') by exact He.
    assert (Hsc' : scheds_ok ev' h n) by exact Hsc.
    destruct (run_born h vis c l args srcs S Hs Hsd Ha Hsame Hsrc Hok Hg ev' feed strict state init He' Hsc' Hdr' HI Ht Hst) as (c' & st_ & cm' & Er & _ & HB).
    exists c', st_, cm'. split; auto. split; auto.
    destruct (run_top h vis c l args srcs S Hs Hsd Ha Hsame Hsrc Hok ev' feed strict state init He' Hsc' HI) as (RT & _ & _).
    destruct (RT _ _ _ Er) as (_ & Hsort' & Hanc' & E2). fold n in E2. change (e_rsqrt ev') with (e_rsqrt ev) in E2.
    assert (Hkeys : map fst cm = map fst cm').
    { apply sorted_lt_unique; auto. intros i. rewrite Hanc, Hanc'. tauto. }
    apply prefix_outcomes; [rewrite <- (map_length fst cm), Hkeys, map_length; auto|].
    intros l1 [i x] l2 l1' [i' x'] l2' Ec Ec' HF. cbn [fst snd].
    assert (Ei : i = i').
    { rewrite Ec, Ec', !map_app in Hkeys. cbn [map fst] in Hkeys.
      assert (Hl : length (map fst l1) = length (map fst l1')) by (rewrite !map_length; clear - HF; induction HF; cbn; congruence).
      assert (Hk := f_equal (fun z => nth_error z (length (map fst l1))) Hkeys). cbn beta in Hk.
      rewrite nth_error_app2, Nat.sub_diag in Hk by lia. rewrite Hl in Hk. rewrite nth_error_app2, Nat.sub_diag in Hk by lia. cbn in Hk. congruence. }
    subst i'. split; auto. intros Ek.
    assert (Hx : exists m p, x = CMeas m p).
    { rewrite Ec in E. destruct (evolves_app_inv srcs _ h n l1 _ _ _ E) as (v1 & _ & E1). inversion E1 as [|? ? ? ? ? ? ? ? S1]; subst. rewrite Ek in S1. inversion S1; eauto. }
    assert (Hx' : exists m p, x' = CMeas m p).
    { rewrite Ec' in E2. destruct (evolves_app_inv srcs _ h n l1' _ _ _ E2) as (v1 & _ & E1). inversion E1 as [|? ? ? ? ? ? ? ? S1]; subst. rewrite Ek in S1. inversion S1; eauto. }
    destruct Hx as (m & p & ->), Hx' as (m' & p' & ->).
    destruct (HD l1 i m p l2 Ec) as (v1 & E1 & S1 & P1). destruct (HB l1' i m' p' l2' Ec') as (gs & v1' & Hgs & E1' & S1' & P1').
    assert (Hai : ancestor h args i) by (apply Hanc; rewrite Ec, map_app; apply in_app_iff; right; left; auto).
    assert (Eg : gs = map (wire h srcs) (inputs_of h i)).
    { clear - Hgs Hai W Ha Hsp Hsrc. assert (Hin : forall j, In j (inputs_of h i) -> ancestor h args j) by (intros; eapply anc_input; eauto).
      induction Hgs as [|q g l gs Hq HF IH]; auto. cbn [map]. f_equal; [eapply wires_fun; eauto; apply Hin; left; auto|].
      apply IH. intros; apply Hin; right; auto. }
    subst gs. fold n in E1', S1', P1'. change (e_rand ev' i) with (u i) in S1'. change (e_rsqrt ev') with (e_rsqrt ev) in E1'.
    assert (Ev : forall r, 0 <= r < 2 ^ n -> v1 r = v1' r).
    { destruct (evolves_fun h vis args srcs W Ha Hsp Hsrc (e_rsqrt ev) Hok l1 _ v1 E1 l1' _ v1' E1') as [H _]; auto.
      intros j Hj. apply Hanc. rewrite Ec, map_app. apply in_app_iff. left; auto. }
    assert (m = m') as <- by (eapply (select_unique n _ v1' v1); eauto). rewrite P1, P1'. f_equal. apply L_Graph7.marginal_ext. exact Ev.
  Qed.
End Born.
