(** Execution of nodes and of runs. *)
From Coq Require Import Sorted.
From Verif Require Import Base S_Bits L_Bits M_Kron S_Kron M_Ops S_Ops L_Ops1 L_Ops2 L_Ops3 L_Ops4 M_Feed S_Feed L_Feed M_Func S_Func L_Func L_Func2
  M_Measure S_Measure L_Measure2 L_Measure3 L_Measure4 L_Measure5 L_Measure6 L_Alg M_Graph S_Graph L_Graph1 L_Graph2 L_Graph3 L_Graph4.

Section Exec.
  Context {K : Type} {OK : OrdRing K}.
  Notation C := (Cx K).
  Variables (h : heap K) (vis args : list nat) (srcs : list nat).
  Hypothesis W : wf h vis.
  Hypothesis Hargs : incl args vis.
  Hypothesis Hsplit : forall i idx k, ancestor h args i -> nd_kind (nd h i) = KSplit idx -> inputs_of h i <> [] ->
    In k idx -> 0 <= k < widths h (inputs_of h i).
  Hypothesis Hsrcs : sources h args srcs.
  Notation WF0 := (wf_base _ _ W).
  Notation w := (wire h srcs).
  Notation n := (widths h srcs).

  Lemma a_vis i : ancestor h args i -> In i vis.
  Proof. apply (anc_lt h vis args i W Hargs). Qed.
  Lemma a_size i : ancestor h args i -> (i < size h)%nat.
  Proof. intros H. apply (wf_vis _ _ W), a_vis, H. Qed.
  Lemma a_len i : ancestor h args i -> zlen (w i) = width h i.
  Proof. eapply w_len; eauto. Qed.
  Lemma a_wires i : ancestor h args i -> wires h srcs i (w i).
  Proof. eapply w_wires; eauto. Qed.
  Lemma a_inputs i : ancestor h args i -> Forall2 (wires h srcs) (inputs_of h i) (map w (inputs_of h i)).
  Proof.
    intros Hi. assert (G : forall l, incl l (inputs_of h i) -> Forall2 (wires h srcs) l (map w l)).
    { induction l as [|j l IHl]; cbn; intros Hl; constructor.
      - apply a_wires. eapply anc_input; eauto. apply Hl. left; auto.
      - apply IHl. intros x Hx. apply Hl. right. auto. }
    apply G, incl_refl.
  Qed.
  Lemma a_inlen i : ancestor h args i -> zlen (concat (map w (inputs_of h i))) = widths h (inputs_of h i).
  Proof. eapply w_inputs_len; eauto. Qed.

  Lemma widths_nonneg l : (forall i, In i l -> 0 <= width h i) -> 0 <= widths h l.
  Proof.
    induction l as [|a l IH]; intros H; [cbn; lia|]. rewrite widths_cons.
    pose proof (H a (or_introl eq_refl)). assert (0 <= widths h l) by (apply IH; intros; apply H; right; auto). lia.
  Qed.
  Lemma src_nonneg i : In i srcs -> 0 <= width h i.
  Proof. intros Hi. apply (proj2 Hsrcs) in Hi. apply (wf_nonneg _ _ W), a_vis. tauto. Qed.
  Lemma n_nonneg : 0 <= n.
  Proof. apply widths_nonneg. intros. apply src_nonneg; auto. Qed.

  (** wires are qubits of the state *)
  Lemma w_range i : ancestor h args i -> forall q, In q (w i) -> 0 <= q < n.
  Proof.
    enough (G : forall m i, (i < m)%nat -> ancestor h args i -> forall q, In q (w i) -> 0 <= q < n) by (intros Hi; apply (G (S i)); auto).
    clear i. induction m as [|m IH]; intros i Hm Hi q Hq; [lia|]. pose proof (a_size i Hi) as Hlt.
    assert (Hin : forall x, In x (concat (map w (inputs_of h i))) -> 0 <= x < n).
    { intros x Hx. apply in_concat in Hx. destruct Hx as (l & Hl & Hx). apply in_map_iff in Hl. destruct Hl as (j & <- & Hj).
      pose proof (wf_in h WF0 i j Hlt Hj). apply (IH j); auto; [lia|]. eapply anc_input; eauto. }
    pose proof (a_inlen i Hi) as El.
    rewrite wire_eq in Hq; [|apply WF0|auto]. destruct (inputs_of h i) as [|a l] eqn:E.
    - assert (Hs : In i srcs) by (apply Hsrcs; auto). apply in_split in Hs. destruct Hs as (l1 & l2 & E2).
      assert (Hnd : NoDup srcs) by (apply sorted_lt_NoDup, Hsrcs).
      rewrite (src_wire_eq h srcs l1 i l2 Hnd E2) in Hq. apply in_zrange in Hq.
      assert (0 <= widths h l1) by (apply widths_nonneg; intros; apply src_nonneg; rewrite E2; apply in_app_iff; auto).
      assert (0 <= widths h l2) by (apply widths_nonneg; intros; apply src_nonneg; rewrite E2; apply in_app_iff; right; right; auto).
      rewrite E2, widths_app, widths_cons. lia.
    - rewrite <- E in *. assert (Hne : inputs_of h i <> []) by (rewrite E; discriminate). pose proof (Hsplit i) as Hr.
      destruct (nd_kind (nd h i)) as [|ix| | | |]; cbn [sel] in Hq; auto.
      apply in_map_iff in Hq. destruct Hq as (k & <- & Hk). apply Hin. apply znth_in.
      specialize (Hr ix k Hi eq_refl Hne Hk). lia.
  Qed.
  Lemma in_range i : ancestor h args i -> forall q, In q (concat (map w (inputs_of h i))) -> 0 <= q < n.
  Proof.
    intros Hi x Hx. apply in_concat in Hx. destruct Hx as (l & Hl & Hx). apply in_map_iff in Hl. destruct Hl as (j & <- & Hj).
    apply (w_range j); auto. eapply anc_input; eauto.
  Qed.

  (** the relation of the specification determines the wires *)
  Lemma wires_fun i : forall ws, ancestor h args i -> wires h srcs i ws -> ws = w i.
  Proof.
    enough (G : forall m i ws, (i < m)%nat -> ancestor h args i -> wires h srcs i ws -> ws = w i) by (intros ws Hi; apply (G (S i)); auto).
    clear i. induction m as [|m IH]; intros i ws Hm Hi Hw; [lia|]. pose proof (a_size i Hi) as Hlt.
    assert (HF : forall gs, Forall2 (wires h srcs) (inputs_of h i) gs -> gs = map w (inputs_of h i)).
    { intros gs HF. assert (G : forall l gs, incl l (inputs_of h i) -> Forall2 (wires h srcs) l gs -> gs = map w l).
      { intros l gs' Hl H. revert Hl. induction H as [|j g l gs' Hj HF' IHl]; intros Hl; auto. cbn [map]. f_equal.
        - assert (Hji : In j (inputs_of h i)) by (apply Hl; left; auto).
          pose proof (wf_in h WF0 i j Hlt Hji). apply IH; auto; [lia|]. eapply anc_input; eauto.
        - apply IHl. intros x Hx. apply Hl. right; auto. }
      apply G; auto. apply incl_refl. }
    pose proof (a_inlen i Hi) as El. rewrite wire_eq; [|apply WF0|auto].
    inversion Hw as [l i' l' E|i' ix gs ws' Ek Hne HFi HFx|i' gs Hk Hne HFi]; subst i'.
    - assert (Hs : In i srcs) by (rewrite E; apply in_app_iff; right; left; auto).
      destruct (proj1 (proj2 Hsrcs i) Hs) as [_ ->].
      symmetry. eapply src_wire_eq; eauto. apply sorted_lt_NoDup, Hsrcs.
    - subst ws'. apply HF in HFi. subst gs. pose proof (Hsplit i ix) as Hr.
      destruct (inputs_of h i) as [|a l] eqn:E; [congruence|]. rewrite <- E in *. rewrite Ek. cbn [sel].
      clear Ek Hw.
      assert (G : forall l1 l2, Forall2 (fun k z => 0 <= k /\ nth_error (concat (map w (inputs_of h i))) (Z.to_nat k) = Some z) l1 l2 ->
        l2 = map (znth 0 (concat (map w (inputs_of h i)))) l1).
      { induction 1 as [|k z l1 l2 [H1 H2] _ IHl]; cbn; auto. f_equal; auto. rewrite znth_nth by auto.
        symmetry. apply nth_error_nth. auto. }
      apply G. auto.
    - apply HF in HFi. subst. destruct (inputs_of h i) as [|a l] eqn:E; [congruence|]. rewrite <- E in *.
      destruct (nd_kind (nd h i)) as [|ix| | | |]; cbn [sel]; auto. exfalso. eapply Hk. reflexivity.
  Qed.
  Lemma wires_inputs_fun i gs : ancestor h args i -> Forall2 (wires h srcs) (inputs_of h i) gs -> gs = map w (inputs_of h i).
  Proof.
    intros Hi HF. assert (G : forall l gs, incl l (inputs_of h i) -> Forall2 (wires h srcs) l gs -> gs = map w l).
    { intros l gs' Hl H. revert Hl. induction H as [|j g l gs' Hj HF' IHl]; intros Hl; auto. cbn [map]. f_equal.
      - apply wires_fun; auto. eapply anc_input; eauto. apply Hl. left; auto.
      - apply IHl. intros x Hx. apply Hl. right; auto. }
    apply G; auto. apply incl_refl.
  Qed.

  (** ** executable circuits *)
  Hypothesis Hok : circuit_ok h args srcs n.

  Lemma a_pos i : ancestor h args i -> 0 < width h i.
  Proof.
    enough (G : forall m i, (i < m)%nat -> ancestor h args i -> 0 < width h i) by (intros Hi; apply (G (S i)); auto).
    clear i. induction m as [|m IH]; intros i Hm Hi; [lia|]. pose proof (a_size i Hi) as Hlt.
    destruct (wf_pos _ _ W i (a_vis i Hi)) as [|Hk]; auto.
    pose proof (Hok i Hi) as Ho. unfold node_ok in Ho. rewrite Hk in Ho. destruct Ho as (Hne & _).
    unfold width. rewrite (wf_n h WF0 i Hlt Hne), Hk, sum_n_widths.
    destruct (inputs_of h i) as [|a l] eqn:E; [congruence|]. rewrite widths_cons.
    assert (Ha : In a (inputs_of h i)) by (rewrite E; left; auto).
    pose proof (wf_in h WF0 i a Hlt Ha). assert (0 < width h a) by (apply IH; [lia|]; eapply anc_input; eauto).
    assert (0 <= widths h l); [|lia]. apply widths_nonneg. intros j Hj. apply (wf_nonneg _ _ W).
    eapply (wf_closed _ _ W); [apply a_vis; eauto|]. rewrite E. right; auto.
  Qed.

  Lemma gate_op_fits g : forall inputs, inputs <> [] -> (forall i, In i inputs -> ancestor h args i) -> gate_fits h g inputs ->
    op_fits (gate_op h g inputs) (map w inputs).
  Proof.
    assert (Simple : forall inputs, inputs <> [] -> (forall i, In i inputs -> ancestor h args i) -> concat (map w inputs) <> []).
    { intros [|a l] Hne Ha; [congruence|]. cbn [map concat]. intros E. apply app_eq_nil in E. destruct E as [E _].
      pose proof (a_len a (Ha a (or_introl eq_refl))) as L. pose proof (a_pos a (Ha a (or_introl eq_refl))). rewrite E in L.
      change (zlen []) with 0 in L. lia. }
    induction g; intros inputs Hne Ha Hf; cbn [gate_op op_fits]; auto.
    - destruct Hf as (a & b & -> & E). exists (w a), (w b). cbn [map]. split; auto.
      split; rewrite a_len by (apply Ha; cbn; auto); [reflexivity|]. unfold width. auto.
    - destruct Hf as (c & rest & -> & Hr & Hc & Hd & Hg). cbn [map tl].
      assert (E : exists q, w c = [q]).
      { pose proof (a_len c (Ha c (or_introl eq_refl))) as L. unfold width in L. rewrite Hc in L.
        destruct (w c) as [|q [|q' l]]; [discriminate|eauto|]. rewrite !zlen_cons in L. pose proof (zlen_nonneg l). lia. }
      destruct E as (q & ->). exists q, (map w rest). split; auto. apply IHg; auto. intros i Hi. apply Ha. right; auto.
  Qed.

  Lemma a_qubits_ok i : ancestor h args i -> (nd_kind (nd h i) <> KQubit) -> (forall l, nd_kind (nd h i) <> KSplit l) ->
    qubits_ok n (concat (map w (inputs_of h i))) /\ inputs_of h i <> [].
  Proof.
    intros Hi H1 H2. pose proof (Hok i Hi) as Ho. unfold node_ok in Ho. pose proof (in_range i Hi) as Hr.
    pose proof (a_inputs i Hi) as HF.
    destruct (nd_kind (nd h i)) as [|l|o d|f| |k]; try congruence; try (exfalso; apply (H2 l); reflexivity);
      destruct Ho as (Hne & Hd & _); split; auto; split; auto.
  Qed.
  Lemma a_op_fits i o d : ancestor h args i -> nd_kind (nd h i) = KMat o d -> op_fits o (map w (inputs_of h i)).
  Proof.
    intros Hi E. destruct (a_qubits_ok i Hi) as [_ Hne]; [congruence|intros l; congruence|].
    pose proof (wf_kind _ _ W i (a_vis i Hi)) as Hk. unfold kind_ok in Hk. rewrite E in Hk. destruct Hk as (g & -> & Hg).
    apply gate_op_fits; auto. intros j Hj. eapply anc_input; eauto.
  Qed.

  (** caches hold the matrices for the wires of this circuit *)
  Definition cache_valid (c : cache K) : Prop := forall i o d ms, ancestor h args i -> nd_kind (nd h i) = KMat o d ->
    c i = Some ms -> op_ms o d (map w (inputs_of h i)) = Ok ms.
  Lemma cache0_valid : cache_valid cache0.
  Proof. intros i o d ms _ _ E. discriminate. Qed.

  Definition op_eff (o : op K) (d : bool) : op K := if d then op_adj o else o.
  Lemma op_ms_eff i o d : ancestor h args i -> nd_kind (nd h i) = KMat o d ->
    exists ms, makemats o (map w (inputs_of h i)) = Ok ms /\
      op_fits (op_eff o d) (map w (inputs_of h i)) /\
      exists ms', op_ms o d (map w (inputs_of h i)) = Ok ms' /\ op_ms (op_eff o d) false (map w (inputs_of h i)) = Ok ms' /\
        (d = true -> adj_ms ms = Ok ms') /\ (d = false -> ms' = ms).
  Proof.
    intros Hi Ek. pose proof (a_op_fits i o d Hi Ek) as Hf. destruct (a_qubits_ok i Hi) as [Hq _]; [congruence|intros l; congruence|].
    set (gs := map w (inputs_of h i)) in *.
    assert (Hz : exists v : list C, zlen v = 2 ^ n).
    { exists (map (fun _ => 0%r) (zrange 0 (2 ^ n))). rewrite zlen_map, zlen_zrange; [lia|]. apply Z.pow_nonneg. lia. }
    destruct Hz as (v & Hv).
    destruct (op_accepted n o gs v v Python n_nonneg Hf Hq Hv Hv I) as (ms & _ & Em & _).
    apply op_ms_plain in Em. exists ms. split; auto. destruct d; cbn [op_eff].
    - split; [apply op_adj_fits; auto|].
      pose proof (Hok i Hi) as Ho. unfold node_ok in Ho. rewrite Ek in Ho. destruct Ho as (_ & _ & Hs).
      pose proof (no_swap_mats o gs ms Hf (proj1 Hq) Hs Em) as Hns. pose proof (adj_ms_ok ms Hns) as Ea.
      eexists. split; [|split; [|split; [intros _; exact Ea|discriminate]]].
      + unfold op_ms. rewrite Em. cbn [bind]. exact Ea.
      + apply op_ms_plain. apply makemats_adj; auto.
    - split; auto. exists ms. split; [apply op_ms_plain; auto|]. split; [apply op_ms_plain; auto|]. split; [discriminate|auto].
  Qed.
  Lemma op_mats_ok' c i o d : cache_valid c -> ancestor h args i -> nd_kind (nd h i) = KMat o d ->
    exists c' ms, op_mats c i o d (map w (inputs_of h i)) = (c', Ok ms) /\ cache_valid c' /\
      op_ms (op_eff o d) false (map w (inputs_of h i)) = Ok ms.
  Proof.
    intros Hc Hi Ek. destruct (op_ms_eff i o d Hi Ek) as (ms & Em & Hf & ms' & E1 & E2 & E3 & E4). unfold op_mats.
    destruct (c i) as [m|] eqn:Ec.
    - exists c, m. split; auto. split; auto. rewrite (Hc i o d m Hi Ek Ec) in E1. inversion E1; subst. auto.
    - rewrite Em. assert (Hv : cache_valid (cache_set c i ms')).
      { intros j oj dj mj Hj Ekj. unfold cache_set. destruct (Nat.eqb_spec j i) as [->|]; [|apply Hc; auto].
        intros E. inversion E; subst. rewrite Ek in Ekj. inversion Ekj; subst. auto. }
      destruct d.
      + rewrite (E3 eq_refl). exists (cache_set (cache_set c i ms) i ms'), ms'. split; auto. split; auto.
        intros j oj dj mj Hj Ekj E. apply (Hv j oj dj mj Hj Ekj). unfold cache_set in *. destruct (Nat.eqb j i); auto.
      + rewrite (E4 eq_refl) in *. exists (cache_set c i ms), ms. auto.
  Qed.

  (** ** one node *)
  Variable ev : env K.
  Hypothesis Hsched : scheds_ok ev h n.

  Definition acc_ok (a : acc K) : Prop := full_backend (a_back a) /\ bk_n (a_back a) = n /\ cache_valid (a_cache a).
  Definition amps (a : acc K) : Z -> C := amp (bk_state (a_back a)).
  Definition step_result (a : acc K) (i : nat) (a' : acc K) : Prop :=
    acc_ok a' /\ exists cv, a_cm a' = odict_set (a_cm a) i cv /\
      node_sem (e_rsqrt ev) n (map w (inputs_of h i)) (amps a) (amps a') (nd_kind (nd h i)) cv.

  Lemma amp_amp_at (v : list C) x : amp_at 0 v x = amp v x.
  Proof. unfold amp_at, amp. f_equal. lia. Qed.
  Lemma marginal_ext' g (f f' : Z -> C) m : (forall x, 0 <= x < 2 ^ n -> f x = f' x) -> marginal n g f m = marginal n g f' m.
  Proof. intros H. unfold marginal. apply sum_ext. intros x Hx. apply in_zrange in Hx. rewrite H by auto. reflexivity. Qed.

  Lemma node_total i a : ancestor h args i -> nd_kind (nd h i) <> KMeasure -> acc_ok a ->
    exists a', node_feed ev h a i (map w (inputs_of h i)) = (a', Ok tt) /\ step_result a i a'.
  Proof.
    intros Hi Hnm (Hb & Hbn & Hc). unfold node_feed. pose proof (Hok i Hi) as Ho. unfold node_ok in Ho.
    pose proof (Hsched i) as Hs. destruct (nd_kind (nd h i)) as [|ix|o d|func| |k] eqn:Ek; try congruence.
    - eexists. split; [reflexivity|]. split; [split; auto|]. exists CZero. split; auto. rewrite Ek. constructor. auto.
    - eexists. split; [reflexivity|]. split; [split; auto|]. exists CZero. split; auto. rewrite Ek. constructor. auto.
    - destruct (op_mats_ok' (a_cache a) i o d Hc Hi Ek) as (c' & ms & -> & Hc' & Em).
      destruct (op_ms_eff i o d Hi Ek) as (_ & _ & Hf & _).
      destruct (a_qubits_ok i Hi) as [Hq _]; [congruence|intros l; congruence|].
      unfold bk_kron. destruct Hb as (Hn & Hst & Har). rewrite Hbn in *.
      assert (Hi2 : impl_sched_ok (Cython (e_sched ev i)) (zlen (bk_arena (a_back a)))) by (cbn; rewrite Har; auto).
      destruct (op_accepted n (op_eff o d) _ _ _ _ Hn Hf Hq Hst Har Hi2) as (ms2 & V & Em2 & Ev).
      rewrite Em in Em2. inversion Em2; subst ms2. rewrite Ev. cbn [bind].
      assert (Ha : applied n ms (bk_state (a_back a)) V) by (split; auto; exists (bk_arena (a_back a)), (Cython (e_sched ev i)); auto).
      eexists. split; [reflexivity|]. split.
      + split; [|split; auto]. split; [auto|]. cbn [a_back bk_state bk_arena bk_n]. split; auto.
        destruct (op_mats_ok n (op_eff o d) _ Hn Hf Hq) as (ms3 & Em3 & Hwf & _). apply op_ms_plain in Em. rewrite Em in Em3.
        inversion Em3; subst ms3. apply (applied_spec n ms _ V Hn Hwf Ha).
      + exists CZero. split; auto. rewrite Ek. unfold amps. cbn [a_back bk_state].
        destruct d; constructor; intros r Hr; cbn [op_eff] in *; eapply op_acts_ok; eauto.
    - destruct Ho as (Hne & Hd & Hfn).
      pose proof (wf_kind _ _ W i (a_vis i Hi)) as Hk. unfold kind_ok in Hk. rewrite Ek in Hk. destruct Hk as (x & y & Ein).
      destruct (a_qubits_ok i Hi) as [Hq _]; [congruence|intros l; congruence|].
      pose proof (a_inputs i Hi) as HF. rewrite Ein in *. cbn [map concat] in *. rewrite app_nil_r in Hq.
      destruct (Hfn (w x) (w y) HF) as (Hoth & f & Hfun).
      unfold fop_feed. change (pyget [w x; w y] 0) with (Ok (w x)). change (pyget [w x; w y] 1) with (Ok (w y)). cbn [bind].
      assert (Hlx : zlen (w x) = width h x) by (apply a_len; eapply anc_input; eauto; rewrite Ein; left; auto).
      cbn [hd] in Hs. destruct Hs as [Hs Ht]. rewrite <- Hlx in Hs. rewrite <- Hbn in Hoth, Hq.
      assert (Hoth' : zlen (others (bk_n (a_back a)) (w x) (w y)) = zlen (w y) \/ zlen (others (bk_n (a_back a)) (w x) (w y)) <= zlen (w y) /\ harmless (e_mach ev) (bk_n (a_back a)) (others (bk_n (a_back a)) (w x) (w y))).
      { destruct Hoth as [Hoth|Hoth]; [left; exact Hoth|rewrite Hoth; right; split; [apply zlen_nonneg|apply tame_harmless, Ht]]. }
      destruct (bk_func_ok (e_mach ev) (e_sched ev i) (a_back a) (w x) (w y) f func (a_n a) 0 Hb Hq Hoth' Hs Hfun) as (b' & Eb & Hb' & Hn' & Hact & _).
      rewrite Eb. eexists. split; [reflexivity|]. split; [split; [auto|split; [cbn; congruence|auto]]|].
      exists CZero. split; auto. rewrite Ek. apply (sem_f _ _ _ _ _ func f (w x) (w y)); auto; [rewrite Ein; auto|]. intros z Hz. unfold amps. cbn [a_back].
      rewrite Hbn in Hact. specialize (Hact z Hz). rewrite !amp_amp_at in Hact. auto.
    - destruct Ho as (Hne & Hd & Htop). destruct (a_qubits_ok i Hi) as [Hq _]; [congruence|intros l; congruence|].
      pose proof (a_inlen i Hi) as Hl. rewrite <- Hbn in Hq. destruct (Z.eq_dec k 0) as [->|Hk0].
      + rewrite (probs_ok (a_back a) (concat (map w (inputs_of h i))) Hb Hq).
        eexists. split; [reflexivity|]. split; [split; auto|]. eexists. split; [reflexivity|]. rewrite Ek. apply sem_probs; auto.
        rewrite Hbn. apply map_ext. intros m. apply marginal_ext'. intros z Hz. apply amp_amp_at.
      + destruct Htop as [|Htop]; [congruence|]. rewrite <- Hl in Htop.
        destruct (top_all_bk (a_back a) (concat (map w (inputs_of h i))) k Hb Hq Htop) as (l & El & Hp & Hdec).
        rewrite El. eexists. split; [reflexivity|]. split; [split; auto|]. eexists. split; [reflexivity|]. rewrite Ek. apply sem_top; auto.
        etransitivity; [exact Hp|]. apply Permutation_refl'. apply map_ext. intros m. f_equal. unfold outcome. rewrite Hbn.
        apply marginal_ext'. intros z Hz. apply amp_amp_at.
  Qed.

  Lemma node_partial i a a' : ancestor h args i -> acc_ok a ->
    node_feed ev h a i (map w (inputs_of h i)) = (a', Ok tt) -> step_result a i a'.
  Proof.
    intros Hi Ha E. assert (Hm : nd_kind (nd h i) = KMeasure \/ nd_kind (nd h i) <> KMeasure).
    { destruct (nd_kind (nd h i)); auto; right; discriminate. }
    destruct Hm as [Ek|Hnm].
    - destruct Ha as (Hb & Hbn & Hc). destruct (a_qubits_ok i Hi) as [Hq _]; [congruence|intros l; congruence|].
      unfold node_feed in E. rewrite Ek in E. destruct (bk_measure _ _ _ _ _ _ _ _ _) as [[[m p] b']|e] eqn:Em; [|discriminate].
      inversion E; subst a'. rewrite <- Hbn in Hq.
      destruct (measure_inv _ _ _ _ _ _ _ _ _ Hb Hq Em) as (Hm & _ & Hp & Hp0 & Hb' & Hn' & Hst).
      split; [split; [auto|split; [cbn; congruence|auto]]|]. eexists. split; [reflexivity|]. rewrite Ek. apply sem_measure; auto.
      + rewrite Hp. unfold outcome. rewrite Hbn. apply marginal_ext'. intros z Hz. apply amp_amp_at.
      + intros r Hr. unfold amps. cbn [a_back]. rewrite Hst. unfold amp at 1. rewrite Hbn.
        rewrite znth_map_zrange by lia. unfold collapsed. rewrite Z.add_0_l, amp_amp_at. reflexivity.
    - destruct (node_total i a Hi Hnm Ha) as (a'' & E' & R). rewrite E in E'. inversion E'; subst. auto.
  Qed.
End Exec.
