(** Circuits on the distributed backend: the job of a run, and the local run it corresponds to. *)
From Coq Require Import Sorted.
From Verif Require Import Base M_Bits S_Bits L_Bits M_Kron S_Kron L_Kron M_Ops S_Ops L_Ops1 L_Ops3 L_Ops4 M_Feed S_Feed L_Feed M_Func S_Func
  M_Pool S_Pool M_Net S_Net M_Worker S_Worker L_Worker10 L_Worker12 M_Proto S_Proto L_Proto M_Client L_Svg
  M_Measure S_Measure L_Measure1 L_Measure2 L_Measure3 L_Measure4 L_Alg
  M_Graph S_Graph L_Graph1 L_Graph2 L_Graph3 L_Graph4 L_Graph5 L_Graph6 L_Graph7 L_Graph8 S_Born L_Born M_DistRun S_DistRun L_DistRun1.

Section Job.
  Context {K : Type} {OK : OrdRing K}.
  Notation C := (Cx K).
  Add Ring KRingD2 : (@rth K _).
  Variables (h : heap K) (vis args : list nat) (srcs ord : list nat).
  Hypothesis W : wf h vis.
  Hypothesis Hargs : incl args vis.
  Hypothesis Hsplit : forall i idx k, ancestor h args i -> nd_kind (nd h i) = KSplit idx -> inputs_of h i <> [] -> In k idx -> 0 <= k < widths h (inputs_of h i).
  Hypothesis Hsrcs : sources h args srcs.
  Hypothesis HordIn : forall i, In i ord <-> ancestor h args i.
  Notation w := (wire h srcs).
  Notation n := (widths h srcs).
  Hypothesis Hok : circuit_ok h args srcs n.
  Hypothesis Hsend : sendable h args.
  Hypothesis Hg : gates_exact h args.
  Variable ev : M_Graph.env K.
  Hypothesis Hd : draws_ok ev.
  Variables (bq : Z) (pool : list entry).
  Hypothesis Hbq : 0 <= bq <= n.
  Hypothesis Ht : tiles (2 ^ n) pool.
  Hypothesis Hb : blocks (2 ^ bq) pool.
  Notation rsqrt := (M_Graph.e_rsqrt ev).
  Notation gsof := (fun i => map w (inputs_of h i)).

  Lemma fair_unit (r : K) : fair r -> rlt 0%r r /\ rle r 1%r.
  Proof. intros H. destruct (H 1%r (rlt_0_1 (K := K))) as [H1 H2]. replace (r * 1)%r with r in * by ring. auto. Qed.

  Lemma tprob_amp (b : backend K) : full_backend b -> bk_n b = n -> tprob (bk_state b) = norm_of n (amp (bk_state b)).
  Proof.
    intros (Hn & Hz & _) E. rewrite E in *. unfold norm_of, tprob, amp.
    rewrite (list_as_map 0%r (bk_state b)) at 1. rewrite sum_map, Hz. reflexivity.
  Qed.

  (** one node on one computer *)
  Lemma kron_local i o d (b : backend K) : ancestor h args i -> nd_kind (nd h i) = KMat o d -> full_backend b -> bk_n b = n ->
    exists ms b1, op_ms (op_eff o d) false (gsof i) = Ok ms /\ mats_wf n ms /\ bk_kronselect_dot (zrange 0 (2 ^ n)) b ms 0 0 = Ok b1 /\
      full_backend b1 /\ bk_n b1 = n /\ node_sem rsqrt n (gsof i) (amp (bk_state b)) (amp (bk_state b1)) (nd_kind (nd h i)) CZero.
  Proof.
    intros Hi Ek (Hn & Hst & Har) Hbn. rewrite Hbn in *.
    destruct (op_ms_eff h vis args srcs W Hargs Hsplit Hsrcs Hok i o d Hi Ek) as (_ & _ & Hf & ms & _ & Em & _).
    destruct (a_qubits_ok h vis args srcs W Hargs Hsplit Hsrcs Hok i Hi) as [Hq _]; [congruence|intros l; congruence|].
    assert (Hi2 : impl_sched_ok (Cython (zrange 0 (2 ^ n))) (zlen (bk_arena b))) by (cbn; rewrite Har; apply Permutation_refl).
    destruct (op_accepted n (op_eff o d) _ _ _ _ Hn Hf Hq Hst Har Hi2) as (ms2 & V & Em2 & Ev). rewrite Em in Em2. injection Em2 as <-.
    assert (Ha : applied n ms (bk_state b) V) by (split; auto; exists (bk_arena b), (Cython (zrange 0 (2 ^ n))); auto).
    destruct (op_mats_ok n (op_eff o d) _ Hn Hf Hq) as (ms3 & Em3 & Hwf & _). pose proof Em as Em'. apply op_ms_plain in Em'. rewrite Em' in Em3. injection Em3 as <-.
    exists ms. eexists. split; [exact Em|]. split; [exact Hwf|]. unfold bk_kronselect_dot. rewrite Hbn, Ev. cbn [bind]. split; [reflexivity|].
    split; [split; [exact Hn|cbn [bk_state bk_arena bk_n]; split; [apply (applied_spec n ms _ V Hn Hwf Ha)|exact Hst]]|]. split; [reflexivity|].
    rewrite Ek. cbn [bk_state]. destruct d; constructor; intros r Hr; cbn [op_eff] in *; eapply op_acts_ok; eauto.
  Qed.

  (** the job on one computer, with the outcomes the draws select *)
  Lemma local_fold : forall todo (b : backend K) (rs : list K) (dr : range -> list K), incl todo ord -> full_backend b -> bk_n b = n -> norm_of n (amp (bk_state b)) = 1%r ->
    length rs = length (ops_of h srcs todo) -> (forall r, In r rs -> fair r) ->
    (forall a, In (a, a) (map fst pool) -> (4 * length rs <= length (dr a))%nat /\ forall r, In r (dr a) -> fair r) ->
    exists lops results b', map (fun o => (wop_of (fst o), snd o)) lops = combine (ops_of h srcs todo) rs /\
      local_job rsqrt (map fst pool) dr b lops results b' /\ (forall o, In o lops -> lop_ok n (fst o)) /\
      length results = length rs /\ full_backend b' /\ bk_n b' = n /\
      evolves rsqrt h srcs n (answered h todo results) (amp (bk_state b)) (amp (bk_state b')).
  Proof.
    induction todo as [|i todo IH]; intros b rs dr Hi HB Hn H1 Hl Hr Hdr.
    - destruct rs; [|discriminate Hl]. exists [], [], b. split; [reflexivity|]. split; [constructor|]. split; [intros o []|]. split; [reflexivity|]. split; auto. split; auto. constructor. auto.
    - assert (Hai : ancestor h args i) by (apply HordIn, Hi; left; auto). assert (Hi' : incl todo ord) by (intros x Hx; apply Hi; right; auto).
      assert (Eo : ops_of h srcs (i :: todo) = node_ops h srcs i ++ ops_of h srcs todo) by reflexivity. rewrite Eo in *.
      assert (HF := a_inputs h vis args srcs W Hargs Hsplit Hsrcs i Hai). pose proof (Hsend i Hai) as Hs.
      assert (Silent : node_ops h srcs i = [] -> node_sem rsqrt n (gsof i) (amp (bk_state b)) (amp (bk_state b)) (nd_kind (nd h i)) CZero ->
        (forall ans, answered h (i :: todo) ans = (i, CZero) :: answered h todo ans) ->
        exists lops results b', map (fun o => (wop_of (fst o), snd o)) lops = combine (node_ops h srcs i ++ ops_of h srcs todo) rs /\
          local_job rsqrt (map fst pool) dr b lops results b' /\ (forall o, In o lops -> lop_ok n (fst o)) /\
          length results = length rs /\ full_backend b' /\ bk_n b' = n /\
          evolves rsqrt h srcs n (answered h (i :: todo) results) (amp (bk_state b)) (amp (bk_state b'))).
      { intros E0 S EA. rewrite E0 in *. cbn [app] in *. destruct (IH b rs dr Hi' HB Hn H1 Hl Hr Hdr) as (lops & results & b' & A1 & A2 & A3 & A4 & A5 & A6 & A7).
        exists lops, results, b'. repeat (split; [assumption|]). rewrite EA. econstructor; eauto. }
      destruct (nd_kind (nd h i)) as [|ix|o d|f| |k] eqn:Ek; try contradiction.
      + apply Silent; [unfold node_ops; rewrite Ek; reflexivity|constructor; auto|intros; cbn [answered]; rewrite Ek; reflexivity].
      + apply Silent; [unfold node_ops; rewrite Ek; reflexivity|constructor; auto|intros; cbn [answered]; rewrite Ek; reflexivity].
      + clear Silent. destruct (kron_local i o d b Hai Ek HB Hn) as (ms & b1 & Em & Hwf & Eb & HB1 & Hn1 & S).
        assert (En : node_ops h srcs i = [OKron ms]) by (unfold node_ops; rewrite Ek, Em; reflexivity). rewrite En in *. cbn [app] in *.
        destruct rs as [|r rs]; [discriminate Hl|]. cbn [length] in Hl, Hdr. injection Hl as Hl.
        assert (N1 : norm_of n (amp (bk_state b1)) = 1%r).
        { rewrite (sem_norm h vis args srcs W Hargs Hsplit Hsrcs ev Hok Hg i _ _ CZero Hai ltac:(congruence) S). exact H1. }
        destruct (IH b1 rs (fun a => skipn 2 (dr a)) Hi' HB1 Hn1 N1 Hl) as (lops & results & b' & A1 & A2 & A3 & A4 & A5 & A6 & A7).
        { intros x Hx. apply Hr. right; auto. }
        { intros a Ha. destruct (Hdr a Ha) as [D1 D2]. split; [rewrite skipn_length; lia|]. intros x Hx. apply D2. eapply in_skipn; eauto. }
        exists ((LKron ms (zrange 0 (2 ^ n)), r) :: lops), (None :: results), b'. split; [cbn [map fst snd wop_of combine]; rewrite A1; reflexivity|].
        split; [econstructor; eauto|]. split; [intros x [<-|Hx]; [split; [exact Hwf|apply Permutation_refl]|auto]|]. split; [cbn [length]; lia|]. split; auto. split; auto.
        cbn [answered]. rewrite Ek. cbn [tl]. econstructor; [exact HF|rewrite Ek in *; exact S|exact A7].
      + clear Silent. assert (En : node_ops h srcs i = [OMeasure (mkMeasure (concat (gsof i)) None false false 0)]) by (unfold node_ops; rewrite Ek; reflexivity).
        rewrite En in *. cbn [app] in *. destruct rs as [|r rs]; [discriminate Hl|]. cbn [length] in Hl, Hdr. injection Hl as Hl.
        destruct (a_qubits_ok h vis args srcs W Hargs Hsplit Hsrcs Hok i Hai) as [Hq _]; [congruence|intros l; congruence|].
        destruct (fair_unit r (Hr r (or_introl eq_refl))) as [U0 U1].
        pose proof (tprob_amp b HB Hn) as Etp. rewrite H1 in Etp.
        destruct (possible rsqrt n bq pool b (concat (gsof i)) r (fun a => nth 1 (dr a) 0%r) Hbq Ht Hb HB Hn Hq Etp U0 U1) as (a & m & p & b1 & Ha & Dr & Em & P0 & P1 & _).
        { intros a Ha Hpos. destruct (Hdr a Ha) as [D1 D2]. apply (D2 (nth 1 (dr a) 0%r)); [apply nth_In; lia|exact Hpos]. }
        rewrite <- Hn in Hq. destruct (measure_inv _ _ _ _ _ _ _ _ _ HB Hq Em) as (Hm & _ & Hp & Hp0 & HB1 & Hn1 & Hst). rewrite Hn in *.
        assert (S : node_sem rsqrt n (gsof i) (amp (bk_state b)) (amp (bk_state b1)) KMeasure (CMeas m p)).
        { apply sem_measure; auto.
          - rewrite Hp. unfold outcome. rewrite Hn. apply (marginal_ext' h srcs). intros z Hz. apply amp_amp_at.
          - intros x Hx. rewrite Hst. unfold amp at 1. rewrite znth_map_zrange by lia. unfold collapsed. rewrite Z.add_0_l, amp_amp_at. reflexivity. }
        destruct (meas_norm h vis args srcs W Hargs Hsplit Hsrcs ev Hok Hd i _ _ m p Hai Ek H1 S) as (N1 & _).
        destruct (IH b1 rs (fun a => skipn 4 (dr a)) Hi' HB1 Hn1 N1 Hl) as (lops & results & b' & A1 & A2 & A3 & A4 & A5 & A6 & A7).
        { intros x Hx. apply Hr. right; auto. }
        { intros a' Ha'. destruct (Hdr a' Ha') as [D1 D2]. split; [rewrite skipn_length; lia|]. intros x Hx. apply D2. eapply in_skipn; eauto. }
        exists ((LMeasure (concat (gsof i)), r) :: lops), (Some (inl (m, p)) :: results), b'. split; [cbn [map fst snd wop_of combine]; rewrite A1; reflexivity|].
        split.
        { econstructor; eauto; [|rewrite Hn; exact Dr]. destruct (Hdr a Ha) as [D1 _]. apply nth_error_nth'. lia. }
        split; [intros x [<-|Hx]; [exact Hq|auto]|]. split; [cbn [length]; lia|]. split; auto. split; auto.
        cbn [answered]. rewrite Ek. cbn [hd tl told]. econstructor; [exact HF|rewrite Ek in *; exact S|exact A7].
  Qed.
End Job.
