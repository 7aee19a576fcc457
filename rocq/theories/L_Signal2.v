(** Measurements and operations elsewhere. *)
From Coq Require Import Sorted Reals.
From Verif Require Import Base BaseR S_Bits L_Bits M_Kron S_Kron M_Ops S_Ops L_Ops1 L_Ops3 L_Ops4 M_Feed S_Feed L_Feed L_Feed2 M_Func S_Func L_Func L_Func2
  M_Measure S_Measure L_Measure1 L_Measure2 L_Measure3 L_Measure4 L_Measure6 L_Alg M_Graph S_Graph L_Graph1 L_Graph2 L_Graph3 L_Graph4 L_Graph5 L_Graph6
  L_Graph7 L_Graph8 L_Graph9 L_Graph10 L_Graph11 L_Grow1 S_Born L_Born S_Signal L_Signal.
Local Open Scope Z_scope.

Section Signal2.
  Context {K : Type} {OK : OrdRing K}.
  Notation C := (Cx K).
  Add Ring KRingS2 : (@rth K _).
  Add Ring CRingS2 : (@rth C _).

  (** ** runs *)
  Lemma run_signal h vis c l args srcs : session h vis c l -> splits_in_range h vis -> no_swap_dagger h vis ->
    incl args vis -> (forall args', In args' l -> same_qubits h args args') -> sources h args srcs ->
    let n := widths h srcs in circuit_ok h args srcs n -> gates_exact h args ->
    forall ev feed strict state init, enum_ok ev -> scheds_ok ev h n -> initial h srcs n feed state init ->
    let v0 := amp (map (fed_amp n init) (zrange 0 (2 ^ n))) in
    forall c' st_ cm l1 l2 g, run ev c h args feed strict state = (c', Ok (st_, cm)) -> cm = l1 ++ l2 ->
    in_range n g -> (forall i, In i (map fst l1) -> leaves_alone h srcs g i) ->
    (l2 = [] -> forall m, marginal n g (amp st_) m = marginal n g v0 m) /\
    (forall i m p l3, l2 = (i, CMeas m p) :: l3 -> forall groups, Forall2 (wires h srcs) (inputs_of h i) groups ->
       incl (concat groups) g -> p = marginal n (measured_order n (concat groups)) v0 m) /\
    (forall i ps l3, l2 = (i, CProbs (inl ps)) :: l3 -> forall groups, Forall2 (wires h srcs) (inputs_of h i) groups ->
       incl (concat groups) g -> ps = map (marginal n (rev (concat groups)) v0) (zrange 0 (2 ^ zlen (concat groups)))).
  Proof.
    intros S Hs Hsd Ha Hsame Hsrc n Hok Hg ev feed strict state init He Hsc HI v0 c' st_ cm l1 l2 g Er Ecm Hr Hl.
    pose proof (session_wf _ _ _ _ S) as W. pose proof (splits_anc h vis args W Ha Hs) as Hsp.
    destruct (run_top h vis c l args srcs S Hs Hsd Ha Hsame Hsrc Hok ev feed strict state init He Hsc HI) as (Hrun & _).
    destruct (Hrun c' st_ cm Er) as (Hz & Hsort & Hin & Hev). subst cm.
    destruct (evolves_app h srcs (e_rsqrt ev) l1 l2 _ _ Hev) as (v1 & E1 & E2).
    assert (Han : forall i, In i (map fst l1) -> ancestor h args i) by (intros i Hi; apply Hin; rewrite map_app; apply in_app_iff; auto).
    assert (G : forall g', in_range n g' -> incl g' g -> forall m, marginal n g' v1 m = marginal n g' v0 m).
    { intros g' Hr' Hi' m. apply (evolves_marginal h vis args srcs W Ha Hsp Hsrc Hok Hg (e_rsqrt ev) g' m Hr' l1 v0 v1 E1 Han).
      intros i Hi. destruct (Hl i Hi) as [X Y]. split; [exact X|]. intros groups HF q Hq. apply (Y groups HF). auto. }
    split; [|split].
    - intros -> m. remember (@nil (nat * cval K)) as L eqn:EL. destruct E2 as [u u' H|]; [|discriminate].
      rewrite (L_Measure3.marginal_ext n g _ _ m H). apply G; [exact Hr|apply incl_refl].
    - intros i m p l3 -> groups HF Hig. remember ((i, CMeas m p) :: l3) as L eqn:EL. destruct E2 as [|i' cv' l' groups' u u1 u' HF' S' E']; [discriminate|].
      injection EL as -> -> ->.
      assert (Hi : ancestor h args i) by (apply Hin; rewrite map_app; apply in_app_iff; right; left; auto).
      rewrite (wires_inputs_fun h vis args srcs W Ha Hsp Hsrc i groups' Hi HF') in S'.
      rewrite (wires_inputs_fun h vis args srcs W Ha Hsp Hsrc i groups Hi HF) in *.
      inversion S' as [| | | | |m' p' Hm' Hp' Hp0 Hv| |]; subst. apply G.
      + intros q Hq. unfold measured_order in Hq. apply filter_In in Hq. apply in_zrange. tauto.
      + intros q Hq. unfold measured_order in Hq. apply filter_In in Hq. destruct Hq as [_ Hq]. apply existsb_exists in Hq.
        destruct Hq as (x & Hx & Ex). apply Z.eqb_eq in Ex. subst x. auto.
    - intros i ps l3 -> groups HF Hig. remember ((i, CProbs (inl ps)) :: l3) as L eqn:EL. destruct E2 as [|i' cv' l' groups' u u1 u' HF' S' E']; [discriminate|].
      injection EL as -> -> ->.
      assert (Hi : ancestor h args i) by (apply Hin; rewrite map_app; apply in_app_iff; right; left; auto).
      rewrite (wires_inputs_fun h vis args srcs W Ha Hsp Hsrc i groups' Hi HF') in S'.
      rewrite (wires_inputs_fun h vis args srcs W Ha Hsp Hsrc i groups Hi HF) in *.
      inversion S' as [| | | | | |ps' Hv Hps|]; subst. apply map_ext. intros m. apply G.
      + intros q Hq. apply in_rev in Hq. apply Hr, Hig. auto.
      + intros q Hq. apply in_rev in Hq. auto.
  Qed.

  (** to check [leaves_alone] on examples *)
  Lemma leaves_check (h : heap K) vis args srcs g i : built h vis -> incl args vis -> splits_in_range h vis -> sources h args srcs -> ancestor h args i ->
    nd_kind (nd h i) <> KMeasure -> (forall q, In q g -> ~ In q (node_changes (nd_kind (nd h i)) (map (wire h srcs) (inputs_of h i)))) ->
    leaves_alone h srcs g i.
  Proof.
    intros B Ha Hs Hsrc Hi Hk H. pose proof (built_wf _ _ B) as W. pose proof (splits_anc h vis args W Ha Hs) as Hsp. split; auto.
    intros groups HF. rewrite (wires_inputs_fun h vis args srcs W Ha Hsp Hsrc i groups Hi HF). exact H.
  Qed.

  (** ** measuring without looking *)
  Lemma measure_average rsqrt u acc0 (b : backend K) indices g v (post : Z -> backend K) :
    full_backend b -> qubits_ok (bk_n b) indices ->
    (forall m, 0 <= m < 2 ^ zlen indices -> outcome b indices m <> 0%r ->
       (rsqrt (outcome b indices m) * rsqrt (outcome b indices m) * outcome b indices m = 1)%r /\
       bk_measure rsqrt u acc0 b indices (Some m) None 0 0 = Ok ((m, outcome b indices m), post m)) ->
    sum (zrange 0 (2 ^ zlen indices))
      (fun m => (outcome b indices m * marginal (bk_n b) g (amp_at 0 (bk_state (post m))) v)%r)
    = marginal (bk_n b) g (amp_at 0 (bk_state b)) v.
  Proof.
    intros HB HI H. set (n := bk_n b) in *. set (mo := measured_order n indices). set (f := amp_at 0 (bk_state b)).
    transitivity (sum (zrange 0 (2 ^ zlen indices)) (fun m => marginal n g (proj n mo m f) v)).
    - apply sum_ext. intros m Hm. apply in_zrange in Hm. destruct (reqb (outcome b indices m) 0%r) eqn:E0.
      + apply reqb_eq in E0. rewrite E0. transitivity (0%r : K); [ring|]. symmetry. apply sum_zero. intros x Hx.
        destruct (reg n g x =? v); auto. unfold outcome in E0. fold n mo f in E0.
        assert (Z0 : (if reg n mo x =? m then cnorm2 (f x) else 0%r) = 0%r).
        { apply (sum_zero_inv (zrange 0 (2 ^ n)) (fun x => if reg n mo x =? m then cnorm2 (f x) else 0%r)); auto.
          intros y _. destruct (reg n mo y =? m); [apply cnorm2_nonneg|apply rle_refl]. }
        unfold proj. destruct (reg n mo x =? m); auto. apply cnorm2_0.
      + apply reqb_neq in E0. destruct (H m Hm E0) as [Hs Em].
        destruct (measure_inv _ _ _ _ _ _ _ _ _ HB HI Em) as (_ & _ & _ & _ & _ & _ & Es). fold n in Es.
        rewrite (L_Measure3.marginal_ext n g _ (collapsed n indices m (rsqrt (outcome b indices m)) f)).
        2:{ intros x Hx. rewrite Es. apply (amp_at_map n nil). auto. }
        unfold marginal. rewrite <- sum_mul_l. apply sum_ext. intros x _. destruct (reg n g x =? v); [|ring].
        unfold collapsed, proj. fold mo. destruct (reg n mo x =? m).
        * rewrite cnorm2_scale. set (P := outcome b indices m) in *. set (s := rsqrt P) in *.
          transitivity ((s * s * P) * cnorm2 (f x))%r; [ring|]. rewrite Hs. ring.
        * rewrite cnorm2_0. ring.
    - unfold marginal. rewrite sum_swap. apply sum_ext. intros x _. destruct (reg n g x =? v).
      + rewrite (sum_single _ (reg n mo x)).
        * unfold proj. rewrite Z.eqb_refl. reflexivity.
        * apply zrange_nodup.
        * apply in_zrange. pose proof (reg_range n mo x). unfold mo in *. rewrite (zlen_mo n indices HI) in *. auto.
        * intros m _ Hm. unfold proj. destruct (Z.eqb_spec (reg n mo x) m); [congruence|]. apply cnorm2_0.
      + apply sum_zero. auto.
  Qed.

  (** ** equal probabilities, equal outcomes *)
  Lemma soft_same n indices (vec vec' : list C) u acc0 meas : 0 <= n -> qubits_ok n indices ->
    slice_ok n 0 vec -> slice_ok n 0 vec' -> bad_measured indices meas = false ->
    (forall m, marginal n (measured_order n indices) (amp_at 0 vec') m = marginal n (measured_order n indices) (amp_at 0 vec) m) ->
    soft_measure u acc0 indices n vec' meas 0 = soft_measure u acc0 indices n vec meas 0.
  Proof.
    intros Hn HI HS HS' HBm HP. destruct meas as [m|].
    { cbn [bad_measured] in HBm. rewrite !soft_forced by (auto; lia). rewrite HP. reflexivity. }
    assert (HB : forall j, below n (measured_order n indices) (amp_at 0 vec') j = below n (measured_order n indices) (amp_at 0 vec) j).
    { intros j. unfold below. apply sum_ext. auto. }
    assert (HT : tprob vec' = tprob vec).
    { rewrite <- (B_all n indices 0 vec), <- (B_all n indices 0 vec') by auto. apply HB. }
    destruct (soft_free n indices 0 vec Hn HI HS u acc0) as (m & Hm & E & A & D).
    destruct (soft_free n indices 0 vec' Hn HI HS' u acc0) as (m' & Hm' & E' & A' & D').
    rewrite E, E'. rewrite HT in A', D'. assert (m' = m) as ->.
    { destruct (Z.lt_trichotomy m m') as [L|[L|L]]; auto; exfalso.
      - destruct D as [D|D]; [|lia]. specialize (A' m ltac:(lia)). rewrite HB in A'. apply rlt_not_le in A'. auto.
      - destruct D' as [D'|D']; [|lia]. specialize (A m' ltac:(lia)). rewrite HB in D'. apply rlt_not_le in A. auto. }
    rewrite HP. reflexivity.
  Qed.
  Lemma measure_same rsqrt u acc0 (b b' : backend K) indices meas : full_backend b -> full_backend b' -> bk_n b' = bk_n b ->
    qubits_ok (bk_n b) indices ->
    (forall m, outcome b' indices m = outcome b indices m) ->
    match bk_measure rsqrt u acc0 b indices meas None 0 0 with
    | Ok ((m, p), _) => exists b2, bk_measure rsqrt u acc0 b' indices meas None 0 0 = Ok ((m, p), b2)
    | Raise e => bk_measure rsqrt u acc0 b' indices meas None 0 0 = Raise e
    end.
  Proof.
    intros HB HB' En HI HP. pose proof (full_slice b HB) as HS. pose proof (full_slice_out b HB) as HA.
    pose proof (full_slice b' HB') as HS'. pose proof (full_slice_out b' HB') as HA'.
    destruct HB as (Hn & Hs & Ha). destruct HB' as (Hn' & Hs' & Ha'). unfold bk_measure. unfold outcome in HP. rewrite En in *.
    destruct (bad_measured indices meas) eqn:Bm.
    { unfold measure. rewrite Bm. reflexivity. }
    destruct (choose_ok (bk_n b) indices 0 (bk_state b) u acc0 meas Hn HI HS Bm) as (m0 & Hm0 & Hf & Es).
    set (p0 := marginal _ _ _ m0) in Es.
    assert (Ec : choose u acc0 indices (bk_n b) (bk_state b) meas None 0 = Ok (m0, p0)).
    { unfold choose. destruct meas; auto. }
    assert (Ec' : choose u acc0 indices (bk_n b) (bk_state b') meas None 0 = Ok (m0, p0)).
    { rewrite <- Es, <- (soft_same (bk_n b) indices (bk_state b) (bk_state b') u acc0 meas) by auto. unfold choose. destruct meas; auto. }
    destruct (reqb p0 0%r) eqn:Z0.
    - apply reqb_eq in Z0. rewrite Z0 in Ec, Ec'.
      rewrite (proj1 (measure_zero (bk_n b) indices rsqrt u acc0 0 0 _ (bk_arena b) meas None m0 Bm eq_refl Ec)).
      rewrite (proj1 (measure_zero (bk_n b) indices rsqrt u acc0 0 0 _ (bk_arena b') meas None m0 Bm eq_refl Ec')). reflexivity.
    - apply reqb_neq in Z0.
      rewrite (measure_ok (bk_n b) indices Hn HI rsqrt u acc0 0 0 _ (bk_arena b) meas None m0 p0) by auto.
      rewrite (measure_ok (bk_n b) indices Hn HI rsqrt u acc0 0 0 _ (bk_arena b') meas None m0 p0) by auto.
      cbn [bind fst snd]. eexists. reflexivity.
  Qed.

  (** ** ops and measurements commute *)
  Lemma kron_op (b : backend K) o groups mats sched : full_backend b -> op_fits o groups -> qubits_ok (bk_n b) (concat groups) ->
    op_ms o false groups = Ok mats -> Permutation sched (zrange 0 (2 ^ bk_n b)) ->
    exists b1, bk_kron sched b mats = Ok b1 /\ full_backend b1 /\ bk_n b1 = bk_n b /\
      forall r, 0 <= r < 2 ^ bk_n b -> amp_at 0 (bk_state b1) r = op_acts (bk_n b) o groups (amp_at 0 (bk_state b)) r.
  Proof.
    intros (Hn & Hst & Har) Hf Hq Em Hs.
    assert (Hi2 : impl_sched_ok (Cython sched) (zlen (bk_arena b))) by (cbn; rewrite Har; auto).
    destruct (op_accepted (bk_n b) o groups _ _ _ Hn Hf Hq Hst Har Hi2) as (ms2 & V & Em2 & Ev).
    rewrite Em in Em2. inversion Em2; subst ms2. unfold bk_kron. rewrite Ev. cbn [bind].
    assert (Ha : applied (bk_n b) mats (bk_state b) V) by (split; auto; exists (bk_arena b), (Cython sched); auto).
    eexists. split; [reflexivity|].
    destruct (op_mats_ok (bk_n b) o groups Hn Hf Hq) as (ms3 & Em3 & Hwf & _). pose proof Em as Em'. apply op_ms_plain in Em'. rewrite Em' in Em3.
    inversion Em3; subst ms3. destruct (applied_spec (bk_n b) mats _ V Hn Hwf Ha) as (_ & HV & _).
    split; [split; [auto|cbn [bk_n bk_state bk_arena]; auto]|]. split; auto. intros r Hr. cbn [bk_state].
    transitivity (amp V r); [unfold amp_at, amp; f_equal; lia|]. rewrite (op_acts_ok (bk_n b) o groups mats _ V Hn Hf Hq Em Ha r Hr).
    apply (op_acts_ext (bk_n b) Hn); auto; [apply Hq|]. intros x Hx. unfold amp_at, amp. f_equal. lia.
  Qed.
  Lemma proj_collapsed n indices m s (f : Z -> C) r : collapsed n indices m s f r = (creal s * proj n (measured_order n indices) m f r)%r.
  Proof. unfold collapsed, proj. destruct (_ =? m); ring. Qed.
  Lemma op_acts_scale n o a : forall groups (f : Z -> C) r, op_acts n o groups (fun x => a * f x)%r r = (a * op_acts n o groups f r)%r.
  Proof.
    assert (G : forall ga qs (f : Z -> C) r, apply_each n ga qs (fun x => a * f x)%r r = (a * apply_each n ga qs f r)%r).
    { intros ga qs f. unfold apply_each. induction qs as [|q qs IH]; cbn [fold_right]; auto. intros r.
      unfold apply1 at 1 3. destruct ga as [[[x y] z] t]. rewrite !IH. destruct (qbit n r q); ring. }
    induction o as [| | |x|e|k|o IH]; intros groups f r; cbn [op_acts]; try apply G; auto. destruct (forallb _ _); auto.
  Qed.
  Lemma mo_in n indices q : In q (measured_order n indices) -> 0 <= q < n /\ In q indices.
  Proof.
    intros H. apply filter_In in H. destruct H as [H1 H2]. apply in_zrange in H1. split; auto. apply existsb_exists in H2.
    destruct H2 as (x & Hx & Ex). apply Z.eqb_eq in Ex. subst x. auto.
  Qed.
  Lemma list_full (l l' : list C) N : zlen l = N -> zlen l' = N -> (forall x, 0 <= x < N -> amp_at 0 l x = amp_at 0 l' x) -> l = l'.
  Proof.
    intros H H' E. apply list_eq_znth with (d := 0%r); [lia|]. intros i Hi. specialize (E i ltac:(lia)). unfold amp_at in E.
    rewrite !Z.sub_0_r in E. exact E.
  Qed.
  Lemma op_measure rsqrt u acc0 (b : backend K) o groups mats sched sched' indices meas : full_backend b -> op_fits o groups ->
    qubits_ok (bk_n b) (concat groups) -> op_scalars_ok o -> op_ms o false groups = Ok mats -> qubits_ok (bk_n b) indices ->
    (forall q, In q indices -> ~ In q (op_changes o groups)) ->
    Permutation sched (zrange 0 (2 ^ bk_n b)) -> Permutation sched' (zrange 0 (2 ^ bk_n b)) ->
    exists b1, bk_kron sched b mats = Ok b1 /\
    (bk_measure_probabilities b1 indices 0 = bk_measure_probabilities b indices 0) /\
    match bk_measure rsqrt u acc0 b indices meas None 0 0 with
    | Ok ((m, p), b1') => exists b2 b2', bk_measure rsqrt u acc0 b1 indices meas None 0 0 = Ok ((m, p), b2) /\
        bk_kron sched' b1' mats = Ok b2' /\ bk_state b2' = bk_state b2
    | Raise e => bk_measure rsqrt u acc0 b1 indices meas None 0 0 = Raise e
    end.
  Proof.
    intros HB Hf Hq Hsc Em HI Hd Hs Hs'. destruct (kron_op b o groups mats sched HB Hf Hq Em Hs) as (b1 & E1 & HB1 & En1 & A1).
    exists b1. split; auto. assert (Hn : 0 <= bk_n b) by apply HB.
    assert (HM : forall g m, in_range (bk_n b) g -> incl g indices ->
      marginal (bk_n b) g (amp_at 0 (bk_state b1)) m = marginal (bk_n b) g (amp_at 0 (bk_state b)) m).
    { intros g m Hr Hi. rewrite (L_Measure3.marginal_ext (bk_n b) g _ _ m A1). apply op_marginal; auto. }
    split.
    { rewrite !L_Measure6.probs_ok by (rewrite ?En1; auto). f_equal. f_equal. rewrite En1. apply map_ext. intros m. apply HM.
      - intros q Hx. apply in_rev in Hx. apply HI. auto.
      - intros q Hx. apply in_rev in Hx. auto. }
    pose proof (measure_same rsqrt u acc0 b b1 indices meas HB HB1 En1 HI) as HS.
    assert (HP : forall m, outcome b1 indices m = outcome b indices m).
    { intros m. unfold outcome. rewrite En1. apply HM; intros q Hx; apply mo_in in Hx; tauto. }
    specialize (HS HP). destruct (bk_measure rsqrt u acc0 b indices meas None 0 0) as [[[m p] b1']|e] eqn:Ebm; [|exact HS].
    destruct HS as (b2 & E2). exists b2.
    destruct (measure_inv _ _ _ _ _ _ _ _ _ HB HI Ebm) as (_ & _ & _ & _ & HB1' & En1' & Es1').
    assert (HI1 : qubits_ok (bk_n b1) indices) by (rewrite En1; auto).
    destruct (measure_inv _ _ _ _ _ _ _ _ _ HB1 HI1 E2) as (_ & _ & _ & _ & HB2 & En2 & Es2).
    assert (Hq1 : qubits_ok (bk_n b1') (concat groups)) by (rewrite En1'; auto).
    assert (Hs1 : Permutation sched' (zrange 0 (2 ^ bk_n b1'))) by (rewrite En1'; auto).
    destruct (kron_op b1' o groups mats sched' HB1' Hf Hq1 Em Hs1) as (b2' & E2' & HB2' & En2' & A2').
    exists b2'. split; auto. split; auto. rewrite En1' in *. rewrite En1 in *.
    apply (list_full _ _ (2 ^ bk_n b)).
    - destruct HB2' as (_ & X & _). rewrite En2' in X. auto.
    - destruct HB2 as (_ & X & _). rewrite En2 in X. auto.
    - intros x Hx. rewrite A2' by auto. rewrite Es2, (amp_at_map (bk_n b) nil) by auto. rewrite proj_collapsed.
      rewrite (op_acts_ext (bk_n b) Hn o groups _ (fun x => creal (rsqrt p) * proj (bk_n b) (measured_order (bk_n b) indices) m (amp_at 0 (bk_state b)) x)%r (proj2 Hq)).
      + rewrite op_acts_scale. f_equal. rewrite proj_op.
        * unfold proj. destruct (_ =? m); auto. symmetry. auto.
        * intros q Hx'. apply mo_in in Hx'. tauto.
        * exact (proj2 Hq).
        * intros q Hx'. apply mo_in in Hx'. apply Hd. tauto.
      + intros y Hy. rewrite Es1', (amp_at_map (bk_n b) nil) by auto. apply proj_collapsed.
      + auto.
  Qed.
End Signal2.
