(** The example that measures before and after a Fourier transform. *)
From Coq Require Import Sorted Reals Lra.
From Verif Require Import Base BaseR S_Bits L_Bits M_Kron S_Kron M_Ops S_Ops L_Ops4 M_Feed S_Feed L_Feed L_Feed2 M_Func S_Func L_Func2
  M_Measure S_Measure L_Measure1 L_Alg M_Graph S_Graph L_Graph1 L_Graph2 L_Graph3 L_Graph5 L_Graph6 L_Graph7 L_Graph8 L_Graph9 L_Graph10 L_Graph11
  M_Context M_ContextR S_Context S_ContextR L_Fourier L_Grow1 L_Grow2 L_Context1 L_Context2 L_Context3 L_Context4 L_Context5 L_Context6 L_Context7 L_Context8 L_Context9
  L_QFFT5 M_Examples L_Example1 L_Resume L_Tail L_Gates L_ShorPeak L_ShorExact M_ShorCircuit M_QfftExample S_QfftExample.
Local Open Scope Z_scope.

Lemma evolves_step {K} {OK : OrdRing K} rs (h : heap K) srcs n i cv l v v' : evolves rs h srcs n ((i, cv) :: l) v v' ->
  exists gs v1, Forall2 (wires h srcs) (inputs_of h i) gs /\ node_sem rs n gs v v1 (nd_kind (nd h i)) cv /\ evolves rs h srcs n l v1 v'.
Proof. intros E. inversion E; subst. eauto. Qed.
Lemma qubit_step {K} {OK : OrdRing K} rs n gs (v v' : Z -> Cx K) cv : node_sem rs n gs v v' KQubit cv -> forall r, 0 <= r < 2 ^ n -> v' r = v r.
Proof. intros E. inversion E; auto. Qed.

Section Program.
  Variable n : Z.
  Hypothesis Hn : 0 < n.
  Variable psi : list (Cx R).
  Hypothesis Hpsi : zlen psi = 2 ^ n.
  Let Q := zrange 0 (0 + n).
  Let U := dft_R n Q Q.

  Lemma eQ : Q = zrange 0 n. Proof. unfold Q. f_equal. Qed.

  (** what a StochasticMeasure of all qubits reports *)
  Lemma stoch_all (rs : R -> R) v v' cv : node_sem rs n [Q] v v' (KStoch 0) cv ->
    (forall r, 0 <= r < 2 ^ n -> v' r = v r) /\ cv = CProbs (inl (map (marginal n (rev Q) v) (zrange 0 (2 ^ n)))).
  Proof.
    intros S. inversion S as [| | | | | | ps Hv E | k l Hv Hk]; subst.
    - split; auto. cbn [concat]. rewrite app_nil_r. do 4 f_equal. unfold Q. rewrite zlen_zrange by lia. f_equal. lia.
    - exfalso. pose proof (Z.pow_pos_nonneg 2 (zlen (concat [Q])) ltac:(lia) (zlen_nonneg _)). lia.
  Qed.

  Lemma example_runs : exists w q mq mqft, qfft_example_circuit consts_R n = (w, Ok (q, mq, mqft)) /\
    forall ev, enum_ok ev -> scheds_ok ev (w_heap w) n ->
      exists v1 v2, qfft_example_run ev (w_heap w) q mq mqft psi =
          Ok (map (marginal n (rev Q) v1) (zrange 0 (2 ^ n)), map (marginal n (rev Q) v2) (zrange 0 (2 ^ n))) /\
        (forall r, 0 <= r < 2 ^ n -> v1 r = amp psi r) /\ (forall r, 0 <= r < 2 ^ n -> v2 r = U (amp psi) r).
  Proof.
    destruct (fresh_add (K := R) empty_heap [] n None fresh_empty Hn I) as (h1 & E1 & F1 & X1 & W1 & D1 & Z1).
    change (size (K := R) empty_heap) with O in *. cbn [app] in F1. set (srcs := [0%nat]) in *.
    assert (Ew : widths h1 srcs = n) by (unfold widths, srcs; cbn; lia).
    assert (El : layout h1 srcs = [(0%nat, Q)]) by (unfold layout; cbn [map srcs]; rewrite W1; reflexivity).
    pose proof (fresh_circ _ _ F1) as C1. rewrite El in C1.
    assert (NQ : Q <> []) by (intros H; assert (zlen Q = n) by (unfold Q; rewrite zlen_zrange; lia); rewrite H in *; unfold zlen in *; cbn in *; lia).
    assert (NDQ : NoDup Q) by apply zrange_nodup.
    destruct (measure_tail srcs h1 _ 0%nat Q [] (KStoch 0) (or_intror eq_refl) C1 NDQ NQ) as (h2 & mq & M2 & K2 & I2 & T2).
    pose proof (proj1 T2) as C2. assert (X2 : ext h1 h2) by apply T2.
    assert (Ew2 : widths h2 srcs = n) by (rewrite <- Ew; apply ext_widths; auto; intros i; apply (circ_srcs _ _ _ _ C1)).
    set (w2 := set_heap (set_heap (K := R) start_qfft h1) h2).
    destruct (func_body srcs [[]] 0 (qfft_body consts_R) true [Q] [Q] _ [] (qfft_body_R srcs [[]] true [Q] ltac:(discriminate) ltac:(intros g [<-|[]]; auto)) eq_refl ltac:(intros g []))
      with (w := w2) (vis := srcs ++ [mq]) (ctl := @nil nat) (cg := @nil (list Z)) (qs := [mq]) (rest := @nil (nat * list Z)) as (w3 & vis3 & ctl3 & outs & K3 & S3 & Cw3 & Lc3 & Lo3 & G3); auto.
    { split; reflexivity. } { intros g []. } { cbn [concat app]. rewrite app_nil_r. auto. }
    destruct ctl3; [|discriminate]. cbn [rev app length] in Lo3, G3. destruct outs as [|qft [|? ?]]; try discriminate. cbn [combine app concat] in G3.
    change (w_heap w2) with h2 in G3. rewrite Ew2 in G3.
    assert (G3' : grow srcs h2 (srcs ++ [mq]) [(mq, Q)] (w_heap w3) vis3 [(qft, Q)] U).
    { eapply grow_ext; [exact G3|]. intros v r _. unfold when, U. cbn [forallb]. rewrite app_nil_r. reflexivity. }
    clear G3. pose proof (grow_circ _ _ _ _ _ _ _ _ G3') as C3. pose proof (grow_widths _ _ _ _ _ _ _ _ C2 G3') as Ew3.
    destruct (measure_tail srcs (w_heap w3) _ qft Q [] (KStoch 0) (or_intror eq_refl) C3 NDQ NQ) as (h4 & mqft & M4 & K4 & I4 & T4).
    pose proof (proj1 T4) as C4. assert (X4 : ext (w_heap w3) h4) by apply T4. assert (X3 : ext h2 (w_heap w3)) by apply G3'.
    assert (Ew4 : widths h4 srcs = n) by (rewrite <- Ew2, <- Ew3; apply ext_widths; auto; intros i; apply (circ_srcs _ _ _ _ C3)).
    exists (set_heap w3 h4), 0%nat, mq, mqft. split.
    { unfold qfft_example_circuit, new_qubit. change (w_heap start_qfft) with (empty_heap (K := R)). rewrite E1. cbn [on_heap fst snd sbind]. change (w_heap (set_heap start_qfft h1)) with h1.
      rewrite M2. cbn [on_heap fst snd sbind]. change (set_heap (set_heap start_qfft h1) h2) with w2. unfold QFFT. rewrite K3. cbn [one_output sbind]. rewrite M4. reflexivity. }
    change (w_heap (set_heap w3 h4)) with h4. intros ev He Hsc.
    assert (X14 : ext h1 h4) by (eapply ext_trans; [exact X2|]; eapply ext_trans; eauto).
    pose proof (circ_circuit _ _ _ _ C4) as (B4 & In4 & Sp4 & Sw4 & Sr4 & Ok4). cbn [map fst] in *.
    pose proof (built_wf _ _ B4) as WF4.
    assert (W0 : wires h4 srcs 0%nat Q).
    { replace Q with (zrange (widths h4 []) (widths h4 [] + width h4 0%nat)).
      - apply (wires_source h4 srcs [] 0%nat []). reflexivity.
      - rewrite (ext_width h1 h4), W1 by (auto; lia). reflexivity. }
    assert (HI : initial h4 srcs n [(FNode 0%nat, FArr psi)] SNone [(Q, psi)]).
    { apply initial_feed. split; [repeat constructor; intros []|]. split; [intros z [<-|[]]; left; auto|].
      exists [(Q, psi)], []. split; [|split; [|split; [reflexivity|]]].
      - constructor; [|constructor]. split; [reflexivity|]. exists [Q]. split; [repeat constructor; auto|cbn; rewrite app_nil_r; auto].
      - apply dr_skip; [left; left; auto|constructor].
      - split; [cbn [map fst concat]; rewrite app_nil_r; split; auto; intros x Hx; unfold Q in Hx; apply in_zrange in Hx; lia|].
        intros g a [E|[]]. injection E as <- <-. rewrite Hpsi. f_equal. unfold Q. rewrite zlen_zrange; lia. }
    assert (S4 : session h4 (vis3 ++ [mqft]) cache0 []). { apply T4. apply G3'. apply T2. apply F1. }
    (* the nodes of the circuit *)
    destruct G3' as (_ & _ & _ & _ & HU & new & N1 & N2 & N3 & N4 & N5). destruct T2 as (_ & _ & _ & _ & _ & T2s & T2a & _). destruct T4 as (_ & _ & _ & _ & _ & T4s & T4a & _).
    cbn [map fst] in N3, T2a, T4a.
    assert (Hkeys : forall i, ancestor h4 [mqft] i <-> In i ((0%nat :: mq :: new) ++ [mqft])).
    { intros i. rewrite T4a, N3, T2a, (fresh_anc h1 [0%nat] i F1), in_app_iff. cbn [In]. tauto. }
    pose proof (T2s mq (or_introl eq_refl)) as Rq. pose proof (T4s mqft (or_introl eq_refl)) as Rf.
    assert (Hsorted : StronglySorted lt ((0%nat :: mq :: new) ++ [mqft])).
    { apply sorted_app_lt; [|repeat constructor|].
      - constructor; [constructor; auto; apply Forall_forall; intros x Hx; apply N2 in Hx; lia|].
        apply Forall_forall. intros x [<-|Hx]; [lia|]. apply N2 in Hx. lia.
      - intros a b [<-|[<-|Ha]] [<-|[]]; [destruct X3; lia|destruct X3; lia|]. apply N2 in Ha. lia. }
    assert (Hnm : no_measure h4 [mqft]).
    { intros i Hi. apply Hkeys, in_app_iff in Hi. destruct Hi as [[<-|[<-|Hi]]|[<-|[]]].
      - rewrite (ext_kind h1 h4) by (auto; lia). rewrite (proj1 (f_node _ _ F1 0%nat (or_introl eq_refl))). discriminate.
      - rewrite (ext_kind h2 h4); [rewrite K2; discriminate| |lia]. eapply ext_trans; eauto.
      - rewrite (ext_kind (w_heap w3) h4) by (auto; apply N2; auto). apply N4; auto.
      - rewrite K4. discriminate. }
    destruct (run_top h4 (vis3 ++ [mqft]) cache0 [] [mqft] srcs S4 Sp4 Sw4 In4 ltac:(intros a []) Sr4 Ok4 ev [(FNode 0%nat, FArr psi)] false SNone [(Q, psi)] He) as (R & T & _);
      try (rewrite Ew4; auto; fail).
    destruct (T Hnm ltac:(discriminate)) as (c' & [st_ cm] & ER). destruct (R _ _ _ ER) as (_ & So & Ha & Ev). rewrite Ew4 in Ev.
    assert (Em : map fst cm = (0%nat :: mq :: new) ++ [mqft]).
    { apply sorted_lt_unique; auto. intros i. rewrite Ha. apply Hkeys. }
    apply map_eq_app in Em. destruct Em as (l1 & l2 & -> & Em1 & Em2). destruct l1 as [|[i0 cv0] [|[i1 cv1] ln]]; try discriminate. cbn [map fst] in Em1. injection Em1 as -> -> Eln. assert (Eln' : map fst ln = new /\ True) by auto. clear Eln.
    destruct l2 as [|[i2 cv2] [|]]; try discriminate. cbn in Em2. injection Em2 as ->. cbn [app] in Ev.
    apply evolves_step in Ev. destruct Ev as (gs0 & v1 & Hg0 & Hs0 & Ev). apply evolves_step in Ev. destruct Ev as (gs1 & v2 & Hg1 & Hs1 & Ev).
    apply evolves_app_inv in Ev. destruct Ev as (v3 & Ev2 & Ev3). apply evolves_step in Ev3. destruct Ev3 as (gs2 & v4 & Hg2 & Hs2 & _).
    assert (X24 : ext h2 h4) by (eapply ext_trans; eauto).
    (* the first measurement *)
    rewrite (ext_kind h1 h4), (proj1 (f_node _ _ F1 0%nat (or_introl eq_refl))) in Hs0 by (auto; lia). pose proof (qubit_step _ _ _ _ _ _ Hs0) as Hv0. destruct Eln' as [Eln _].
    assert (Hfun : forall i gs, In i ((0%nat :: mq :: new) ++ [mqft]) -> wires h4 srcs i Q -> Forall2 (wires h4 srcs) [i] gs -> gs = [Q]).
    { intros i gs Hi Hw HF. inversion HF as [|? g ? ? Hw' HF']; subst. inversion HF'; subst. f_equal.
      apply (circ_fun _ _ _ _ C4 i); auto. apply Hkeys; auto. }
    rewrite (ext_kind h2 h4), K2 in Hs1 by (auto; lia). rewrite (ext_inputs h2 h4), I2 in Hg1 by (auto; lia).
    assert (gs1 = [Q]) by (apply (Hfun 0%nat); auto; left; auto). subst gs1. apply stoch_all in Hs1. destruct Hs1 as [Hv1 ->].
    (* the transform *)
    assert (Hv3 : forall r, 0 <= r < 2 ^ n -> v3 r = U v2 r).
    { pose proof (evolves_fun h4 (vis3 ++ [mqft]) [mqft] srcs WF4 In4 ltac:(eapply splits_anc; eauto) Sr4 (e_rsqrt ev) Ok4) as EF. rewrite Ew4 in EF.
      destruct (EF ln v2 v3 Ev2 (zeros new) v2 (U v2)) as [EA _]; auto.
      - rewrite <- Ew2. apply (evolves_ext srcs (w_heap w3) h4 (wf_base _ _ (built_wf _ _ (c_built _ _ _ _ C3))) X4 (fun s => circ_srcs _ _ _ _ C3 s)); [|apply N5].
        intros i Hi. unfold zeros in Hi. rewrite map_map, map_id in Hi. apply N2 in Hi. lia.
      - intros i Hi. rewrite Eln in Hi. apply Hkeys, in_app_iff. left. right. right. auto.
      - unfold same_outcomes. assert (Hk : forall i, In i (map fst ln) -> nd_kind (nd h4 i) <> KMeasure).
        { intros i Hi. apply Hnm, Hkeys, in_app_iff. rewrite Eln in Hi. left. right. right. auto. }
        clear - Eln Hk. revert ln Eln Hk. induction new as [|j nw IH]; intros [|[i a] ln] E Hk; cbn in E; try discriminate; constructor.
        + injection E as -> E. split; auto. cbn [fst]. intros H. exfalso. apply (Hk j); auto. left; auto.
        + injection E as -> E. apply IH; auto. intros i Hi. apply Hk. right; auto. }
    (* the second measurement *)
    rewrite K4 in Hs2. rewrite I4 in Hg2. assert (Hqft : (qft < size (w_heap w3))%nat) by (eapply (circ_size _ _ _ _ C3); apply anc_arg; left; auto).
    assert (gs2 = [Q]).
    { apply (Hfun qft); auto.
      - apply Hkeys, T4a. left. apply anc_arg. left; auto.
      - apply (wires_ext srcs (w_heap w3) h4 (wf_base _ _ (built_wf _ _ (c_built _ _ _ _ C3))) X4 (fun s => circ_srcs _ _ _ _ C3 s)); auto. apply (c_wires _ _ _ _ C3). left; auto. }
    subst gs2. apply stoch_all in Hs2. destruct Hs2 as [_ ->].
    exists v1, v3. split; [|split].
    - unfold qfft_example_run. rewrite ER. unfold probs_of.
      assert (L1 : forall cv tl, lookup mq ((0%nat, cv0) :: (mq, cv) :: tl) = Ok cv).
      { intros cv tl. cbn [lookup]. destruct (Nat.eqb_spec mq 0); [lia|]. rewrite Nat.eqb_refl. auto. }
      cbn [app]. rewrite L1. cbn [bind]. match goal with |- context [lookup mqft ?l] => assert (L2 : lookup mqft l = Ok (CProbs (inl (map (marginal n (rev Q) v3) (zrange 0 (2 ^ n)))))) end.
      { cbn [lookup]. destruct (Nat.eqb_spec mqft 0); [lia|]. destruct (Nat.eqb_spec mqft mq); [destruct X3; lia|].
        assert (Hne : ~ In mqft (map fst ln)) by (rewrite Eln; intros H; apply N2 in H; lia). clear - Hne. induction ln as [|[j cv] ln IH]; cbn [app lookup]; [rewrite Nat.eqb_refl; auto|].
        destruct (Nat.eqb_spec mqft j) as [->|]; [exfalso; apply Hne; left; auto|]. apply IH. intros H. apply Hne. right; auto. }
      rewrite L2. reflexivity.
    - intros r Hr. rewrite Hv0 by auto. unfold amp at 1. rewrite znth_map_zrange by lia. rewrite Z.add_0_l. rewrite eQ. apply fed_whole; auto. lia.
    - intros r Hr. rewrite Hv3 by auto. assert (Eq : eqn (widths h2 srcs) v2 (amp psi)).
      { rewrite Ew2. intros x Hx. rewrite Hv1, Hv0 by auto. unfold amp at 1. rewrite znth_map_zrange by lia. rewrite Z.add_0_l. rewrite eQ. apply fed_whole; auto. lia. }
      apply HU in Eq. rewrite Ew2 in Eq. apply Eq; auto.
  Qed.
End Program.

(** ** the order of the reported probabilities *)
Lemma mirror_reg n a b : 0 < n -> mirrored n a b -> reg n (rev (zrange 0 n)) a = b.
Proof.
  intros Hn (Ha & Hb & H). assert (L : zlen (rev (zrange 0 n)) = n) by (rewrite zlen_rev, zlen_zrange; lia).
  pose proof (reg_range n (rev (zrange 0 n)) a) as R. rewrite L in R. apply (qbit_ext n); auto; [lia|]. intros q Hq. unfold qbit.
  pose proof (reg_testbit n (rev (zrange 0 n)) a q) as T. rewrite L in T. rewrite T by auto. rewrite H by lia. unfold qbit. f_equal.
  rewrite L_Bits.znth_rev by (rewrite zlen_zrange; lia). rewrite zlen_zrange by lia. rewrite <- (map_id (zrange 0 n)), znth_map_zrange by lia. lia.
Qed.
Lemma mirror_marginal {K} {OK : OrdRing K} n a b (v : Z -> Cx K) : 0 < n -> mirrored n a b -> marginal n (rev (zrange 0 n)) v b = cnorm2 (v a).
Proof.
  intros Hn M. pose proof (mirror_reg n a b Hn M) as E. unfold marginal. rewrite (sum_single _ a).
  - rewrite E, Z.eqb_refl. auto.
  - apply zrange_nodup.
  - apply in_zrange. apply M.
  - intros x Hx Hne. apply in_zrange in Hx. destruct (Z.eqb_spec (reg n (rev (zrange 0 n)) x) b) as [Ex|]; auto. exfalso. apply Hne.
    apply (qbit_ext n); auto; [lia|apply M|]. intros q Hq. apply (reg_inj n (rev (zrange 0 n))); [congruence|]. rewrite <- in_rev. apply in_zrange. auto.
Qed.

Lemma example_mirrored n psi : 0 < n -> zlen psi = 2 ^ n ->
  exists w q mq mqft, qfft_example_circuit consts_R n = (w, Ok (q, mq, mqft)) /\
    forall ev, enum_ok ev -> scheds_ok ev (w_heap w) n ->
      exists ps qs, qfft_example_run ev (w_heap w) q mq mqft psi = Ok (ps, qs) /\ zlen ps = 2 ^ n /\ zlen qs = 2 ^ n /\
        forall x y, mirrored n x y -> znth 0%R ps y = cnorm2 (znth 0%r psi x) /\ znth 0%R qs y = power n psi x.
Proof.
  intros Hn Hp. destruct (example_runs n Hn psi Hp) as (w & q & mq & mqft & E & H). exists w, q, mq, mqft. split; auto.
  intros ev He Hs. destruct (H ev He Hs) as (v1 & v2 & Er & H1 & H2). eexists _, _. split; [exact Er|].
  pose proof (Z.pow_pos_nonneg 2 n ltac:(lia) ltac:(lia)) as P. rewrite !zlen_map, !zlen_zrange by lia. split; [lia|]. split; [lia|].
  intros x y M. change (0 + n) with n. assert (Hx : 0 <= x < 2 ^ n) by apply M. assert (Hy : 0 <= y < 2 ^ n) by apply M.
  rewrite !znth_map_zrange by lia. change (0 + y) with y. rewrite !(mirror_marginal n x y) by auto. rewrite H1, H2 by auto. split; [reflexivity|].
  unfold power, dft_R. change (0 + n) with n. rewrite zlen_zrange, Z.sub_0_r by lia. f_equal. f_equal. apply sum_ext. intros z Hz. apply in_zrange in Hz. cbv zeta.
  assert (Ez : setreg n (zrange 0 n) x z = z).
  { assert (QO : qubits_ok n (zrange 0 n)) by (split; [apply zrange_nodup|intros p Hq0; apply in_zrange in Hq0; auto]).
    pose proof (reg_setreg n (zrange 0 n) x z QO ltac:(rewrite zlen_zrange by lia; rewrite Z.sub_0_r; auto)) as T.
    rewrite reg_full in T; auto; [lia|]. apply setreg_range. lia. }
  rewrite Ez, reg_full by lia. reflexivity.
Qed.

(** ** a plane wave *)
Definition wave (n : Z) : list (Cx R) :=
  map (fun x => ((1 / sqrt (IZR (2 ^ n)), 0)%R * cis (- (2 * PI * IZR x / IZR (2 ^ n))))%r) (zrange 0 (2 ^ n)).
Lemma wave_power n y : 0 < n -> power n (wave n) y =
  cnorm2 ((1 / IZR (2 ^ n), 0)%R * sum (zrange 0 (2 ^ n)) (fun x => cis (IZR x * (2 * PI * IZR (y - 1) / IZR (2 ^ n)))))%r.
Proof.
  intros Hn. pose proof (Z.pow_pos_nonneg 2 n ltac:(lia) ltac:(lia)) as P. assert (PR : (0 < IZR (2 ^ n))%R) by (apply IZR_lt; lia).
  unfold power. set (N := IZR (2 ^ n)) in *. f_equal.
  transitivity ((1 / sqrt N, 0)%R * sum (zrange 0 (2 ^ n)) (fun x => (1 / sqrt N, 0)%R * cis (IZR x * (2 * PI * IZR (y - 1) / N))))%r.
  - f_equal. apply sum_ext. intros x Hx. apply in_zrange in Hx. cbv zeta. unfold wave. rewrite znth_map_zrange by lia. rewrite Z.add_0_l. fold N.
    replace (IZR x * (2 * PI * IZR (y - 1) / N))%R with (2 * PI * IZR (x * y) / N + - (2 * PI * IZR x / N))%R by (rewrite mult_IZR, minus_IZR; field; lra).
    rewrite cis_add. fold (cis (2 * PI * IZR (x * y) / N)). generalize (cis (2 * PI * IZR (x * y) / N)), (cis (- (2 * PI * IZR x / N))), (1 / sqrt N)%R. intros [a b] [c d] s.
    cbv [rmul CxRing cxmul or_ring ROrdRing RCRing radd rsub cxadd cxsub]. cbn [fst snd]. f_equal; ring.
  - rewrite sum_mul_l. assert (S : (1 / sqrt N * (1 / sqrt N) = 1 / N)%R).
    { transitivity (1 / (sqrt N * sqrt N))%R; [field; apply Rgt_not_eq, sqrt_lt_R0; auto|]. rewrite sqrt_sqrt by lra. auto. }
    assert (G : forall T : Cx R, ((1 / sqrt N, 0)%R * ((1 / sqrt N, 0)%R * T))%r = ((1 / N, 0)%R * T)%r).
    { intros [a b]. cbv [rmul CxRing cxmul or_ring ROrdRing RCRing radd rsub cxadd cxsub]. cbn [fst snd]. rewrite <- S. f_equal; ring. }
    exact (G _).
Qed.
Lemma wave_peak n : 0 < n -> power n (wave n) 1 = 1%R.
Proof.
  intros Hn. pose proof (Z.pow_pos_nonneg 2 n ltac:(lia) ltac:(lia)) as P. assert (PR : (0 < IZR (2 ^ n))%R) by (apply IZR_lt; lia).
  rewrite wave_power by auto. rewrite (sum_ext _ _ (fun _ => (1, 0)%R)).
  - rewrite sum_ones, zlen_zrange, Z.sub_0_r by lia. unfold cnorm2. cbv [rmul CxRing cxmul or_ring ROrdRing RCRing radd rsub cxadd cxsub]. cbn [fst snd]. field. lra.
  - intros x _. change (1 - 1) with 0. replace (IZR x * (2 * PI * IZR 0 / IZR (2 ^ n)))%R with 0%R by (field; lra). apply cis_0.
Qed.
Lemma wave_dark n y : 0 < n -> 0 <= y < 2 ^ n -> y <> 1 -> power n (wave n) y = 0%R.
Proof.
  intros Hn Hy Hne. pose proof (Z.pow_pos_nonneg 2 n ltac:(lia) ltac:(lia)) as P. assert (PR : (0 < IZR (2 ^ n))%R) by (apply IZR_lt; lia).
  rewrite wave_power by auto. set (th := (2 * PI * IZR (y - 1) / IZR (2 ^ n))%R). set (T := sum _ _).
  assert (E : (T * (cis th - 1))%r = 0%r).
  { unfold T. rewrite telescoped by lia. replace (IZR (2 ^ n) * th)%R with (0 + 2 * PI * IZR (y - 1))%R by (unfold th; field; lra). rewrite cis_turns, cis_0.
    cbv [rsub rO rI CxRing cxsub cx0 cx1 or_ring ROrdRing RCRing]. cbn [fst snd]. f_equal; ring. }
  assert (Hc : cnorm2 (cis th - 1)%r <> 0%R).
  { intros H0. apply cis_one in H0. destruct H0 as [k Hk]. assert (IZR (y - 1) = IZR k * IZR (2 ^ n))%R.
    { unfold th in Hk. pose proof PI_RGT_0 as PP. apply (Rmult_eq_reg_l (2 * PI)); [|lra]. replace (2 * PI * IZR (y - 1))%R with (2 * PI * IZR (y - 1) / IZR (2 ^ n) * IZR (2 ^ n))%R by (field; lra). rewrite Hk. ring. }
    rewrite <- mult_IZR in H. apply eq_IZR in H. assert (2 <= 2 ^ n) by (replace n with (1 + (n - 1)) by lia; rewrite Z.pow_add_r by lia; change (2 ^ 1) with 2; pose proof (Z.pow_pos_nonneg 2 (n - 1) ltac:(lia) ltac:(lia)); lia).
    revert H P Hy H0. generalize (2 ^ n). intros N H P Hy H0. assert (Hk' : k = 0 \/ 1 <= k \/ k <= -1) by lia. destruct Hk' as [->|[Hk'|Hk']]; [lia|nia|nia]. }
  assert (Ht : cnorm2 T = 0%R).
  { assert (M : (cnorm2 T * cnorm2 (cis th - 1)%r = 0)%R).
    { assert (EE := f_equal cnorm2 E). revert EE. generalize T, (cis th - 1)%r. intros [a b] [c d]. unfold cnorm2. cbv [rmul rO CxRing cxmul cx0 or_ring ROrdRing RCRing radd rsub]. cbn [fst snd]. intros EE. lra. }
    apply Rmult_integral in M. tauto. }
  revert Ht. generalize T. intros [a b]. unfold cnorm2. cbv [rmul CxRing cxmul or_ring ROrdRing RCRing radd rsub]. cbn [fst snd]. intros Ht.
  transitivity (1 / IZR (2 ^ n) * (1 / IZR (2 ^ n)) * (a * a + b * b))%R; [ring|]. rewrite Ht. ring.
Qed.
Lemma mirror_one n : 2 <= n -> mirrored n 1 (2 ^ (n - 1)) /\ mirrored n (2 ^ (n - 1)) 1.
Proof.
  intros Hn. assert (P : 1 < 2 ^ n) by (apply Z.pow_gt_1; lia). assert (P1 : 0 < 2 ^ (n - 1) < 2 ^ n) by (split; [apply Z.pow_pos_nonneg; lia|apply Z.pow_lt_mono_r; lia]).
  assert (B : forall j, 0 <= j -> Z.testbit 1 j = (j =? 0)).
  { intros j Hj. change 1 with (2 ^ 0). rewrite Z.pow2_bits_eqb by lia. apply Z.eqb_sym. }
  split; (split; [lia|split; [lia|]]); intros j Hj; rewrite B by lia; rewrite Z.pow2_bits_eqb by lia.
  - destruct (Z.eqb_spec (n - 1) j), (Z.eqb_spec (n - 1 - j) 0); auto; lia.
  - destruct (Z.eqb_spec j 0), (Z.eqb_spec (n - 1) (n - 1 - j)); auto; lia.
Qed.
Lemma example_order n : 2 <= n -> exists psi, zlen psi = 2 ^ n /\ sum psi cnorm2 = 1%R /\
  power n psi 1 = 1%R /\ (forall y, 0 <= y < 2 ^ n -> y <> 1 -> power n psi y = 0%R) /\
  exists w q mq mqft, qfft_example_circuit consts_R n = (w, Ok (q, mq, mqft)) /\
    forall ev, enum_ok ev -> scheds_ok ev (w_heap w) n ->
      exists ps qs, qfft_example_run ev (w_heap w) q mq mqft psi = Ok (ps, qs) /\ znth 0%R qs 1 = 0%R /\ znth 0%R qs (2 ^ (n - 1)) = 1%R.
Proof.
  intros Hn. pose proof (Z.pow_pos_nonneg 2 n ltac:(lia) ltac:(lia)) as P. assert (PR : (0 < IZR (2 ^ n))%R) by (apply IZR_lt; lia).
  assert (L : zlen (wave n) = 2 ^ n) by (unfold wave; rewrite zlen_map, zlen_zrange; lia).
  exists (wave n). split; auto. split.
  { unfold wave. rewrite sum_map. rewrite (sum_ext _ _ (fun _ => (1 / IZR (2 ^ n))%R)).
    - rewrite L_ShorR.sum_const_Z, zlen_zrange, Z.sub_0_r by lia. field. lra.
    - intros x _. pose proof (L_ShorR.cis_unit (- (2 * PI * IZR x / IZR (2 ^ n)))) as CU. revert CU. generalize (cis (- (2 * PI * IZR x / IZR (2 ^ n)))). intros [a b]. unfold cnorm2.
      cbv [rmul CxRing cxmul or_ring ROrdRing RCRing radd rsub]. cbn [fst snd]. intros CU. transitivity (1 / sqrt (IZR (2 ^ n)) * (1 / sqrt (IZR (2 ^ n))) * (a * a + b * b))%R; [ring|]. rewrite CU.
      transitivity (1 / (sqrt (IZR (2 ^ n)) * sqrt (IZR (2 ^ n))))%R; [field; apply Rgt_not_eq, sqrt_lt_R0; auto|]. rewrite sqrt_sqrt by lra. auto. }
  split; [apply wave_peak; lia|]. split; [intros; apply wave_dark; auto; lia|].
  destruct (example_mirrored n (wave n) ltac:(lia) L) as (w & q & mq & mqft & E & H). exists w, q, mq, mqft. split; auto. intros ev He Hs.
  destruct (H ev He Hs) as (ps & qs & Er & _ & _ & M). exists ps, qs. split; auto. destruct (mirror_one n Hn) as [M1 M2]. split.
  - rewrite (proj2 (M _ _ M2)). apply wave_dark; [lia|apply M2|]. intros E2. assert (2 ^ 1 <= 2 ^ (n - 1)) by (apply Z.pow_le_mono_r; lia). lia.
  - rewrite (proj2 (M _ _ M1)). apply wave_peak. lia.
Qed.
