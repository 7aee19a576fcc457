(** Shor's circuit: building it and measuring it. *)
From Coq Require Import Sorted.
From Verif Require Import Base S_Bits L_Bits M_Kron S_Kron M_Ops S_Ops L_Ops4 M_Feed S_Feed L_Feed L_Feed2 M_Func S_Func L_Func2
  M_Measure S_Measure L_Measure1 L_Alg M_Graph S_Graph L_Graph1 L_Graph2 L_Graph3 L_Graph5 L_Graph6 L_Graph7 L_Graph8 L_Graph9 L_Graph10 L_Graph11
  M_Context S_Context L_Fourier L_Sinks L_Grow1 L_Grow2 L_Context1 L_Context2 L_Context3 L_Context4 L_Context5 L_Context6 L_Context7 L_QFFT1 L_QFFT2 L_QFFT3 L_QFFT4 L_QFFT5 L_Moves
  M_Examples L_Example1 L_Example2 L_Tail S_Born L_Born L_TailBorn L_DftNorm M_ShorCircuit.

Section Side.
  Context {K : Type} {OK : OrdRing K}.
  Variable srcs : list nat.
  Implicit Types h : heap K.

  (** a circuit is still one when nodes are added elsewhere *)
  Lemma circ_side h vis lg h' vis' lg' : circ srcs h vis lg -> circ srcs h' vis' lg' -> ext h h' -> incl vis vis' -> circ srcs h' vis' lg.
  Proof.
    intros Ci Ci' X I. pose proof (built_wf _ _ (c_built _ _ _ _ Ci)) as W.
    assert (HA : forall i, ancestor h' (map fst lg) i <-> ancestor h (map fst lg) i).
    { intros i. rewrite (anc_grow h h' vis (map fst lg) (map fst lg) [] W (c_incl _ _ _ _ Ci) X); auto; [cbn; tauto|intros j []|intros j []]. }
    split.
    - apply Ci'.
    - eapply incl_tran; [apply Ci|auto].
    - apply Ci'.
    - apply Ci'.
    - destruct (c_src _ _ _ _ Ci) as [S1 S2]. split; auto. intros i. rewrite S2, HA. split; intros [A B]; split; auto.
      + rewrite (ext_inputs h h'); auto. eapply circ_size; eauto.
      + rewrite (ext_inputs h h') in B; auto. eapply circ_size; eauto.
    - intros i Hi. apply HA in Hi. assert (EW : widths h' srcs = widths h srcs) by (apply ext_widths; auto; intros j; apply (circ_srcs _ _ _ _ Ci)).
      rewrite EW. apply (node_ok_ext srcs h h' (wf_base _ _ W) X (fun s => circ_srcs _ _ _ _ Ci s)); [eapply circ_size; eauto|]. apply (c_ok _ _ _ _ Ci). auto.
    - intros q g Hq. apply (wires_ext srcs h h' (wf_base _ _ W) X (fun s => circ_srcs _ _ _ _ Ci s)); [|apply (c_wires _ _ _ _ Ci); auto].
      eapply circ_size; eauto. apply anc_arg, in_map_iff. exists (q, g). auto.
  Qed.
  Lemma side_tailed h vis lg h' vis' lg' : circ srcs h vis lg -> circ srcs h' vis' lg' -> ext h h' -> incl vis vis' ->
    (forall c l, session h vis c l -> session h' vis' c l) -> tailed srcs h vis lg h' vis' lg [].
  Proof.
    intros Ci Ci' X I S. split; [eapply circ_side; eauto|]. split; auto. split; auto. split; auto. split; [constructor|]. split; [intros i []|].
    split; [|intros i []]. intros i. pose proof (built_wf _ _ (c_built _ _ _ _ Ci)) as W.
    apply (anc_grow h h' vis (map fst lg) (map fst lg) [] W (c_incl _ _ _ _ Ci) X); auto; intros j [].
  Qed.
  Lemma call_funcs cn (w : world K) c args kw w' outs : w_stack w = [] -> call_op cn w c args kw = (w', Ok outs) -> w_funcs w' = w_funcs w.
  Proof.
    intros Es E. unfold call_op, apply_in_context in E. rewrite Es in E. destruct (build cn (w_heap w) c args no_kw) as [h1 [q|e]]; cbn [on_heap fst snd sbind] in E; [|discriminate].
    cbn [set_heap w_heap] in E. destruct (split h1 q None) as [h2 [ids|e]]; cbn [on_heap fst snd sbind] in E; [|discriminate].
    destruct ids; inversion E; subst; reflexivity.
  Qed.
End Side.

Section Program.
  Context {K : Type} {OK : OrdRing K}.
  Notation C := (Cx K).
  Add Ring Krs : (@rth K _).
  Variable cn : consts K.
  Variable root : Z -> C.
  Hypothesis root1 : root 1 = (- (1))%r.
  Hypothesis root2 : forall m, 1 <= m -> (root (m + 1) * root (m + 1))%r = root m.
  Hypothesis root_unit : forall m, 2 <= m -> cnorm2 (root m) = 1%r.
  Hypothesis root_rm : forall m, 2 <= m -> c_rm cn m false = root m.
  Hypothesis Hh : op_scalars_ok (OH (c_h cn)).
  Variables (m k x N : Z) (u : K).
  Hypothesis Hm : 0 < m.
  Hypothesis Hk : 0 < k.
  Hypothesis HN : N <> 0.
  Let n := m + k.
  Let Q := zrange 0 (0 + m).
  Let A := zrange (0 + m) (0 + m + k).
  Let f := fun i : Z => (x ^ i) mod N.
  Let dq := map (fun _ : Z => creal u) (zrange 0 (2 ^ m)).
  Local Notation U := (fun v => dft cn root true Q n (fun r => v (fxor n Q A f r))).

  Lemma sQA : Q ++ A = zrange 0 n.
  Proof. unfold Q, A, n. rewrite <- zrange_app by lia. f_equal; lia. Qed.
  Lemma sQA_ok : qubits_ok n (Q ++ A).
  Proof. rewrite sQA. split; [apply zrange_nodup|]. intros q Hq. apply in_zrange in Hq. auto. Qed.
  Lemma len_sQ : zlen Q = m.
  Proof. unfold Q. rewrite zlen_zrange; lia. Qed.
  Lemma len_sA : zlen A = k.
  Proof. unfold A. rewrite zlen_zrange; lia. Qed.
  Lemma sQA_others : others n Q A = [].
  Proof.
    unfold others. rewrite sQA.
    destruct (filter _ (zrange 0 n)) as [|q l] eqn:E; auto. assert (Hq : In q (q :: l)) by (left; auto). rewrite <- E in Hq. apply filter_In in Hq. destruct Hq as [H1 H2].
    apply negb_true_iff in H2. assert (existsb (Z.eqb q) (zrange 0 n) = true) by (apply existsb_exists; exists q; split; auto; apply Z.eqb_refl). congruence.
  Qed.
  Lemma sQ_ok : qubits_ok n Q.
  Proof. destruct sQA_ok as [D R]. split; [unfold Q; apply zrange_nodup|]. intros q Hq. apply R, in_app_iff. auto. Qed.
  Lemma sQ_order : measured_order n Q = Q.
  Proof.
    unfold measured_order. rewrite <- sQA, filter_app.
    assert (E1 : filter (fun q => existsb (Z.eqb q) Q) Q = Q).
    { assert (G : forall l, incl l Q -> filter (fun q => existsb (Z.eqb q) Q) l = l).
      { induction l as [|a l IH]; intros Hl; auto. cbn [filter]. assert (existsb (Z.eqb a) Q = true) as -> by (apply existsb_exists; exists a; split; [apply Hl; left; auto|apply Z.eqb_refl]).
        f_equal. apply IH. intros y Hy. apply Hl. right; auto. }
      apply G, incl_refl. }
    assert (E2 : filter (fun q => existsb (Z.eqb q) Q) A = []).
    { destruct (filter _ A) as [|q l] eqn:E; auto. assert (Hq : In q (q :: l)) by (left; auto). rewrite <- E in Hq. apply filter_In in Hq. destruct Hq as [H1 H2].
      apply existsb_exists in H2. destruct H2 as (y & Hy & Ey). apply Z.eqb_eq in Ey. subst y. unfold A in H1. unfold Q in Hy. apply in_zrange in H1. apply in_zrange in Hy. lia. }
    rewrite E1, E2, app_nil_r. auto.
  Qed.

  (** the amplitudes before measuring *)
  Definition shor_state : Z -> C := U (fed_amp n [(Q, dq)]).
  Lemma shor_feeds : feeds_ok n [(Q, dq)].
  Proof.
    split; [cbn [map fst concat]; rewrite app_nil_r; apply sQ_ok|]. intros g a [E|[]]. injection E as <- <-.
    pose proof (Z.pow_nonneg 2 m ltac:(lia)). unfold dq. rewrite zlen_map, zlen_zrange, len_sQ by lia. lia.
  Qed.
  Lemma shor_norm : total dq = 1%r -> norm_of n shor_state = 1%r.
  Proof.
    intros Ht. assert (Hn : 0 <= n) by (unfold n; lia). unfold shor_state. rewrite (dft_norm cn root root1 root2 root_unit Hh n Hn) by exact sQ_ok.
    rewrite (fxor_norm n Q A f (fed_amp n [(Q, dq)]) _ Hn sQA_ok) by (intros r Hr; rewrite fxor_invol; auto; apply sQA_ok).
    pose proof (fed_total n [(Q, dq)] Hn shor_feeds) as E. cbn [prod fold_right map snd] in E. unfold total in E at 1. rewrite sum_map in E.
    unfold norm_of. rewrite E. cbn [prod fst snd]. rewrite Ht. ring.
  Qed.

  Lemma shor_built : exists w mqft mm, make_circuit cn m k x N u = (w, Ok (mqft, mm)) /\
    forall ev, enum_ok ev -> scheds_ok ev (w_heap w) n -> draws_ok ev -> total dq = 1%r ->
    exists y, measure_peak ev (w_heap w) mm = Ok y /\ selected n Q shor_state (e_rand ev mm) y.
  Proof.
    destruct (fresh_add empty_heap [] m (Some (DArray dq)) fresh_empty Hm I) as (h1 & E1 & F1 & X1 & W1 & D1 & Z1).
    destruct (fresh_add h1 _ k None F1 Hk I) as (h2 & E2 & F2 & X2 & W2 & D2 & Z2).
    change (size (K := K) empty_heap) with O in *. rewrite Z1 in *. cbn [app] in *. clear F1.
    assert (V1 : width h2 0 = m) by (rewrite (ext_width h1); auto; lia).
    assert (V2 : nd_default (nd h2 0) = Some (DArray dq)).
    { destruct (ext_fields _ _ 0%nat X2 ltac:(lia)) as (_ & _ & _ & _ & T & _). rewrite T. auto. }
    set (srcs := [0; 1]%nat) in *. set (w0 := set_heap (K := K) start_qfft h2).
    assert (Ew : widths h2 srcs = n). { unfold widths, srcs. cbn. unfold n. lia. }
    assert (El : layout h2 srcs = combine srcs [Q; A]). { unfold layout. cbn [map srcs]. rewrite V1, W2. reflexivity. }
    pose proof (fresh_circ _ _ F2) as C0. rewrite El in C0. cbn [combine srcs] in C0.
    pose proof sQA_ok as RO. pose proof len_sQ as LQ. pose proof len_sA as LA.
    assert (NA : A <> []) by (intros H; rewrite H in LA; unfold zlen in LA; cbn in LA; lia).
    assert (NQ : Q <> []) by (intros H; rewrite H in LQ; unfold zlen in LQ; cbn in LQ; lia).
    assert (P0 : plain w0) by (split; reflexivity).
    assert (NDQ : NoDup Q) by apply zrange_nodup. assert (NDA : NoDup A) by apply zrange_nodup.
    destruct (f_grow_parts srcs cn w0 srcs 0%nat 1%nat Q A (modpow x N) f []) as (w1 & vis1 & o1 & o1' & K1 & P1 & G1 & fj & Hj1 & Hj2 & Hj3 & Hj4 & fix_ & Hj5); auto.
    { apply RO. } { intros i _. unfold modpow. rewrite (proj2 (Z.eqb_neq _ _) HN). reflexivity. }
    { change (w_heap w0) with h2. rewrite Ew. right. apply sQA_others. }
    pose proof (grow_circ _ _ _ _ _ _ _ _ G1) as C1. pose proof (grow_widths _ _ _ _ _ _ _ _ C0 G1) as Ew1.
    destruct (call_sinks cn w0 (Wrap BF no_kw) [AFun (modpow x N); AQ 0%nat; AQ 1%nat] no_kw w1 [o1; o1']) as (_ & _ & _ & SK1 & ND1); auto.
    { split; reflexivity. } { cbn [only_qubits]. change (w_heap w0) with h2. intros i [<-|[<-|[]]]; lia. }
    assert (Fu1 : w_funcs w1 = [[]]) by (rewrite (call_funcs cn w0 _ _ _ w1 _ (proj1 P0) K1); reflexivity).
    change (w_heap w0) with h2 in *. rewrite Ew in *.
    (* the Fourier transform *)
    destruct (func_body srcs [[]] 0 (qfft_body cn) true [Q] [Q] _ [] (qfft_grows srcs cn root root1 root2 root_rm [[]] true [Q] ltac:(discriminate) ltac:(intros g [<-|[]]; auto)) eq_refl ltac:(intros g []))
      with (w := w1) (vis := vis1) (ctl := @nil nat) (cg := @nil (list Z)) (qs := [o1]) (rest := [(o1', A)]) as (w2 & vis2 & ctl2 & outs & K2 & S2 & Cw2 & Lc2 & Lo2 & G2); auto.
    { destruct P1 as [A1 A2]. split; [rewrite A1; reflexivity|rewrite A2; reflexivity]. }
    { intros g []. } { cbn [concat app]. rewrite app_nil_r. auto. }
    destruct ctl2; [|discriminate]. cbn [rev app length] in Lo2, G2. destruct outs as [|qft [|? ?]]; try discriminate. cbn [combine app concat] in G2. rewrite Ew1 in G2.
    assert (G2' : grow srcs (w_heap w1) vis1 [(o1, Q); (o1', A)] (w_heap w2) vis2 [(qft, Q); (o1', A)] (dft cn root true Q n)).
    { eapply grow_ext; [exact G2|]. intros v r _. unfold when. cbn [forallb]. rewrite app_nil_r. reflexivity. }
    clear G2. pose proof (grow_circ _ _ _ _ _ _ _ _ G2') as C2. pose proof (grow_widths _ _ _ _ _ _ _ _ C1 G2') as Ew2.
    pose proof (grow_trans _ _ _ _ _ _ _ _ _ _ _ _ C0 G1 G2') as G. cbv beta in G.
    assert (SK2 : moves (w_heap w1) (w_heap w2) [o1] [qft]).
    { apply (qfft_sinks cn w1 0 true o1 w2 [qft]); try apply P1; auto.
      - unfold wrappers_of. rewrite Fu1. reflexivity.
      - apply SK1. left; auto. - apply SK1. left; auto. }
    assert (Hqs : (qft < size (w_heap w2))%nat /\ (o1' < size (w_heap w2))%nat).
    { split; eapply (circ_size _ _ _ _ C2); apply anc_arg; [left|right; left]; auto. }
    assert (Hqn : qft <> o1').
    { intros E. pose proof (c_wires _ _ _ _ C2 qft Q (or_introl eq_refl)) as Wa. pose proof (c_wires _ _ _ _ C2 o1' A (or_intror (or_introl eq_refl))) as Wb.
      rewrite <- E in Wb. assert (EQ : Q = A) by (eapply (circ_fun _ _ _ _ C2); eauto; apply anc_arg; left; auto).
      assert (H0 : In 0 Q) by (unfold Q; apply in_zrange; lia). rewrite EQ in H0. unfold A in H0. apply in_zrange in H0. lia. }
    (* the joined register, its parts and the repeated measurement *)
    destruct (qubit_total (w_heap w2) [qft; o1']) as (h3 & E3).
    { constructor; [intros [E|[]]; congruence|constructor; [intros []|constructor]]. } { discriminate. }
    { intros i [<-|[<-|[]]]; split; try apply Hqs.
      - apply SK2. left; auto.
      - destruct SK2 as [SKa _]. rewrite SKa; [apply SK1; right; left; auto|apply SK1; right; left; auto|].
        intros [E|[]]. inversion ND1 as [|? ? Hni _]; subst. apply Hni. left; auto. }
    { rewrite sum_n_widths, !widths_cons. change (widths (w_heap w2) []) with 0.
      rewrite <- (circ_len _ _ _ _ C2 qft Q), <- (circ_len _ _ _ _ C2 o1' A) by (cbn; auto). lia. }
    pose proof (built_wf _ _ (c_built _ _ _ _ C2)) as WF2.
    assert (Hj : (size (w_heap w2) < size h3)%nat /\ inputs_of h3 (size (w_heap w2)) = [qft; o1'] /\ nd_kind (nd h3 (size (w_heap w2))) = KQubit).
    { destruct (new_node_ok (w_heap w2) KQubit [qft; o1'] None None false None h3 (Ok (size (w_heap w2))) (wf_base _ _ WF2)) as (_ & _ & _ & _ & _ & F); auto.
      - intros i [<-|[<-|[]]]; apply Hqs.
      - exact I. - intros _; reflexivity.
      - destruct (F _ eq_refl) as (_ & S1 & Aa & B & _). split; [lia|]. auto. }
    destruct Hj as (Hj & Hi3 & Hk3). set (J := size (w_heap w2)) in *.
    assert (G3 : grow srcs (w_heap w2) vis2 [(qft, Q); (o1', A)] h3 (vis2 ++ [J]) [(J, Q ++ A)] (fun v => v)).
    { pose proof (node_grow srcs (w_heap w2) vis2 [(qft, Q); (o1', A)] [] (M_Graph.Identity [qft; o1']) h3 J KQubit (fun v => v)) as NG. cbn [app map fst snd concat] in NG. rewrite app_nil_r in NG.
      apply NG; auto; try discriminate; [cbn [exec]; unfold J in *; rewrite E3; reflexivity]. }
    pose proof (grow_circ _ _ _ _ _ _ _ _ G3) as C3. pose proof (built_wf _ _ (c_built _ _ _ _ C3)) as WF3. assert (X3 : ext (w_heap w2) h3) by apply G3.
    destruct (split_inputs h3 (vis2 ++ [J]) J WF3) as (h4 & ids & pieces & E4 & Sel & Hge & Hz & Hc).
    { apply in_app_iff; right; left; auto. } { rewrite Hi3. cbn. lia. }
    { rewrite Hi3. intros i Hi. assert (Hlt : (i < size (w_heap w2))%nat) by (destruct Hi as [<-|[<-|[]]]; apply Hqs). rewrite (ext_width (w_heap w2) h3); auto.
      destruct Hi as [<-|[<-|[]]]; [rewrite <- (circ_len _ _ _ _ C2 qft Q)|rewrite <- (circ_len _ _ _ _ C2 o1' A)]; cbn; auto; lia. }
    assert (Hjl : zlen (Q ++ A) = width h3 J) by (apply (circ_len _ _ _ _ C3); left; auto).
    assert (Hzl : map zlen pieces = map zlen [Q; A]).
    { rewrite Hz, Hi3. cbn [map]. rewrite !(ext_width (w_heap w2) h3) by (auto; apply Hqs).
      rewrite (circ_len _ _ _ _ C2 qft Q), (circ_len _ _ _ _ C2 o1' A) by (cbn; auto). auto. }
    assert (Hl2 : length ids = 2%nat).
    { assert (length pieces = 2%nat) as <- by (rewrite <- (map_length zlen), Hzl; auto). clear - Sel. induction Sel; cbn; auto. }
    destruct ids as [|out1 [|out2 [|]]]; try discriminate.
    assert (G4 : grow srcs h3 (vis2 ++ [J]) [(J, Q ++ A)] h4 ((vis2 ++ [J]) ++ [out1; out2]) [(out1, Q); (out2, A)] (fun v => v)).
    { replace [(out1, Q); (out2, A)] with (combine [out1; out2] (map (map (znth 0 (Q ++ A))) pieces) ++ []).
      - eapply (split_grow srcs h3 (vis2 ++ [J]) J (Q ++ A) [] (M_Graph.Split J None)); eauto.
        + unfold split in E4. destruct (split_bounds h3 J None) as [bd|] eqn:Eb; [|discriminate].
          apply split_loop_sorted in E4. destruct E4 as (new & -> & Hs & _). auto.
        + discriminate.
        + rewrite Hc, <- Hjl. intros p Hp. apply in_zrange in Hp. auto.
      - pose proof (pieces_groups [Q; A] pieces) as PG. cbn [concat] in PG. rewrite app_nil_r in PG. rewrite PG; auto. rewrite Hc, Hjl. auto. }
    pose proof (grow_circ _ _ _ _ _ _ _ _ G4) as C4.
    destruct (measure_tail srcs h4 _ out1 Q [(out2, A)] (KStoch 0) (or_intror eq_refl) C4 NDQ NQ) as (h5 & mq & M5 & _ & _ & T5).
    (* the measurement *)
    assert (T25 : tailed srcs (w_heap w2) vis2 [(qft, Q); (o1', A)] h5 (((vis2 ++ [J]) ++ [out1; out2]) ++ [mq]) [(qft, Q); (o1', A)] []).
    { eapply side_tailed; [exact C2|exact (proj1 T5)| | |].
      - eapply ext_trans; [exact X3|]. eapply ext_trans; [apply G4|apply T5].
      - intros i Hi. rewrite !in_app_iff. auto.
      - intros c l Hs. apply T5. apply G4. apply G3. exact Hs. }
    destruct (measure_tail srcs h5 _ qft Q [(o1', A)] KMeasure (or_introl eq_refl) (proj1 T25) NDQ NQ) as (h6 & mm & M6 & Km & Im & T6).
    pose proof (tailed_trans srcs _ _ _ _ _ _ _ _ _ _ _ T25 T6) as T. cbn [app] in T.
    set (vis6 := (((vis2 ++ [J]) ++ [out1; out2]) ++ [mq]) ++ [mm]) in *.
    set (w6 := set_heap (set_heap (set_heap (set_heap w2 h3) h4) h5) h6).
    exists w6, mq, mm. split.
    { unfold make_circuit, new_qubit, split_two. fold dq. change (w_heap start_qfft) with (empty_heap (K := K)). rewrite E1. cbn [on_heap fst snd sbind]. change (w_heap (set_heap start_qfft h1)) with h1.
      rewrite E2. cbn [on_heap fst snd sbind]. change (set_heap (set_heap start_qfft h1) h2) with w0. rewrite K1. cbn [two_outputs sbind].
      unfold QFFT. rewrite K2. cbn [one_output sbind]. rewrite E3. cbn [on_heap fst snd sbind set_heap w_heap]. rewrite E4. cbn [on_heap fst snd sbind two_outputs set_heap w_heap].
      rewrite M5. cbn [on_heap fst snd sbind set_heap w_heap]. rewrite M6. reflexivity. }
    change (w_heap w6) with h6. intros ev He Hsc Hd Ht.
    assert (X26 : ext h2 h6) by (eapply ext_trans; [apply G|apply T]).
    assert (El' : layout h6 srcs = combine srcs [Q; A]).
    { rewrite <- El. unfold layout. f_equal. f_equal. apply map_ext_in. intros i Hi. apply (ext_fields _ _ i X26). apply (f_size _ _ F2); auto. }
    assert (HW : forall q g, In (q, g) (combine srcs [Q; A]) -> wires h6 srcs q g).
    { intros q g Hq. rewrite <- El' in Hq. apply (layout_wires h6 srcs srcs [] 0); auto. }
    assert (HI : initial h6 srcs n [] SNone [(Q, dq)]).
    { apply initial_feed. split; [constructor|]. split; [intros z []|].
      exists [], [(Q, dq)]. split; [constructor|]. split; [|split; [reflexivity|apply shor_feeds]].
      assert (Dd : forall i, In i srcs -> nd_default (nd h6 i) = nd_default (nd h2 i)).
      { intros i Hi. destruct (ext_fields _ _ i X26 (f_size _ _ F2 i Hi)) as (_ & _ & _ & _ & T' & _). auto. }
      apply dr_use; [intros []|unfold default_amps; rewrite (Dd 0%nat ltac:(left; auto)), V2; auto|apply HW; left; auto|].
      apply dr_skip; [right; unfold default_amps; rewrite (Dd 1%nat ltac:(right; left; auto)), D2; auto|]. constructor. }
    assert (S6 : session h6 vis6 cache0 []). { apply T. apply G. apply F2. }
    pose proof (proj1 T) as C6. pose proof (circ_circuit _ _ _ _ C6) as (B6 & In6 & Sp6 & Sw6 & Sr6 & Ok6).
    (* the second output of F is not needed *)
    assert (Sl : slim h6 (map fst [(mm, Q); (o1', A)]) [mm]).
    { pose proof (built_wf _ _ (c_built _ _ _ _ C1)) as WF1. assert (X12 : ext (w_heap w1) (w_heap w2)) by apply G2'. assert (X62 : ext (w_heap w2) h6) by apply T.
      assert (Ho1 : (o1 < size (w_heap w1))%nat /\ (o1' < size (w_heap w1))%nat) by (split; apply SK1; [left|right; left]; auto).
      assert (X16 : ext (w_heap w1) h6) by (eapply ext_trans; eauto).
      split; [intros i [<-|[]]; left; auto|]. intros d [<-|[<-|[]]]; [left; left; auto|right].
      cbn [fst]. rewrite (ext_kind (w_heap w1) h6), (ext_inputs (w_heap w1) h6), Hj3 by (auto; apply Ho1).
      split; [exists fix_; auto|]. split; [discriminate|]. intros j [<-|[]].
      apply (anc_input h6 [mm] o1); [|rewrite (ext_inputs (w_heap w1) h6), Hj2 by (auto; apply Ho1); left; auto].
      assert (Ha : ancestor (w_heap w2) [qft; o1'] o1).
      { destruct G2' as (_ & _ & _ & _ & _ & new & _ & _ & N3 & _). apply N3. left. apply anc_arg. left; auto. }
      assert (Hb : forall i, ancestor (w_heap w2) [qft; o1'] i -> ancestor (w_heap w2) [qft] i \/ i = o1' \/ (i <= fj)%nat).
      { intros i H. induction H as [i Hi|i j H IH Hj'].
        - destruct Hi as [<-|[<-|[]]]; auto. left. apply anc_arg. left; auto.
        - destruct IH as [IH|[->|IH]].
          + left. eapply anc_input; eauto.
          + rewrite (ext_inputs (w_heap w1) (w_heap w2)), Hj3 in Hj' by (auto; apply Ho1). destruct Hj' as [<-|[]]. right; right; lia.
          + right; right. assert (Hi : (i < size (w_heap w2))%nat) by (destruct Ho1; destruct X12; lia). apply (wf_in _ (wf_base _ _ WF2)) in Hj'; auto. lia. }
      destruct (Hb o1 Ha) as [Hc1|[Hc1|Hc1]]; [|congruence|lia].
      clear - Hc1 X62 Im WF2 Hqs. induction Hc1 as [i Hi|i j H IH Hj'].
      - destruct Hi as [<-|[]]. apply (anc_input h6 [mm] mm); [apply anc_arg; left; auto|]. rewrite Im. left; auto.
      - apply (anc_input h6 [mm] i); auto. rewrite (ext_inputs (w_heap w2) h6); auto.
        clear - H Hqs WF2. induction H as [i [<-|[]]|i j H IH Hj]; [apply Hqs|]. apply (wf_in _ (wf_base _ _ WF2)) in Hj; auto. lia. }
    destruct (tail_born srcs h2 (w_heap w2) vis2 _ _ h6 vis6 _ mm [mm] F2 ltac:(rewrite El; exact G) T Sl Km) with (c := cache0 (K := K)) (l := @nil (list nat)) (ev := ev) (feed := @nil (fkey * feed_t K)) (strict := false) (state := SNone (K := K)) (init := [(Q, dq)])
      as (c' & st_ & cm & y & p & R & Hni & groups & Hg & Hsel & _); rewrite ?Ew; auto.
    { intros a []. } { discriminate. } { apply shor_norm; auto. }
    exists y. split.
    - unfold measure_peak. rewrite R.
      assert (Elk : lookup mm (cm ++ [(mm, CMeas y p)]) = Ok (CMeas y p)).
      { clear - Hni. induction cm as [|[j cv] cm IH]; cbn [app lookup]; [rewrite Nat.eqb_refl; auto|].
        destruct (Nat.eqb_spec mm j) as [->|]; [exfalso; apply Hni; left; auto|]. apply IH. intros H. apply Hni. right; auto. }
      rewrite Elk. reflexivity.
    - rewrite Ew in Hsel. assert (Eg : concat groups = Q).
      { apply (circ_fun _ _ _ _ C6 mm); [apply anc_arg; left; auto| |apply (c_wires _ _ _ _ C6); left; auto]. apply wires_keep; auto.
        - rewrite Km. discriminate. - rewrite Im. discriminate. }
      rewrite Eg in Hsel. exact Hsel.
  Qed.
End Program.
