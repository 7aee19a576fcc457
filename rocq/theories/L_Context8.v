(** What contexts and wrappers get wrong, keyword arguments, and QFFT called by the user. *)
From Coq Require Import Sorted Reals.
From Verif Require Import Base BaseR S_Bits L_Bits M_Kron S_Kron M_Ops S_Ops M_Feed S_Feed M_Func S_Func
  M_Measure S_Measure L_Alg M_Graph S_Graph L_Graph1 L_Graph2 L_Graph3 L_Graph9 M_Context M_ContextR S_Context S_ContextR
  L_Grow1 L_Context1 L_Context2 L_Context3 L_Context5 L_Context6 L_Context7 L_QFFT5 L_QFFT6.
Local Open Scope Z_scope.

Section Wrong.
  Context {K : Type} {OK : OrdRing K}.
  Notation C := (Cx K).

  (** ** two qubits in one context *)
  Lemma call_two cn (w : world K) fn c0 c1 c args given w' outs :
    w_stack w = [[mkCtx fn [c0; c1] [0; 1]]] -> w_total w = 2 -> args <> [] ->
    (forall i, In i (c0 :: c1 :: args) -> (i < size (w_heap w))%nat /\ 0 < width (w_heap w) i) ->
    call_op cn w c (map AQ args) given = (w', Ok outs) ->
    exists o0 o1 o2 rest, new_outputs (w_heap w) (w_heap w') (c0 :: c1 :: args) (o0 :: o1 :: o2 :: rest) /\
      w_stack w' = [[mkCtx fn [o0; o2] [0; 1]]] /\ outs = o1 :: rest.
  Proof.
    intros Est Ht Hne Hin E. set (L := c0 :: c1 :: args) in *.
    assert (HLs : forall i, In i L -> (i < size (w_heap w))%nat) by (intros i Hi; destruct (Hin i Hi); auto).
    unfold call_op, apply_in_context in E. rewrite Est in E. cbn [concat app] in E.
    assert (EP : put_in_order AQ [mkCtx fn [c0; c1] [0; 1]] (map AQ args) = (map AQ L : list (arg K))) by reflexivity.
    rewrite EP in E. unfold on_heap in E.
    destruct (build cn (w_heap w) _ (map AQ L) no_kw) as [h1 [q|e]] eqn:E1; cbn [fst snd sbind] in E; [|discriminate].
    cbn [set_heap w_heap] in E. destruct (split h1 q None) as [h2 [ids|e]] eqn:E2; cbn [fst snd sbind] in E; [|discriminate].
    destruct (build_core cn _ _ L _ _ _ E1 ltac:(discriminate) HLs) as (Hq & K1 & I1 & W1). pose proof K1 as [K1a K1b].
    destruct (split_core h1 q L h2 ids I1 ltac:(discriminate)) as (K2 & Hlen & Hout); auto.
    { intros i Hi. destruct (K1b i (HLs i Hi)) as (_ & -> & _). apply Hin; auto. }
    { rewrite W1. symmetry. apply sum_n_keeps; auto. }
    assert (NO : new_outputs (w_heap w) h2 L ids).
    { eapply outputs_of; eauto. }
    destruct args as [|a args]; [congruence|].
    destruct ids as [|o0 [|o1 [|o2 rest]]]; cbn in Hlen; try discriminate.
    assert (SC : split_context [mkCtx fn [c0; c1] [0; 1]] (o0 :: o1 :: o2 :: rest) = Ok ([o0; o2], o1 :: rest)).
    { cbn [split_context cx_idx py_pops]. unfold py_pop. change (0 <? 0) with false. change (1 <? 0) with false. cbn iota.
      change (0 <=? 0) with true. change (0 <=? 1) with true. cbn [andb]. rewrite !zlen_cons. pose proof (zlen_nonneg rest).
      rewrite (proj2 (Z.ltb_lt 0 (zlen rest + 1 + 1 + 1))) by lia. change (Z.to_nat 0) with O. cbn [skipn firstn app bind fst snd].
      rewrite !zlen_cons. rewrite (proj2 (Z.ltb_lt 1 (zlen rest + 1 + 1))) by lia. reflexivity. }
    rewrite SC in E. unfold set_qubits in E. cbn [set_heap w_heap w_stack w_total w_funcs] in E. rewrite Ht, Est in E.
    change (negb (zlen [o0; o2] =? 2)) with false in E. cbn iota in E. cbn [sbind] in E. inversion E; subst. cbn [w_heap w_stack].
    exists o0, o1, o2, rest. auto.
  Qed.

  (** ** ops with a parameter inside a context of controls *)
  Definition ctl_stack (w : world K) : Prop := exists cx all, concat (w_stack w) = cx :: all /\ forall cx', In cx' (cx :: all) -> exists q, cx' = mkCtx C_ctor [q] [0].
  Lemma as_qubits_not l (x : arg K) : In x l -> (forall i, x <> AQ i) -> as_qubits l = None.
  Proof.
    induction l as [|a l IH]; intros Hx Hn; [destruct Hx|]. cbn [as_qubits]. destruct Hx as [->|Hx].
    - destruct x; auto. exfalso. eapply Hn; eauto.
    - rewrite (IH Hx Hn). destruct a; auto.
  Qed.
  Lemma build_param cn c x (Hx : forall i, x <> AQ i) : forall k h l given, In x l ->
    exists h' e, build cn h (nest k (C_ctor c)) l given = (h', Raise e).
  Proof.
    assert (S : forall c h l given, In x l -> exists h' e, build cn h (C_ctor c) l given = (h', Raise e)).
    { intros c' h l given Hi. cbn [C_ctor build]. destruct (zlen l <? 2); eauto. destruct l as [|[q| | |] l]; eauto.
      destruct (negb _); eauto. destruct (repeated_args _); eauto. destruct (build _ _ _ l _) as [h1 [i|e]]; cbn [sbind]; eauto.
      destruct (nd_kind (nd h1 i)); eauto. rewrite (as_qubits_not (AQ q :: l) x); auto. eauto. }
    induction k as [|k IH]; intros h l given Hi; cbn [nest]; apply S; auto.
  Qed.
  Lemma param_raises cn (w : world K) c args given x : ctl_stack w -> In x args -> (forall i, x <> AQ i) ->
    exists w' e, call_op cn w c args given = (w', Raise e).
  Proof.
    intros (cx & all & E & H) Hi Hx. unfold call_op, apply_in_context. destruct (w_stack w) as [|s st0] eqn:Est; [discriminate|]. rewrite E.
    assert (exists ctl, cx :: all = map ctl_ctx ctl /\ length ctl = S (length all)) as (ctl & Ec & Lc).
    { clear - H. revert H. change (S (length all)) with (length (cx :: all)). generalize (cx :: all) as l.
      induction l as [|a l IH]; intros H; [exists []; auto|]. destruct IH as (ctl & -> & L); [intros; apply H; right; auto|].
      destruct (H a (or_introl eq_refl)) as (q & ->). exists (q :: ctl). cbn. rewrite map_length. rewrite map_length in L. auto. }
    rewrite Ec, put_ctl, wrap_ctl, Lc. cbn [nest].
    assert (N : forall k c, nest (S k) c = nest k (C_ctor c)) by (induction k as [|k IH]; intros; [reflexivity|cbn [nest] in *; rewrite <- IH; reflexivity]).
    change (C_ctor (nest (length all) c)) with (nest (S (length all)) c). rewrite N.
    destruct (build_param cn c x Hx (length all) (w_heap w) (map AQ ctl ++ args) no_kw) as (h' & e & Eb); [apply in_app_iff; auto|].
    unfold on_heap. rewrite Eb. cbn [fst snd sbind]. eauto.
  Qed.

  (** ** keyword arguments *)
  Lemma new_node_simple (h : heap K) k i : (i < size h)%nat -> 0 < width h i -> is_qubit k = false ->
    exists h', new_node h k [i] None None false None = (h', Ok (size h)) /\ nd_kind (nd h' (size h)) = k.
  Proof.
    intros Hi Hw Hk. unfold new_node, sum_n. cbn [fold_left]. rewrite Z.add_0_l. fold (width h i). rewrite (proj2 (Z.leb_gt _ _)) by auto.
    cbn [sfold]. unfold set_sink. set (h1 := mkHeap _ _).
    assert (Ek : nd h1 (size h) = mkNode k [i] (width h i) (h_qid h) None []) by (unfold h1; rewrite nd_snoc, Nat.eqb_refl; reflexivity).
    rewrite Ek. cbn [nd_kind]. rewrite Hk. cbn [sbind]. eexists. split; [reflexivity|].
    unfold add_sink, nd. cbn [h_nodes]. rewrite nth_upd. fold (nd h1 (size h)). destruct (_ && _)%bool eqn:Eb; [|rewrite Ek; auto].
    apply andb_true_iff in Eb. destruct Eb as [Eb _]. apply Nat.eqb_eq in Eb. lia.
  Qed.
  Lemma split_self (h : heap K) q i : inputs_of h q = [i] -> split h q None = (h, Ok [q]).
  Proof. intros E. unfold split, split_bounds. unfold inputs_of in E. rewrite E. reflexivity. Qed.

  Lemma top_call cn (w : world K) c args given o dagger h1 : w_stack w = [] ->
    build cn (w_heap w) c args no_kw = (h1, Ok (size (w_heap w))) -> nd_kind (nd h1 (size (w_heap w))) = KMat o dagger ->
    (exists i, inputs_of h1 (size (w_heap w)) = [i]) ->
    exists w' q, call_op cn w c args given = (w', Ok [q]) /\ nd_kind (nd (w_heap w') q) = KMat o dagger.
  Proof.
    intros Es Eb Ek (i & Ei). unfold call_op, apply_in_context. rewrite Es. unfold on_heap. rewrite Eb. cbn [fst snd sbind set_heap w_heap].
    rewrite (split_self _ _ i Ei). cbn [fst snd sbind]. eexists _, _. split; [reflexivity|]. cbn [set_heap w_heap]. auto.
  Qed.
  (** the arguments of a call are dropped: the phase gates *)
  Lemma kw_dropped cn (w : world K) q e m given : w_stack w = [] -> (q < size (w_heap w))%nat -> 0 < width (w_heap w) q ->
    (exists w' r, call_op cn w (Wrap BR no_kw) [APhi e; AQ q] given = (w', Ok [r]) /\ nd_kind (nd (w_heap w') r) = KMat (OR e) false) /\
    (exists w' r, call_op cn w (Wrap BRm no_kw) [AInt m; AQ q] given = (w', Ok [r]) /\ nd_kind (nd (w_heap w') r) = KMat (OR (c_rm cn m false)) false).
  Proof.
    intros Es Hq Hw. split.
    - destruct (new_node_simple (w_heap w) (KMat (OR e) false) q Hq Hw eq_refl) as (h1 & E & Ek).
      eapply top_call; eauto. exists q. apply new_node_core in E. tauto.
    - destruct (new_node_simple (w_heap w) (KMat (OR (c_rm cn m false)) false) q Hq Hw eq_refl) as (h1 & E & Ek).
      eapply top_call; eauto. exists q. apply new_node_core in E. tauto.
  Qed.
  (** those stored in the wrapper are used *)
  Lemma kw_stored cn (w : world K) q b o kw given : gate_of b cn = Some o -> w_stack w = [] -> (q < size (w_heap w))%nat -> 0 < width (w_heap w) q ->
    flag (kw_nosink kw) = false ->
    exists w' r, call_op cn w (Wrap b kw) [AQ q] given = (w', Ok [r]) /\ nd_kind (nd (w_heap w') r) = KMat o (flag (kw_dagger kw)).
  Proof.
    intros Hb Es Hq Hw Hns. destruct (new_node_simple (w_heap w) (KMat o (flag (kw_dagger kw))) q Hq Hw eq_refl) as (h1 & E & Ek).
    eapply top_call; eauto; [|exists q; apply new_node_core in E; tauto].
    assert (Ec : forall g, call_kwargs kw g = kw) by (intros; destruct kw as [[|] [|] [|]]; reflexivity).
    destruct b; cbn in Hb; try discriminate; injection Hb as <-; cbn [build construct as_qubits new_gate]; rewrite Ec, Hns; exact E.
  Qed.
  Lemma kw_stored_phase cn (w : world K) q e m kw given : w_stack w = [] -> (q < size (w_heap w))%nat -> 0 < width (w_heap w) q ->
    flag (kw_nosink kw) = false ->
    (exists w' r, call_op cn w (Wrap BR kw) [APhi e; AQ q] given = (w', Ok [r]) /\ nd_kind (nd (w_heap w') r) = KMat (OR e) (flag (kw_dagger kw))) /\
    (exists w' r, call_op cn w (Wrap BRm kw) [AInt m; AQ q] given = (w', Ok [r]) /\
       nd_kind (nd (w_heap w') r) = KMat (OR (c_rm cn m (flag (kw_negate kw)))) (flag (kw_dagger kw))).
  Proof.
    intros Es Hq Hw Hns. assert (Ec : forall g, call_kwargs kw g = kw) by (intros; destruct kw as [[|] [|] [|]]; reflexivity). split.
    - destruct (new_node_simple (w_heap w) (KMat (OR e) (flag (kw_dagger kw))) q Hq Hw eq_refl) as (h1 & E & Ek).
      eapply top_call; eauto; [|exists q; apply new_node_core in E; tauto]. cbn [build construct as_qubits new_gate]. rewrite Ec, Hns; exact E.
    - destruct (new_node_simple (w_heap w) (KMat (OR (c_rm cn m (flag (kw_negate kw)))) (flag (kw_dagger kw))) q Hq Hw eq_refl) as (h1 & E & Ek).
      eapply top_call; eauto; [|exists q; apply new_node_core in E; tauto]. cbn [build construct as_qubits new_gate]. rewrite Ec, Hns; exact E.
  Qed.

  Lemma kw_stored_all cn (w : world K) q kw given : w_stack w = [] -> (q < size (w_heap w))%nat -> 0 < width (w_heap w) q -> flag (kw_nosink kw) = false ->
    (forall b o, gate_of b cn = Some o ->
       exists w' r, call_op cn w (Wrap b kw) [AQ q] given = (w', Ok [r]) /\ nd_kind (nd (w_heap w') r) = KMat o (flag (kw_dagger kw))) /\
    (forall e, exists w' r, call_op cn w (Wrap BR kw) [APhi e; AQ q] given = (w', Ok [r]) /\
       nd_kind (nd (w_heap w') r) = KMat (OR e) (flag (kw_dagger kw))) /\
    (forall m, exists w' r, call_op cn w (Wrap BRm kw) [AInt m; AQ q] given = (w', Ok [r]) /\
       nd_kind (nd (w_heap w') r) = KMat (OR (c_rm cn m (flag (kw_negate kw)))) (flag (kw_dagger kw))).
  Proof.
    intros Es Hq Hw Hns. split; [intros; eapply kw_stored; eauto|].
    split; intros x; [destruct (kw_stored_phase cn w q x 0 kw given)|destruct (kw_stored_phase cn w q 0%r x kw given)]; auto.
  Qed.

  (** ** C changes its argument *)
  Lemma C_changes cn (w0 w1 : world K) f a b ga gb vis srcs rest v :
    (f < length (w_funcs w0))%nat -> wrappers_of w0 f = [] -> apply_C w0 (VFun f) = (w1, v) -> w_stack w0 = [] -> w_total w0 = 0 ->
    circuit (w_heap w0) vis (a :: b :: rest) srcs -> wires (w_heap w0) srcs a [ga] -> wires (w_heap w0) srcs b [gb] -> ga <> gb ->
    width (w_heap w0) a = 1 -> width (w_heap w0) b = 1 ->
    let flip_first := fun (_ : unit) => run_steps cn [(Wrap BNot no_kw, [0%nat])] in
    let n := widths (w_heap w0) srcs in
    (exists w' vis' a' b', call_func w0 f flip_first tt [a; b] = (w', Ok [a'; b']) /\
       continues (w_heap w0) vis (a :: b :: rest) srcs (w_heap w') vis' (a' :: b' :: rest) (apply_each n gate_X [ga])) /\
    (exists w' vis' a' b', call_func w1 f flip_first tt [a; b] = (w', Ok [a'; b']) /\
       continues (w_heap w0) vis (a :: b :: rest) srcs (w_heap w') vis' (a' :: b' :: rest) (when n [ga] (apply_each n gate_X [gb]))).
  Proof.
    intros Hf H0 HC Es Et Hc Wa Wb Hne Ha Hb flip_first n.
    assert (ND : NoDup [ga; gb]) by (constructor; [intros [H|[]]; congruence|constructor; [intros []|constructor]]). split.
    - destruct (steps_func cn [(Wrap BNot no_kw, [0%nat])] [(ONot, [0%nat])] [[ga]; [gb]] w0 w0 (VFun f) f vis srcs [] [a; b] rest [])
        as (_ & w' & vis' & cs' & qs' & E & _ & _ & _ & F1 & F2 & HC'); auto.
      + intros c [].
      + intros q [<-|[<-|[]]]; lia.
      + constructor; [|constructor]. repeat split; auto; try discriminate; [repeat constructor; intros []|intros p [<-|[]]; cbn; lia|constructor].
      + inversion F1; subst. inversion F2 as [|a' ? ? ? ? F3]; subst. inversion F3 as [|b' ? ? ? ? F4]; subst. inversion F4; subst.
        exists w', vis', a', b'. split; auto. 
    - destruct (steps_func cn [(Wrap BNot no_kw, [0%nat])] [(ONot, [0%nat])] [[gb]] w0 w1 v f vis srcs [a] [b] rest [[ga]])
        as (_ & w' & vis' & cs' & qs' & E & _ & _ & _ & F1 & F2 & HC'); auto.
      + intros c [<-|[]]; auto.
      + intros q [<-|[]]; lia.
      + constructor; [|constructor]. repeat split; auto; try discriminate; [repeat constructor; intros []|intros p [<-|[]]; cbn; lia|constructor].
      + cbn [rev app] in F1. inversion F1 as [|a' ? ? ? ? F3]; subst. inversion F3; subst. inversion F2 as [|b' ? ? ? ? F4]; subst. inversion F4; subst.
        exists w', vis', a', b'. split; auto.
  Qed.
  Lemma C_keeps (w : world K) : (forall c, fst (apply_C w (VOp c)) = w) /\
    (forall f g, f <> g -> wrappers_of (fst (apply_C w (VFun f))) g = wrappers_of w g).
  Proof.
    split; auto. intros f g Hne. unfold wrappers_of. cbn [apply_C fst w_funcs]. rewrite nth_upd.
    destruct (Nat.eqb_spec f g); [congruence|auto].
  Qed.
End Wrong.

(** ** QFFT *)
Lemma body_ext {K} {OK : OrdRing K} srcs fs body gs gs' U U' : (forall n v r, U n v r = U' n v r) -> body_grows srcs fs body gs gs' U -> body_grows (K := K) srcs fs body gs gs' U'.
Proof.
  intros HU HB w vis ctl cg qs rest H1 H2 H3 H4 H5 H6 H7. destruct (HB w vis ctl cg qs rest) as (w' & vis' & ctl' & outs & E & S & W & L1 & L2 & G); auto.
  exists w', vis', ctl', outs. do 5 (split; [assumption|]). eapply grow_ext; [exact G|]. intros v r _. unfold when. destruct (forallb _ _); auto.
Qed.
Lemma qfft_body_R srcs fs rev_ gs : gs <> [] -> (forall g, In g gs -> g <> []) ->
  body_grows srcs fs (qfft_body consts_R rev_) gs gs (fun n => dft_R n (concat gs) (if rev_ then concat gs else rev (concat gs))).
Proof.
  intros H1 H2. eapply body_ext; [|apply (qfft_grows (OK := ROrdRing) srcs consts_R root_R root_R1 root_R2 (fun m _ => eq_refl) fs rev_ gs H1 H2)].
  intros n v r. apply dft_real.
Qed.
Lemma qfft_call (w0 w : world R) v f rev_ vis srcs cs qs rest csg gs :
  (f < length (w_funcs w0))%nat -> wrappers_of w0 f = [] -> C_times (length cs) w0 (VFun f) = (w, v) -> w_stack w0 = [] -> w_total w0 = 0 ->
  circuit (w_heap w0) vis (cs ++ qs ++ rest) srcs -> Forall2 (wires (w_heap w0) srcs) cs csg -> Forall2 (wires (w_heap w0) srcs) qs gs ->
  (forall c, In c cs -> width (w_heap w0) c = 1) -> (forall q, In q qs -> 0 < width (w_heap w0) q) -> qs <> [] -> NoDup (concat csg ++ concat gs) ->
  let n := widths (w_heap w0) srcs in
  v = VFun f /\ exists w' vis' cs' qs', QFFT consts_R w f rev_ (cs ++ qs) = (w', Ok (cs' ++ qs')) /\
    w_stack w' = [] /\ w_total w' = 0 /\ w_funcs w' = w_funcs w /\
    Forall2 (wires (w_heap w') srcs) cs' (rev csg) /\ Forall2 (wires (w_heap w') srcs) qs' gs /\
    continues (w_heap w0) vis (cs ++ qs ++ rest) srcs (w_heap w') vis' (cs' ++ qs' ++ rest)
      (when n (concat csg) (dft_R n (concat gs) (if rev_ then concat gs else rev (concat gs)))).
Proof.
  intros Hf H0 HC Es Et Hc HFc HFq Hwd Hwq Hq Hnd n.
  apply (func_continues (qfft_body consts_R) rev_ (fun n => dft_R n (concat gs) (if rev_ then concat gs else rev (concat gs))) w0); auto.
  intros fs. apply qfft_body_R; [inversion HFq; subst; congruence|].
  apply (wires_ne (w_heap w0) vis srcs qs gs (cs ++ rest)); auto.
  destruct Hc as (B & I & S & D & [Sr1 Sr2] & O).
  assert (Ei : forall i, ancestor (w_heap w0) (qs ++ cs ++ rest) i <-> ancestor (w_heap w0) (cs ++ qs ++ rest) i).
  { intros i. apply anc_same; intros x; rewrite !in_app_iff; tauto. }
  split; auto. split; [intros x Hx; apply I; rewrite !in_app_iff in *; tauto|]. split; auto. split; auto. split.
  - split; auto. intros i. rewrite Ei. auto.
  - intros i Hi. apply O. apply Ei; auto.
Qed.
Lemma qfft_top (w : world R) f rev_ vis srcs qs rest gs :
  (f < length (w_funcs w))%nat -> wrappers_of w f = [] -> w_stack w = [] -> w_total w = 0 ->
  circuit (w_heap w) vis (qs ++ rest) srcs -> Forall2 (wires (w_heap w) srcs) qs gs ->
  (forall q, In q qs -> 0 < width (w_heap w) q) -> qs <> [] -> NoDup (concat gs) ->
  exists w' vis' qs', QFFT consts_R w f rev_ qs = (w', Ok qs') /\ w_stack w' = [] /\ w_total w' = 0 /\ w_funcs w' = w_funcs w /\
    Forall2 (wires (w_heap w') srcs) qs' gs /\
    continues (w_heap w) vis (qs ++ rest) srcs (w_heap w') vis' (qs' ++ rest)
      (dft_R (widths (w_heap w) srcs) (concat gs) (if rev_ then concat gs else rev (concat gs))).
Proof.
  intros Hf H0 Es Et Hc HF Hw Hq Hnd.
  destruct (qfft_call w w (VFun f) f rev_ vis srcs [] qs rest [] gs) as (_ & w' & vis' & cs' & qs' & E & A & B & D & F1 & F2 & HC); auto.
  { intros c []. } inversion F1; subst. exists w', vis', qs'. repeat (split; auto).
Qed.
