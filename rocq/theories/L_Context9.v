(** Running circuits that continue a circuit of fresh qubits. *)
From Coq Require Import Sorted Reals.
From Verif Require Import Base BaseR S_Bits L_Bits M_Kron S_Kron M_Ops S_Ops M_Feed S_Feed M_Func S_Func L_Func
  M_Measure S_Measure L_Alg M_Graph S_Graph L_Graph1 L_Graph2 L_Graph3 L_Graph5 L_Graph6 L_Graph5 L_Graph9 L_Graph11 L_Graph12 M_Context M_ContextR S_Context S_ContextR
  L_Grow1 L_Context1 L_Context2 L_Context3 L_Context5 L_Context6 L_Context8 S_Func L_Func.
Local Open Scope Z_scope.

Section Fresh.
  Context {K : Type} {OK : OrdRing K}.
  Notation C := (Cx K).

  Definition sched_for (h : heap K) (n : Z) (i : nat) : list Z :=
    match nd_kind (nd h i) with
    | KMat _ _ => zrange 0 (2 ^ n)
    | KF _ => zrange 0 (2 ^ width h (hd O (inputs_of h i)))
    | _ => []
    end.
  Definition with_sched (ev : env K) (h : heap K) (n : Z) : env K :=
    mkEnv (e_pick ev) (e_enum ev) (sched_for h n) (e_rand ev) (e_acc0 ev) (e_rsqrt ev) (e_junk ev) calm.

  Lemma evolves_fresh rsqrt (h : heap K) srcs n : forall cm v v', (forall i, In i (map fst cm) -> nd_kind (nd h i) = KQubit) ->
    evolves rsqrt h srcs n cm v v' -> forall r, 0 <= r < 2 ^ n -> v' r = v r.
  Proof.
    intros cm v v' Hq E. induction E as [v v' H|i cv l gs v v1 v' HF HS E IH]; intros r Hr; auto.
    rewrite IH by (auto; intros; apply Hq; right; auto). rewrite (Hq i (or_introl eq_refl)) in HS. inversion HS; auto.
  Qed.
  Lemma fresh_run (h : heap K) vis args srcs h' vis' args' U :
    (forall i, ancestor h args i -> nd_kind (nd h i) = KQubit) ->
    session h vis cache0 [] -> circuit h vis args srcs -> continues h vis args srcs h' vis' args' U ->
    (forall v v', (forall r, 0 <= r < 2 ^ widths h srcs -> v r = v' r) -> forall r, 0 <= r < 2 ^ widths h srcs -> U v r = U v' r) ->
    let n := widths h srcs in
    forall ev v, enum_ok ev -> scheds_ok ev h' n -> zlen v = 2 ^ n ->
    exists c st_ cm, run ev cache0 h' args' [] false (SList v) = (c, Ok (st_, cm)) /\ zlen st_ = 2 ^ n /\
      forall r, 0 <= r < 2 ^ n -> amp st_ r = U (amp v) r.
  Proof.
    intros Hq S (B1 & I1 & P1 & D1 & Sr1 & O1) ((B2 & I2 & P2 & D2 & Sr2 & O2) & Wd & Hv & HS & HM & _ & HR) HE n ev v He Hsc Hl.
    assert (Hn : 0 <= n) by exact (n_nonneg h vis args srcs (built_wf _ _ B1) I1 Sr1).
    set (ev1 := with_sched ev h n).
    assert (He1 : enum_ok ev1) by exact He.
    assert (Hs1 : scheds_ok ev1 h n). { intros i. cbn [ev1 with_sched e_sched]. unfold sched_for. destruct (nd_kind (nd h i)); auto using L_Func.calm_tame. }
    assert (N1 : no_measure h args) by (intros i Hi; rewrite (Hq i Hi); discriminate).
    assert (IN : forall g : heap K, initial g srcs n [] (SList v) [(zrange 0 n, v)]) by (intros g; constructor; cbn; auto; [constructor|intros x []]).
    destruct (run_top h vis cache0 [] args srcs S P1 D1 I1 ltac:(intros ? []) Sr1 O1 ev1 [] false (SList v) [(zrange 0 n, v)] He1 Hs1 (IN h)) as (R1 & T1 & _).
    destruct (T1 N1 ltac:(discriminate)) as (c1 & [st1 cm1] & E1). destruct (R1 _ _ _ E1) as (L1 & _ & A1 & V1). fold n in L1, V1.
    assert (O2' : circuit_ok h' args' srcs (widths h' srcs)) by exact O2.
    assert (S2 := HS _ _ S). fold n in Wd, HE.
    destruct (run_top h' vis' cache0 [] args' srcs S2 P2 D2 I2 ltac:(intros ? []) Sr2 O2' ev [] false (SList v) [(zrange 0 n, v)] He) as (R2 & T2 & _).
    { rewrite Wd. auto. } { rewrite Wd. apply IN. }
    destruct (T2 (HM N1) ltac:(discriminate)) as (c2 & [st2 cm2] & E2). destruct (R2 _ _ _ E2) as (L2 & _). rewrite Wd in L2.
    exists c2, st2, cm2. split; auto. split; auto. intros r Hr.
    rewrite (HR cache0 [] ev1 [] false (SList v) [(zrange 0 n, v)] cache0 [] ev [] false (SList v) c1 st1 cm1 c2 st2 cm2) ; auto; try (intros ? []; fail); try apply IN.
    - assert (Hc : forall i, In i (map fst cm1) -> nd_kind (nd h i) = KQubit) by (intros i Hi; apply Hq, A1; auto).
      apply HE; auto. intros x Hx. rewrite (evolves_fresh _ _ _ _ _ _ _ Hc V1 x Hx).
      unfold amp at 1. rewrite znth_map_zrange by lia. rewrite Z.add_0_l. apply (zrange_vec_amp h srcs); auto.
    - intros i cv Hi Hk. exfalso. rewrite Hq in Hk; [discriminate|]. apply A1. apply in_map_iff. exists (i, cv). auto.
  Qed.
End Fresh.

(** ** one fresh qubit object *)
Section One.
  Context {K : Type} {OK : OrdRing K} (k : Z) (Hk : 0 < k).
  Lemma one_exec : exec (K := K) empty_heap (NewQubit (Some k) None) = (one_qubit k, Ok [0%nat]).
  Proof. unfold one_qubit. cbn [exec]. unfold new_node. rewrite (proj2 (Z.leb_gt _ _)) by auto. reflexivity. Qed.
  Lemma one_nd : nd_kind (nd (one_qubit (K := K) k) 0) = KQubit /\ inputs_of (one_qubit (K := K) k) 0 = [] /\ width (one_qubit (K := K) k) 0 = k.
  Proof. unfold one_qubit. cbn [exec]. unfold new_node. rewrite (proj2 (Z.leb_gt _ _)) by auto. repeat split. Qed.
  Lemma one_session : session (K := K) (one_qubit k) [0%nat] cache0 [].
  Proof. change [0%nat] with ([] ++ [0%nat]). eapply session_call; [apply session_start| |apply one_exec]. intros x []. Qed.
  Lemma one_anc i : ancestor (one_qubit (K := K) k) [0%nat] i <-> i = 0%nat.
  Proof.
    split; [|intros ->; apply anc_arg; left; auto]. intros H. induction H as [i [<-|[]]|i j H IH Hj]; auto. subst i.
    destruct one_nd as (_ & E & _). rewrite E in Hj. destruct Hj.
  Qed.
  Lemma one_circuit : circuit (K := K) (one_qubit k) [0%nat] [0%nat] [0%nat] /\ wires (one_qubit (K := K) k) [0%nat] 0 (zrange 0 k) /\
    widths (one_qubit (K := K) k) [0%nat] = k.
  Proof.
    destruct one_nd as (A & B & D). assert (W : widths (one_qubit (K := K) k) [0%nat] = k) by (cbn; fold (width (one_qubit (K := K) k) 0); lia).
    split; [|split; auto].
    - split; [change [0%nat] with ([] ++ [0%nat]); eapply built_ok; [apply built_empty| |apply one_exec]; intros x []|]. split; [apply incl_refl|]. split; [|split; [|split]].
      + intros i idx p [<-|[]]. rewrite A. discriminate.
      + intros i o [<-|[]]. rewrite A. discriminate.
      + split; [repeat constructor; intros []|]. intros i. rewrite one_anc. cbn. intuition; subst; auto.
      + intros i Hi. apply one_anc in Hi. subst. unfold node_ok. rewrite A. auto.
    - pose proof (wires_source (one_qubit (K := K) k) [0%nat] [] 0 [] eq_refl) as H. cbn [widths fold_right map] in H. rewrite D in H. exact H.
  Qed.
End One.

Lemma dft_local n k rv v v' : 0 <= n -> k = n -> (forall r, 0 <= r < 2 ^ n -> v r = v' r) -> forall r, 0 <= r < 2 ^ n ->
  dft_R n (zrange 0 k) rv v r = dft_R n (zrange 0 k) rv v' r.
Proof.
  intros Hn -> Hv r Hr. unfold dft_R. f_equal. apply sum_ext. intros x Hx. apply in_zrange in Hx. f_equal. apply Hv. apply setreg_range; auto.
Qed.
Lemma qfft_run k (v : list (Cx R)) rev_ (ev : env R) : 0 < k -> zlen v = 2 ^ k -> enum_ok ev ->
  exists (w' : world R) (q : nat), QFFT consts_R (mkWorld (one_qubit k) [] 0 [[]]) 0%nat rev_ [0%nat] = (w', Ok [q]) /\
    (scheds_ok ev (w_heap w') k -> exists c st_ cm, run ev cache0 (w_heap w') [q] [] false (SList v) = (c, Ok (st_, cm)) /\ zlen st_ = 2 ^ k /\
     forall r, 0 <= r < 2 ^ k -> let y := if rev_ then r else reg k (rev (zrange 0 k)) r in
       amp st_ r = ((1 / sqrt (IZR (2 ^ k)), 0)%R * sum (zrange 0 (2 ^ k)) (fun x =>
         let t := (2 * PI * IZR (x * y) / IZR (2 ^ k))%R in (cos t, sin t) * amp v x))%r).
Proof.
  intros Hk Hl He. destruct (one_circuit (K := R) k Hk) as (Hc & Hw & Wd). destruct (one_nd (K := R) k Hk) as (A & B & D).
  destruct (qfft_top (mkWorld (one_qubit k) [] 0 [[]]) 0%nat rev_ [0%nat] [0%nat] [0%nat] [] [zrange 0 k]) as (w' & vis' & qs & E & _ & _ & _ & F & HC); auto.
  - cbn. intros q [<-|[]]. rewrite D. auto.
  - discriminate.
  - cbn. rewrite app_nil_r. apply zrange_nodup.
  - inversion F as [|q ? ? ? F1 F2]; subst. inversion F2; subst. exists w', q. split; auto. intros Hs. cbn [concat] in HC. rewrite !app_nil_r in HC.
    cbn [w_heap] in HC. rewrite Wd in HC.
    destruct (fresh_run (one_qubit k) [0%nat] [0%nat] [0%nat] (w_heap w') vis' [q] _ ltac:(intros i Hi; apply one_anc in Hi; auto; subst; auto) (one_session k Hk) Hc HC) with (ev := ev) (v := v)
      as (c & st_ & cm & Er & L & V); auto.
    + rewrite Wd. intros. apply dft_local; auto. lia.
    + rewrite Wd. auto.
    + rewrite Wd. auto.
    + rewrite Wd in *. exists c, st_, cm. split; auto. split; auto. intros r Hr y. rewrite V by auto.
      unfold dft_R. rewrite zlen_zrange by lia. rewrite Z.sub_0_r. f_equal. apply sum_ext. intros x Hx. apply in_zrange in Hx. cbv zeta.
      replace (setreg k (zrange 0 k) r x) with x.
      2:{ assert (QO : qubits_ok k (zrange 0 k)) by (split; [apply zrange_nodup|intros q0 Hq0; apply in_zrange in Hq0; auto]).
          pose proof (reg_setreg k (zrange 0 k) r x QO ltac:(rewrite zlen_zrange by lia; rewrite Z.sub_0_r; auto)) as H.
          rewrite reg_full in H; auto; [lia|]. apply setreg_range. lia. }
      unfold y. destruct rev_; auto. rewrite reg_full by lia. auto.
Qed.

(** ** the order of the outputs of controlled functions *)
Section Order.
  Context {K : Type} {OK : OrdRing K}.
  Lemma order_one (cn : consts K) steps ops gs (w0 w : world K) v f vis srcs cs qs rest csg :
    (length cs <= 1)%nat ->
    (f < length (w_funcs w0))%nat -> wrappers_of w0 f = [] -> C_times (length cs) w0 (VFun f) = (w, v) ->
    w_stack w0 = [] -> w_total w0 = 0 ->
    circuit (w_heap w0) vis (cs ++ qs ++ rest) srcs -> Forall2 (wires (w_heap w0) srcs) cs csg -> Forall2 (wires (w_heap w0) srcs) qs gs ->
    (forall c, In c cs -> width (w_heap w0) c = 1) -> (forall q, In q qs -> 0 < width (w_heap w0) q) ->
    NoDup (concat csg ++ concat gs) -> Forall2 (step_denotes cn gs) steps ops ->
    exists w' outs, call_func w f (fun (_ : unit) => run_steps cn steps) tt (cs ++ qs) = (w', Ok outs) /\
      Forall2 (wires (w_heap w') srcs) outs (csg ++ gs).
  Proof.
    intros Hl Hf H0 HC Es Et Hc HFc HFq Hwd Hwq Hnd Hs.
    destruct (steps_func cn steps ops gs w0 w v f vis srcs cs qs rest csg Hf H0 HC Es Et Hc HFc HFq Hwd Hwq Hnd Hs)
      as (_ & w' & vis' & cs' & qs' & E & _ & _ & _ & F1 & F2 & _).
    exists w', (cs' ++ qs'). split; auto. apply Forall2_app; auto.
    assert (Er : rev csg = csg) by (pose proof (Forall2_length _ _ _ HFc); destruct csg as [|a [|b csg]]; auto; cbn in *; lia). congruence.
  Qed.
  Lemma order_two (cn : consts K) steps ops gs (w0 w : world K) v f vis srcs c1 c2 qs rest g1 g2 :
    (f < length (w_funcs w0))%nat -> wrappers_of w0 f = [] -> C_times 2 w0 (VFun f) = (w, v) ->
    w_stack w0 = [] -> w_total w0 = 0 ->
    circuit (w_heap w0) vis (c1 :: c2 :: qs ++ rest) srcs -> wires (w_heap w0) srcs c1 [g1] -> wires (w_heap w0) srcs c2 [g2] ->
    Forall2 (wires (w_heap w0) srcs) qs gs ->
    width (w_heap w0) c1 = 1 -> width (w_heap w0) c2 = 1 -> (forall q, In q qs -> 0 < width (w_heap w0) q) ->
    NoDup (g1 :: g2 :: concat gs) -> Forall2 (step_denotes cn gs) steps ops ->
    exists w' c1' c2' qs', call_func w f (fun (_ : unit) => run_steps cn steps) tt (c1 :: c2 :: qs) = (w', Ok (c1' :: c2' :: qs')) /\
      wires (w_heap w') srcs c1' [g2] /\ wires (w_heap w') srcs c2' [g1] /\ Forall2 (wires (w_heap w') srcs) qs' gs.
  Proof.
    intros Hf H0 HC Es Et Hc W1 W2 HFq Hw1 Hw2 Hwq Hnd Hs.
    destruct (steps_func cn steps ops gs w0 w v f vis srcs [c1; c2] qs rest [[g1]; [g2]]) as (_ & w' & vis' & cs' & qs' & E & _ & _ & _ & F1 & F2 & _); auto.
    { intros c [<-|[<-|[]]]; auto. }
    cbn [rev app] in F1. inversion F1 as [|c1' ? ? ? X1 F3]; subst. inversion F3 as [|c2' ? ? ? X2 F4]; subst. inversion F4; subst.
    exists w', c1', c2', qs'. auto.
  Qed.
  Lemma param_controlled cn (w : world K) c args given x : In x args -> (forall i, x <> AQ i) ->
    (concat (w_stack w) = [] -> exists w' e, call_op cn w (C_ctor c) args given = (w', Raise e)) /\
    ((exists cx all, concat (w_stack w) = cx :: all /\ forall cx', In cx' (cx :: all) -> exists q, cx' = mkCtx C_ctor [q] [0]) ->
     exists w' e, call_op cn w c args given = (w', Raise e)).
  Proof.
    intros Hi Hx. split; [|intros H; apply (param_raises cn w c args given x H Hi Hx)].
    intros Hs. unfold call_op, apply_in_context. rewrite Hs. unfold put_in_order, wrap_all. cbn [rev fold_left]. unfold on_heap.
    destruct (build_param cn c x Hx 0%nat (w_heap w) args no_kw Hi) as (h' & e & E). cbn [nest] in E.
    destruct (w_stack w); rewrite E; cbn [fst snd sbind]; eauto.
  Qed.
End Order.
