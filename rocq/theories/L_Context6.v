(** Calls outside of contexts: straight-line functions and functions to which C has been applied. *)
From Coq Require Import Sorted.
From Verif Require Import Base S_Bits L_Bits M_Kron S_Kron M_Ops S_Ops M_Feed S_Feed M_Func S_Func
  M_Measure S_Measure L_Alg M_Graph S_Graph L_Graph1 L_Graph2 L_Graph3 L_Graph5 L_Graph6 L_Graph7 L_Graph8 L_Graph9 L_Graph10 L_Graph11
  M_Context S_Context L_Sinks L_Grow1 L_Grow2 L_Context1 L_Context2 L_Context3 L_Context4 L_Context5.

Section Top.
  Context {K : Type} {OK : OrdRing K}.
  Notation C := (Cx K).

  Lemma Forall2_length {A B} (P : A -> B -> Prop) l l' : Forall2 P l l' -> length l = length l'.
  Proof. induction 1; cbn; auto. Qed.
  Lemma Forall2_combine {A B} (P : A -> B -> Prop) l l' : Forall2 P l l' -> forall a b, In (a, b) (combine l l') -> P a b.
  Proof. induction 1; cbn; intros a b Hab; [destruct Hab|]. destruct Hab as [E|Hab]; auto. inversion E; subst; auto. Qed.
  Lemma combine_Forall2 {A B} (P : A -> B -> Prop) : forall l l', length l = length l' -> (forall a b, In (a, b) (combine l l') -> P a b) -> Forall2 P l l'.
  Proof.
    induction l as [|a l IH]; intros [|b l'] HL H; cbn in *; try discriminate; constructor; [apply H; auto|].
    apply IH; [lia|]. intros; apply H; auto.
  Qed.

  (** a circuit with the qubits of its arguments *)
  Lemma circuit_circ (h : heap K) vis srcs qs gs rest : circuit h vis (qs ++ rest) srcs -> Forall2 (wires h srcs) qs gs ->
    exists gr, length rest = length gr /\ circ srcs h vis (combine qs gs ++ combine rest gr).
  Proof.
    intros (B & I & S & D & Sr & O) HF.
    assert (HR : exists gr, Forall2 (wires h srcs) rest gr).
    { assert (Hi : forall i, In i rest -> exists w, wires h srcs i w).
      { intros i Hi. destruct (node_wires h vis (qs ++ rest) srcs i B I S Sr) as (w & Hw & _); eauto. apply anc_arg. apply in_app_iff; auto. }
      clear - Hi. induction rest as [|i rest IH]; [exists []; constructor|].
      destruct (Hi i (or_introl eq_refl)) as (w & Hw). destruct IH as (gr & Hg); [intros; apply Hi; right; auto|]. exists (w :: gr). constructor; auto. }
    destruct HR as (gr & HR). exists gr. pose proof (Forall2_length _ _ _ HF) as L1. pose proof (Forall2_length _ _ _ HR) as L2. split; auto.
    assert (E : map fst (combine qs gs ++ combine rest gr) = qs ++ rest) by (rewrite map_app, !map_fst_combine; auto).
    split; rewrite ?E; auto. intros q g Hq. apply in_app_iff in Hq. destruct Hq as [Hq|Hq]; [exact (Forall2_combine _ _ _ HF _ _ Hq)|exact (Forall2_combine _ _ _ HR _ _ Hq)].
  Qed.

  Lemma body_continues srcs fs body gs gs' U : body_grows srcs fs body gs gs' U -> forall (w : world K) vis qs rest,
    w_funcs w = fs -> w_stack w = [] -> w_total w = 0 ->
    circuit (w_heap w) vis (qs ++ rest) srcs -> Forall2 (wires (w_heap w) srcs) qs gs -> NoDup (concat gs) ->
    exists w' vis' outs, body w qs = (w', Ok outs) /\ w_stack w' = [] /\ w_total w' = 0 /\ w_funcs w' = fs /\
      Forall2 (wires (w_heap w') srcs) outs gs' /\
      continues (w_heap w) vis (qs ++ rest) srcs (w_heap w') vis' (outs ++ rest) (U (widths (w_heap w) srcs)).
  Proof.
    intros HB w vis qs rest Ef Es Et Hc HF Hnd. destruct (circuit_circ _ _ _ _ _ _ Hc HF) as (gr & Lr & Ci).
    pose proof (Forall2_length _ _ _ HF) as Lq.
    destruct (HB w vis [] [] qs (combine rest gr)) as (w' & vis' & ctl' & outs & E & (S1 & S2 & S3) & Hw & L1 & L2 & G); auto.
    { split; [rewrite Es|rewrite Et]; reflexivity. } { intros g []. }
    destruct ctl'; [|discriminate]. cbn [combine app concat] in *.
    exists w', vis', outs. split; auto. split; [rewrite Es in S1; cbn in S1; apply map_eq_nil in S1; auto|]. split; [congruence|]. split; [congruence|].
    pose proof (grow_circ _ _ _ _ _ _ _ _ G) as Ci'. split.
    { apply combine_Forall2; auto. intros a b Hab. apply (c_wires _ _ _ _ Ci'). apply in_app_iff; auto. }
    pose proof (grow_continues srcs _ _ _ _ _ _ _ Ci G) as HC. rewrite !map_app, !map_fst_combine in HC by auto. exact HC.
  Qed.

  Lemma wires_ne (h : heap K) vis srcs qs gs rest : circuit h vis (qs ++ rest) srcs -> Forall2 (wires h srcs) qs gs ->
    (forall q, In q qs -> 0 < width h q) -> forall g, In g gs -> g <> [].
  Proof.
    intros Hc HF Hw g Hg. destruct (circuit_circ _ _ _ _ _ _ Hc HF) as (gr & Lr & Ci). pose proof (Forall2_length _ _ _ HF) as Lq.
    assert (exists q, In (q, g) (combine qs gs)) as (q & Hq).
    { clear - Hg Lq. revert qs Lq. induction gs as [|g' gs IH]; intros [|q qs] Lq; cbn in *; try discriminate; [destruct Hg|].
      destruct Hg as [->|Hg]; [exists q; auto|]. destruct (IH Hg qs) as (q' & H); [lia|]. exists q'; auto. }
    intros ->. pose proof (circ_len _ _ _ _ Ci q []) as E. rewrite in_app_iff in E. specialize (E (or_introl Hq)).
    apply in_combine_l in Hq. specialize (Hw q Hq). change (zlen []) with 0 in E. lia.
  Qed.

  (** ** straight-line functions *)
  Lemma steps_continues (cn : consts K) steps ops gs (w : world K) vis srcs qs rest :
    w_stack w = [] -> w_total w = 0 ->
    circuit (w_heap w) vis (qs ++ rest) srcs -> Forall2 (wires (w_heap w) srcs) qs gs -> (forall q, In q qs -> 0 < width (w_heap w) q) ->
    NoDup (concat gs) -> Forall2 (step_denotes cn gs) steps ops ->
    exists w' vis' outs, run_steps cn steps w qs = (w', Ok outs) /\ w_stack w' = [] /\ w_total w' = 0 /\ w_funcs w' = w_funcs w /\
      Forall2 (wires (w_heap w') srcs) outs gs /\
      continues (w_heap w) vis (qs ++ rest) srcs (w_heap w') vis' (outs ++ rest) (acts (widths (w_heap w) srcs) gs ops).
  Proof.
    intros Es Et Hc HF Hw Hnd Hs.
    apply (body_continues srcs (w_funcs w) (run_steps cn steps) gs gs (fun n => acts n gs ops)); auto.
    apply steps_body; auto. eapply wires_ne; eauto.
  Qed.

  (** ** functions to which C has been applied *)
  Lemma C_times_spec k (w : world K) f : (f < length (w_funcs w))%nat ->
    let '(w', v) := C_times k w (VFun f) in
    v = VFun f /\ w_heap w' = w_heap w /\ w_stack w' = w_stack w /\ w_total w' = w_total w /\ length (w_funcs w') = length (w_funcs w) /\
    nth f (w_funcs w') [] = nth f (w_funcs w) [] ++ repeat (C_ctor, [0]) k.
  Proof.
    intros Hf. induction k as [|k IH]; cbn [C_times].
    - cbn. rewrite app_nil_r. auto 10.
    - destruct (C_times k w (VFun f)) as [w1 v1]. destruct IH as (-> & A & B & D & E & F). cbn [fst snd apply_C w_heap w_stack w_total w_funcs].
      split; auto. split; auto. split; auto. split; auto. split; [rewrite upd_length; auto|].
      unfold wrappers_of. rewrite nth_upd, E, Nat.eqb_refl, (proj2 (Nat.ltb_lt _ _) Hf). cbn [andb].
      rewrite F, <- app_assoc. f_equal. cbn [repeat]. rewrite repeat_cons. reflexivity.
  Qed.

  Lemma func_continues {KW} (body : KW -> world K -> list nat -> st (world K) (list nat)) kw U (w0 w : world K) v f vis srcs cs qs rest csg gs :
    (forall fs, body_grows srcs fs (body kw) gs gs U) ->
    (f < length (w_funcs w0))%nat -> wrappers_of w0 f = [] -> C_times (length cs) w0 (VFun f) = (w, v) ->
    w_stack w0 = [] -> w_total w0 = 0 ->
    circuit (w_heap w0) vis (cs ++ qs ++ rest) srcs -> Forall2 (wires (w_heap w0) srcs) cs csg -> Forall2 (wires (w_heap w0) srcs) qs gs ->
    (forall c, In c cs -> width (w_heap w0) c = 1) -> NoDup (concat csg ++ concat gs) ->
    v = VFun f /\ exists w' vis' cs' qs', call_func w f body kw (cs ++ qs) = (w', Ok (cs' ++ qs')) /\
      w_stack w' = [] /\ w_total w' = 0 /\ w_funcs w' = w_funcs w /\
      Forall2 (wires (w_heap w') srcs) cs' (rev csg) /\ Forall2 (wires (w_heap w') srcs) qs' gs /\
      continues (w_heap w0) vis (cs ++ qs ++ rest) srcs (w_heap w') vis' (cs' ++ qs' ++ rest)
        (when (widths (w_heap w0) srcs) (concat csg) (U (widths (w_heap w0) srcs))).
  Proof.
    intros HB Hf Hw0 HC Es Et Hc HFc HFq Hwd Hnd. pose proof (C_times_spec (length cs) w0 f Hf) as HS. rewrite HC in HS.
    destruct HS as (-> & A & B & D & E & F). split; auto. unfold wrappers_of in Hw0. rewrite Hw0 in F. cbn [app] in F.
    pose proof (Forall2_length _ _ _ HFc) as Lc. pose proof (Forall2_length _ _ _ HFq) as Lq.
    assert (HFA := Forall2_app HFc HFq). rewrite app_assoc in Hc.
    destruct (circuit_circ _ _ _ _ _ _ Hc HFA) as (gr & Lr & Ci).
    assert (Hcs : forall g, In g csg -> zlen g = 1).
    { intros g Hg. assert (exists q, In (q, g) (combine cs csg)) as (q & Hq).
      { clear - Hg Lc. revert cs Lc. induction csg as [|g' gs IH]; intros [|q qs] Lq; cbn in *; try discriminate; [destruct Hg|].
        destruct Hg as [->|Hg]; [exists q; auto|]. destruct (IH Hg qs) as (q' & H); [lia|]. exists q'; auto. }
      rewrite <- (Hwd q) by (eapply in_combine_l; eauto). apply (circ_len _ _ _ _ Ci). rewrite combine_app, !in_app_iff by auto. auto. }
    rewrite <- A in Hc, HFA.
    destruct (body_continues srcs (w_funcs w) _ _ _ _ (func_body srcs (w_funcs w) f body kw gs gs U csg (HB _) ltac:(rewrite F, Lc; auto) Hcs) w vis (cs ++ qs) rest)
      as (w' & vis' & outs & R1 & R2 & R3 & R4 & R5 & R6); auto; try congruence.
    { rewrite concat_app. auto. }
    apply Forall2_app_inv_r in R5. destruct R5 as (cs' & qs' & H1 & H2 & ->).
    exists w', vis', cs', qs'. rewrite !A in R6. rewrite <- !app_assoc in R6. auto 10.
  Qed.

  Lemma steps_func (cn : consts K) steps ops gs (w0 w : world K) v f vis srcs cs qs rest csg :
    (f < length (w_funcs w0))%nat -> wrappers_of w0 f = [] -> C_times (length cs) w0 (VFun f) = (w, v) ->
    w_stack w0 = [] -> w_total w0 = 0 ->
    circuit (w_heap w0) vis (cs ++ qs ++ rest) srcs -> Forall2 (wires (w_heap w0) srcs) cs csg -> Forall2 (wires (w_heap w0) srcs) qs gs ->
    (forall c, In c cs -> width (w_heap w0) c = 1) -> (forall q, In q qs -> 0 < width (w_heap w0) q) ->
    NoDup (concat csg ++ concat gs) -> Forall2 (step_denotes cn gs) steps ops ->
    v = VFun f /\ exists w' vis' cs' qs', call_func w f (fun (_ : unit) => run_steps cn steps) tt (cs ++ qs) = (w', Ok (cs' ++ qs')) /\
      w_stack w' = [] /\ w_total w' = 0 /\ w_funcs w' = w_funcs w /\
      Forall2 (wires (w_heap w') srcs) cs' (rev csg) /\ Forall2 (wires (w_heap w') srcs) qs' gs /\
      continues (w_heap w0) vis (cs ++ qs ++ rest) srcs (w_heap w') vis' (cs' ++ qs' ++ rest)
        (when (widths (w_heap w0) srcs) (concat csg) (acts (widths (w_heap w0) srcs) gs ops)).
  Proof.
    intros Hf H0 HC Es Et Hc HFc HFq Hwd Hwq Hnd Hs.
    apply (func_continues (fun (_ : unit) => run_steps cn steps) tt (fun n => acts n gs ops) w0); auto.
    intros fs. apply steps_body; auto. apply (wires_ne (w_heap w0) vis srcs qs gs (cs ++ rest)); auto.
    destruct Hc as (B & I & S & D & [Sr1 Sr2] & O).
    assert (Ei : forall i, ancestor (w_heap w0) (qs ++ cs ++ rest) i <-> ancestor (w_heap w0) (cs ++ qs ++ rest) i).
    { intros i. apply anc_same; intros x; rewrite !in_app_iff; tauto. }
    split; auto. split; [intros x Hx; apply I; rewrite !in_app_iff in *; tauto|]. split; auto. split; auto. split.
    - split; auto. intros i. rewrite Ei. auto.
    - intros i Hi. apply O. apply Ei; auto.
  Qed.
End Top.
