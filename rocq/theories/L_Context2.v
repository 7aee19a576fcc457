(** Calling op constructors inside contexts of controls, and lists of such calls. *)
From Coq Require Import Sorted.
From Verif Require Import Base S_Bits L_Bits M_Kron S_Kron M_Ops S_Ops M_Feed S_Feed M_Func S_Func
  M_Measure S_Measure L_Alg M_Graph S_Graph L_Graph1 L_Graph2 L_Graph3 L_Graph5 L_Graph6 L_Graph7 L_Graph8 L_Graph9 L_Graph10 L_Graph11
  M_Context S_Context L_Sinks L_Grow1 L_Grow2 L_Context1.

Section Control.
  Context {K : Type} {OK : OrdRing K}.
  Notation C := (Cx K).
  Variable srcs : list nat.

  Lemma circ_objs (h : heap K) vis l gs rest : circ srcs h vis (combine l gs ++ rest) -> length l = length gs ->
    (forall g, In g gs -> g <> []) -> NoDup (concat gs) -> NoDup l.
  Proof.
    intros Ci. assert (Hc : forall q g, In (q, g) (combine l gs) -> In (q, g) (combine l gs ++ rest)) by (intros; apply in_app_iff; auto).
    assert (Hf : forall q g g', In (q, g) (combine l gs ++ rest) -> In (q, g') (combine l gs ++ rest) -> g = g').
    { intros q g g' H H'. apply (circ_fun _ _ _ _ Ci q); try (apply (c_wires _ _ _ _ Ci); auto).
      apply anc_arg, in_map_iff. exists (q, g); auto. }
    clear Ci. revert gs Hc Hf. induction l as [|q l IH]; intros [|g gs] Hc Hf Hl Hp Hn; cbn in *; try discriminate; [constructor|].
    apply NoDup_app_inv in Hn. destruct Hn as (N1 & N2 & N3). constructor.
    - intros Hq. assert (exists g', In (q, g') (combine l gs)) as (g' & Hg').
      { clear - Hq Hl. injection Hl as Hl. revert gs Hl. induction l as [|a l IH]; intros [|g gs] Hl; cbn in *; try discriminate; [destruct Hq|].
        destruct Hq as [->|Hq]; [exists g; auto|]. injection Hl as Hl. destruct (IH Hq gs Hl) as (g' & H); eauto. }
      assert (E : g = g') by (apply (Hf q); [left; auto|right; apply in_app_iff; auto]). subst g'.
      apply in_combine_r in Hg'. specialize (Hp g (or_introl eq_refl)). destruct g as [|x g]; [congruence|].
      apply (N3 x); [left; auto|]. apply in_concat. exists (x :: g). split; auto. left; auto.
    - apply (IH gs); [intros; apply in_app_iff; auto| |lia|intros; apply Hp; auto|auto].
      intros q0 g0 g' H H'. apply (Hf q0); right; auto.
  Qed.

  Definition ctl_ctx (q : nat) : ctx := mkCtx C_ctor [q] [0].
  Definition ctlw (w : world K) (ctl : list nat) : Prop := concat (w_stack w) = map ctl_ctx ctl /\ w_total w = zlen ctl.
  Definition samew (w w' : world K) : Prop :=
    map (@length ctx) (w_stack w') = map (@length ctx) (w_stack w) /\ w_total w' = w_total w /\ w_funcs w' = w_funcs w.
  Lemma samew_refl w : samew w w.
  Proof. repeat split. Qed.
  Lemma samew_trans w1 w2 w3 : samew w1 w2 -> samew w2 w3 -> samew w1 w3.
  Proof. intros (A & B & D) (A' & B' & D'). repeat split; congruence. Qed.

  Lemma put_ctl {A} (inj : nat -> A) ctl l : put_in_order inj (map ctl_ctx ctl) l = map inj ctl ++ l.
  Proof.
    unfold put_in_order. rewrite <- map_rev.
    assert (G : forall r l, fold_left (fun l cx => py_inserts (map inj (cx_qubits cx)) (cx_idx cx) l) (map ctl_ctx r) l = map inj (rev r) ++ l).
    { induction r as [|q r IH]; intros l0; cbn [map fold_left]; auto. rewrite IH. cbn [rev]. rewrite map_app, <- app_assoc. reflexivity. }
    rewrite G, rev_involutive. reflexivity.
  Qed.
  Lemma split_ctl ctl : forall l, length ctl = length l -> forall outs, split_context (map ctl_ctx ctl) (l ++ outs) = Ok (l, outs).
  Proof.
    induction ctl as [|q ctl IH]; intros [|x l] H outs; cbn in H; try discriminate; auto. injection H as H.
    cbn [map split_context ctl_ctx cx_idx py_pops]. unfold py_pop. change (0 <? 0) with false. cbn iota.
    change ((x :: l) ++ outs) with (x :: l ++ outs). rewrite zlen_cons. pose proof (zlen_nonneg (l ++ outs)).
    rewrite (proj2 (Z.ltb_lt 0 (zlen (l ++ outs) + 1))) by lia. cbn [andb]. change (0 <=? 0) with true. cbn [andb].
    change (Z.to_nat 0) with O. cbn [skipn firstn app bind fst snd]. rewrite IH by auto. reflexivity.
  Qed.
  Fixpoint nest (k : nat) (c : ctor) : ctor := match k with O => c | S k => C_ctor (nest k c) end.
  Fixpoint onest (k : nat) (o : op K) : op K := match k with O => o | S k => OC (onest k o) end.
  Lemma wrap_ctl ctl : forall c, wrap_all (map ctl_ctx ctl) c = nest (length ctl) c.
  Proof.
    unfold wrap_all. intros c. rewrite <- fold_left_rev_right, rev_involutive. induction ctl as [|q ctl IH]; cbn; auto. rewrite IH. auto.
  Qed.
  Lemma nest_denotes cn c gs o : denotes cn c gs o -> gs <> [] -> forall cg, (forall g, In g cg -> zlen g = 1) ->
    denotes cn (nest (length cg) c) (cg ++ gs) (onest (length cg) o).
  Proof.
    intros HD Hne. induction cg as [|g cg IH]; intros Hg; cbn [length nest onest app]; auto.
    apply denotes_c; [apply Hg; left; auto| |apply IH; intros; apply Hg; right; auto].
    destruct cg; [auto|discriminate].
  Qed.
  Lemma onest_acts n o gs cg : forall v r, op_acts n (onest (length cg) o) (cg ++ gs) v r = when n (concat cg) (op_acts n o gs) v r.
  Proof.
    unfold when. induction cg as [|g cg IH]; intros v r; cbn [length onest app concat op_acts]; auto.
    cbn [hd tl]. rewrite forallb_app. destruct (forallb (qbit n r) g); cbn [andb]; [apply IH|reflexivity].
  Qed.

  Lemma set_stack stack : forall ctl l, concat stack = map ctl_ctx ctl -> length ctl = length l ->
    concat (set_qubits_stack stack l) = map ctl_ctx l /\ map (@length ctx) (set_qubits_stack stack l) = map (@length ctx) stack.
  Proof.
    assert (One : forall set ctl l, set = map ctl_ctx ctl -> (length ctl <= length l)%nat ->
      set_qubits_set set l = (map ctl_ctx (firstn (length ctl) l), skipn (length ctl) l)).
    { intros set ctl l ->. revert l. induction ctl as [|q ctl IH]; intros l Hl; cbn [map set_qubits_set length]; auto.
      destruct l as [|x l]; [cbn in Hl; lia|]. cbn [ctl_ctx cx_qubits cx_fn cx_idx length firstn skipn].
      rewrite IH by (cbn in Hl; lia). reflexivity. }
    induction stack as [|set stack IH]; intros ctl l E Hl; cbn [concat] in E.
    - destruct ctl; [|discriminate]. destruct l; [|discriminate]. auto.
    - assert (exists c1 c2, ctl = c1 ++ c2 /\ set = map ctl_ctx c1 /\ concat stack = map ctl_ctx c2) as (c1 & c2 & -> & E1 & E2).
      { exists (firstn (length set) ctl), (skipn (length set) ctl). split; [symmetry; apply firstn_skipn|].
        rewrite <- firstn_map, <- skipn_map, <- E. rewrite firstn_app, skipn_app, Nat.sub_diag, firstn_all, skipn_all. cbn. rewrite app_nil_r. auto. }
      rewrite app_length in Hl. cbn [set_qubits_stack]. rewrite (One set c1 l E1) by lia. cbn [concat map].
      destruct (IH c2 (skipn (length c1) l) E2) as [I1 I2]. { rewrite skipn_length. lia. }
      rewrite I1, I2. split.
      + rewrite <- map_app, firstn_skipn. auto.
      + f_equal. rewrite map_length, firstn_length, E1, map_length. lia.
  Qed.
  Lemma set_qubits_ctl (w : world K) ctl l : ctlw w ctl -> length l = length ctl ->
    exists w', set_qubits w l = (w', Ok tt) /\ w_heap w' = w_heap w /\ ctlw w' l /\ samew w w'.
  Proof.
    intros [E T] Hl. unfold set_qubits. assert (Ez : zlen l = w_total w) by (rewrite T; unfold zlen; congruence).
    rewrite Ez, Z.eqb_refl. cbn [negb]. eexists. split; [reflexivity|]. cbn [w_heap w_stack w_total w_funcs]. split; auto.
    destruct (set_stack (w_stack w) ctl l E (eq_sym Hl)) as [A B]. split; [split; cbn; auto; congruence|]. split; auto.
  Qed.

  (** everything a call does *)
  Lemma call_grow cn (w : world K) vis ctl cg c qs gs o rest given :
    ctlw w ctl -> circ srcs (w_heap w) vis (combine ctl cg ++ combine qs gs ++ rest) ->
    length ctl = length cg -> length qs = length gs -> denotes cn c gs o -> gs <> [] ->
    (forall g, In g cg -> zlen g = 1) -> (forall g, In g gs -> g <> []) -> NoDup (concat cg ++ concat gs) ->
    exists w' vis' ctl' outs, call_op cn w c (map AQ qs) given = (w', Ok outs) /\ samew w w' /\ ctlw w' ctl' /\
      length ctl' = length cg /\ length outs = length gs /\
      moves (w_heap w) (w_heap w') (ctl ++ qs) (ctl' ++ outs) /\ (forall i, In i (ctl' ++ outs) -> (size (w_heap w) <= i)%nat) /\ grow srcs (w_heap w) vis (combine ctl cg ++ combine qs gs ++ rest) (w_heap w') vis' (combine ctl' cg ++ combine outs gs ++ rest)
        (when (widths (w_heap w) srcs) (concat cg) (op_acts (widths (w_heap w) srcs) o gs)).
  Proof.
    intros Hw Ci Hl1 Hl2 HD Hne Hcg Hgs Hnd.
    rewrite app_assoc, <- combine_app in * by auto.
    assert (Hlen : length (ctl ++ qs) = length (cg ++ gs)) by (rewrite !app_length; lia).
    assert (Hne' : cg ++ gs <> []) by (destruct cg; [auto|discriminate]).
    assert (Hpos : forall g, In g (cg ++ gs) -> g <> []).
    { intros g Hg. apply in_app_iff in Hg. destruct Hg as [Hg|Hg]; auto. apply Hcg in Hg. intros ->. discriminate. }
    assert (Hnd' : NoDup (concat (cg ++ gs))) by (rewrite concat_app; auto).
    pose proof (circ_objs _ _ _ _ _ Ci Hlen Hpos Hnd') as Hobj.
    destruct (op_grow srcs cn (w_heap w) vis (nest (length cg) c) (ctl ++ qs) (cg ++ gs) (onest (length cg) o) rest Ci Hlen) as
      (h1 & j & h' & vis' & outs & HB & HS & Hlo & HM & Hfr & G); auto.
    { apply nest_denotes; auto. }
    set (l1 := firstn (length cg) outs). set (l2 := skipn (length cg) outs).
    assert (Eo : outs = l1 ++ l2) by (symmetry; apply firstn_skipn).
    assert (Hl1' : length l1 = length cg) by (unfold l1; rewrite firstn_length, Hlo, app_length; lia).
    assert (Hl2' : length l2 = length gs) by (unfold l2; rewrite skipn_length, Hlo, app_length; lia).
    assert (Hout : forall A (w2 : world K) (x y : st (world K) A), (match l2 with [] => x | _ => y end) = y).
    { intros. destruct l2; auto. destruct gs; [congruence|discriminate]. }
    assert (G' : grow srcs (w_heap w) vis (combine (ctl ++ qs) (cg ++ gs) ++ rest) h' vis' (combine (l1 ++ l2) (cg ++ gs) ++ rest)
      (when (widths (w_heap w) srcs) (concat cg) (op_acts (widths (w_heap w) srcs) o gs))).
    { rewrite <- Eo. eapply grow_ext; eauto. intros v r _. apply onest_acts. }
    unfold call_op, apply_in_context. destruct Hw as [Est Et].
    destruct (w_stack w) as [|s0 st0] eqn:Es.
    - cbn [concat] in Est. destruct ctl; [|discriminate]. destruct cg; [|discriminate]. cbn [app length nest] in *.
      rewrite HB. cbn [on_heap fst snd set_heap sbind w_heap]. rewrite HS. cbn [sbind].
      exists (set_heap w h'), vis', [], outs. cbn [set_heap w_stack w_total w_funcs].
      subst l1 l2. cbn [firstn skipn app] in *. split; [unfold set_heap, on_heap; cbn; destruct outs; [destruct gs; [congruence|discriminate]|reflexivity]|].
      split; [repeat split|]. split; [split; cbn; rewrite ?Es; auto|]. split; [auto|]. split; [auto|].
      split; [exact HM|]. split; [exact Hfr|]. exact G'.
    - rewrite Est, put_ctl, wrap_ctl, <- map_app, Hl1, HB. cbn [on_heap fst snd sbind].
      cbn [set_heap w_heap]. rewrite HS. cbn [sbind on_heap fst snd set_heap w_heap w_stack w_total w_funcs].
      rewrite Eo, (split_ctl ctl l1) by congruence.
      match goal with |- context [set_qubits ?W _] => destruct (set_qubits_ctl W ctl l1) as (w' & Ew & Eh & Hw' & Hs') end.
      { split; cbn; [rewrite Es; auto|auto]. } { congruence. }
      rewrite Ew. cbn [sbind]. rewrite Hout by exact w.
      exists w', vis', l1, l2. split; auto. split. { destruct Hs' as (A & B & D). split; [rewrite A; cbn; rewrite ?Es; reflexivity|]. split; auto. }
      split; auto. split; auto. split; auto. rewrite Eh. cbn [w_heap].
      rewrite Eo in HM, Hfr. split; [exact HM|]. split; [exact Hfr|]. rewrite app_assoc, <- combine_app by auto. exact G'.
  Qed.
End Control.
