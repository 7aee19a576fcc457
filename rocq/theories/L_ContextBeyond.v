(** Contexts with one qubit at a position that the inputs do not have. *)
From Verif Require Import Base M_Kron M_Ops M_Feed M_Func M_Measure M_Graph S_Graph L_Graph1 L_Graph2 L_Graph3 L_Graph9 M_Context
  S_Context L_Grow1 L_Context1 L_Context2 L_Context3 L_Context5 L_Context6 L_Context7.
Local Open Scope Z_scope.

Section Beyond.
  Context {K : Type} {OK : OrdRing K}.
  (** what a call does inside a context with one qubit, given where that qubit is put in *)
  Lemma call_one cn (w : world K) fn q k c args L given w' r :
    w_stack w = [[mkCtx fn [q] [k]]] -> w_total w = 1 -> length L = S (length args) -> args <> [] ->
    (forall i, In i L -> (i < size (w_heap w))%nat /\ 0 < width (w_heap w) i) ->
    py_inserts [AQ q] [k] (map AQ args) = (map AQ L : list (arg K)) ->
    call_op cn w c (map AQ args) given = (w', r) ->
    (w_stack w' = w_stack w /\ w_total w' = 1 /\ exists e, r = Raise e) \/
    exists ids, new_outputs (w_heap w) (w_heap w') L ids /\ length ids = S (length args) /\
      (w_stack w' = w_stack w /\ w_total w' = 1 /\ py_pops ids [k] = Raise IndexError /\ r = Raise IndexError \/
       exists o outs, py_pops ids [k] = Ok ([o], outs) /\ w_stack w' = [[mkCtx fn [o] [k]]] /\ w_total w' = 1 /\ r = Ok outs).
  Proof.
    intros Est Ht HL Ha Hin EP E.
    assert (HLs : forall i, In i L -> (i < size (w_heap w))%nat) by (intros i Hi; destruct (Hin i Hi); auto).
    assert (HL0 : L <> []) by (destruct L; discriminate).
    unfold call_op, apply_in_context in E. rewrite Est in E. cbn [concat app] in E.
    assert (EP' : put_in_order AQ [mkCtx fn [q] [k]] (map AQ args) = (map AQ L : list (arg K))) by exact EP.
    rewrite EP' in E. unfold on_heap in E.
    destruct (build cn (w_heap w) _ (map AQ L) no_kw) as [h1 [p|e]] eqn:E1; cbn [fst snd sbind] in E.
    2:{ left. inversion E; subst. cbn [set_heap w_stack w_total]. eauto. }
    cbn [set_heap w_heap] in E. destruct (split h1 p None) as [h2 [ids|e]] eqn:E2; cbn [fst snd sbind] in E.
    2:{ left. inversion E; subst. cbn [set_heap w_stack w_total]. eauto. }
    destruct (build_core cn _ _ L _ _ _ E1 HL0 HLs) as (Hq & K1 & I1 & W1). pose proof K1 as [K1a K1b].
    destruct (split_core h1 p L h2 ids I1 HL0) as (K2 & Hlen & Hout); auto.
    { intros i Hi. destruct (K1b i (HLs i Hi)) as (_ & -> & _). apply Hin; auto. }
    { rewrite W1. symmetry. apply sum_n_keeps; auto. }
    assert (NO : new_outputs (w_heap w) h2 L ids) by (eapply outputs_of; eauto).
    right. exists ids. cbn [split_context cx_idx py_pops] in E |- *. unfold py_pop in *. cbv zeta in *.
    set (j := if (k <? 0) then k + zlen ids else k) in *.
    destruct ((0 <=? j) && (j <? zlen ids)) eqn:Ej; cbn [bind fst snd] in E |- *.
    2:{ inversion E; subst. cbn [set_heap w_heap w_stack w_total]. split; auto. split; [lia|]. left. auto. }
    assert (Hj : (Z.to_nat j < length ids)%nat).
    { apply andb_true_iff in Ej. destruct Ej as [A B]. apply Z.leb_le in A. apply Z.ltb_lt in B. unfold zlen in B. lia. }
    pose proof (firstn_skipn (Z.to_nat j) ids) as Ei. assert (Hf : length (firstn (Z.to_nat j) ids) = Z.to_nat j) by (rewrite firstn_length; lia).
    destruct (skipn (Z.to_nat j) ids) as [|o rest] eqn:Es.
    { exfalso. rewrite app_nil_r in Ei. rewrite Ei in Hf. lia. }
    cbn [bind fst snd app] in E |- *. 
    unfold set_qubits in E. cbn [set_heap w_heap w_stack w_total w_funcs] in E. rewrite Ht, Est in E.
    change (negb (zlen [o] =? 1)) with false in E. cbn iota in E. cbn [sbind] in E.
    assert (Ho : firstn (Z.to_nat j) ids ++ rest <> []).
    { intros H. apply (f_equal (@length nat)) in H. apply (f_equal (@length nat)) in Ei. rewrite app_length in *. cbn [length] in *. destruct args; [congruence|]. cbn [length] in *. lia. }
    destruct (firstn (Z.to_nat j) ids ++ rest) as [|y ys] eqn:Ey; [congruence|].
    inversion E; subst. cbn [w_heap w_stack w_total]. split; auto. split; [lia|]. right. exists o, (y :: ys). auto.
  Qed.

  (** beyond the ends: put in at the end or at the front, but not found there afterwards *)
  Lemma call_beyond cn (w : world K) fn q k c args given w' r :
    w_stack w = [[mkCtx fn [q] [k]]] -> w_total w = 1 -> args <> [] -> k > zlen args \/ k < - (zlen args + 1) ->
    (forall i, In i (q :: args) -> (i < size (w_heap w))%nat /\ 0 < width (w_heap w) i) ->
    call_op cn w c (map AQ args) given = (w', r) ->
    w_stack w' = w_stack w /\ w_total w' = 1 /\ exists e, r = Raise e.
  Proof.
    intros Est Ht Ha Hk Hin E. pose proof (zlen_nonneg args) as H0.
    assert (HP : exists L, length L = S (length args) /\ (forall i, In i L -> In i (q :: args)) /\ py_inserts [AQ q] [k] (map AQ args) = (map AQ L : list (arg K))).
    { unfold py_inserts, py_insert. cbn [combine fold_left fst snd]. destruct Hk as [Hk|Hk].
      - exists (args ++ [q]). split; [rewrite app_length; cbn; lia|]. split; [intros i Hi; apply in_app_iff in Hi; cbn in *; tauto|].
        rewrite (proj2 (Z.ltb_ge k 0)) by lia. assert (Hl : (length (map (@AQ K) args) <= Z.to_nat k)%nat) by (rewrite map_length; unfold zlen in *; lia).
        rewrite firstn_all2, skipn_all2 by auto. rewrite map_app. reflexivity.
      - exists (q :: args). split; [reflexivity|]. split; [auto|]. rewrite (proj2 (Z.ltb_lt k 0)) by lia.
        replace (Z.to_nat (k + zlen (map (@AQ K) args))) with 0%nat by (rewrite zlen_map; lia). reflexivity. }
    destruct HP as (L & HL & Hi & EP).
    destruct (call_one cn w fn q k c args L given w' r Est Ht HL Ha ltac:(auto) EP E) as [(A & B & D)|(ids & _ & Hlen & [(A & B & _ & D)|(o & outs & D & _)])]; eauto.
    exfalso. cbn [py_pops] in D. unfold py_pop in D. destruct (Z.ltb_spec k 0) as [Hn|Hn].
    - rewrite (proj2 (Z.leb_gt 0 _)) in D by (unfold zlen in *; lia). discriminate.
    - rewrite (proj2 (Z.ltb_ge _ (zlen ids))), andb_false_r in D by (unfold zlen in *; lia). discriminate.
  Qed.
  (** the negative position that is the front of the outputs *)
  Lemma call_front cn (w : world K) fn q c args given w' outs :
    w_stack w = [[mkCtx fn [q] [- (zlen args + 1)]]] -> w_total w = 1 -> args <> [] ->
    (forall i, In i (q :: args) -> (i < size (w_heap w))%nat /\ 0 < width (w_heap w) i) ->
    call_op cn w c (map AQ args) given = (w', Ok outs) ->
    exists o, new_outputs (w_heap w) (w_heap w') (q :: args) (o :: outs) /\ w_stack w' = [[mkCtx fn [o] [- (zlen args + 1)]]] /\ w_total w' = 1.
  Proof.
    intros Est Ht Ha Hin E. pose proof (zlen_nonneg args) as H0. set (k := - (zlen args + 1)) in *.
    assert (EP : py_inserts [AQ q] [k] (map AQ args) = (map AQ (q :: args) : list (arg K))).
    { unfold py_inserts, py_insert. cbn [combine fold_left fst snd]. rewrite (proj2 (Z.ltb_lt k 0)) by lia.
      replace (Z.to_nat (k + zlen (map (@AQ K) args))) with 0%nat by (rewrite zlen_map; lia). reflexivity. }
    destruct (call_one cn w fn q k c args (q :: args) given w' (Ok outs) Est Ht eq_refl Ha Hin EP E) as [(_ & _ & e & D)|(ids & NO & Hlen & [(_ & _ & _ & D)|(o & outs' & D & A & B & F)])]; try discriminate.
    injection F as <-. destruct ids as [|i ids]; [discriminate|]. cbn [py_pops] in D. unfold py_pop in D.
    rewrite (proj2 (Z.ltb_lt k 0)) in D by lia. cbv zeta in D. replace (k + zlen (i :: ids)) with 0 in D by (unfold k, zlen; rewrite Hlen; lia).
    rewrite (proj2 (Z.ltb_lt 0 _)) in D by (rewrite zlen_cons; pose proof (zlen_nonneg ids); lia). cbn in D. injection D as <- <-. eauto.
  Qed.
End Beyond.
