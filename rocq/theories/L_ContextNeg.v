(** Contexts with one qubit at a negative position. *)
From Verif Require Import Base M_Kron M_Ops M_Feed M_Func M_Measure M_Graph S_Graph L_Graph1 L_Graph2 L_Graph3 L_Graph9 M_Context
  S_Context L_Grow1 L_Context1 L_Context2 L_Context3 L_Context5 L_Context6 L_Context7.
Local Open Scope Z_scope.

Section Negative.
  Context {K : Type} {OK : OrdRing K}.
  (** the qubit goes before the last |x :: r| inputs, and the output of x is taken for it afterwards *)
  Lemma call_negative cn (w : world K) fn q c l x r given w' outs :
    w_stack w = [[mkCtx fn [q] [- zlen (x :: r)]]] -> w_total w = 1 ->
    (forall i, In i (l ++ q :: x :: r) -> (i < size (w_heap w))%nat /\ 0 < width (w_heap w) i) ->
    call_op cn w c (map AQ (l ++ x :: r)) given = (w', Ok outs) ->
    exists ol oq ox o_r, new_outputs (w_heap w) (w_heap w') (l ++ q :: x :: r) (ol ++ oq :: ox :: o_r) /\ length ol = length l /\
      w_stack w' = [[mkCtx fn [ox] [- zlen (x :: r)]]] /\ outs = ol ++ oq :: o_r.
  Proof.
    intros Est Ht Hin E. set (L := l ++ q :: x :: r) in *. set (k := - zlen (x :: r)) in *.
    assert (Hk : k < 0) by (unfold k; rewrite zlen_cons; pose proof (zlen_nonneg r); lia).
    assert (HLs : forall i, In i L -> (i < size (w_heap w))%nat) by (intros i Hi; destruct (Hin i Hi); auto).
    assert (HL0 : L <> []) by (unfold L; destruct l; discriminate).
    unfold call_op, apply_in_context in E. rewrite Est in E. cbn [concat app] in E.
    assert (EP : put_in_order AQ [mkCtx fn [q] [k]] (map AQ (l ++ x :: r)) = (map AQ L : list (arg K))).
    { unfold put_in_order, py_inserts, py_insert. cbn [rev app fold_left cx_qubits cx_idx map combine fst snd]. rewrite (proj2 (Z.ltb_lt _ _) Hk).
      assert (Ek : Z.to_nat (k + zlen (map (@AQ K) (l ++ x :: r))) = length l) by (unfold k, zlen; rewrite map_length, app_length; cbn [length]; lia).
      rewrite Ek. unfold L. rewrite !map_app. assert (El : length (map (@AQ K) l) = length l) by apply map_length.
      rewrite firstn_app, skipn_app, El, Nat.sub_diag, firstn_O, app_nil_r, firstn_all2, skipn_all2 by lia. reflexivity. }
    rewrite EP in E. unfold on_heap in E.
    destruct (build cn (w_heap w) _ (map AQ L) no_kw) as [h1 [p|e]] eqn:E1; cbn [fst snd sbind] in E; [|discriminate].
    cbn [set_heap w_heap] in E. destruct (split h1 p None) as [h2 [ids|e]] eqn:E2; cbn [fst snd sbind] in E; [|discriminate].
    destruct (build_core cn _ _ L _ _ _ E1 HL0 HLs) as (Hq & K1 & I1 & W1). pose proof K1 as [K1a K1b].
    destruct (split_core h1 p L h2 ids I1 HL0) as (K2 & Hlen & Hout); auto.
    { intros i Hi. destruct (K1b i (HLs i Hi)) as (_ & -> & _). apply Hin; auto. }
    { rewrite W1. symmetry. apply sum_n_keeps; auto. }
    assert (NO : new_outputs (w_heap w) h2 L ids) by (eapply outputs_of; eauto).
    unfold L in Hlen. rewrite app_length in Hlen. cbn [length] in Hlen.
    assert (Ei : ids = firstn (length l) ids ++ skipn (length l) ids) by (symmetry; apply firstn_skipn).
    assert (Hl1 : length (firstn (length l) ids) = length l) by (rewrite firstn_length; lia).
    assert (Hl2 : length (skipn (length l) ids) = S (S (length r))) by (rewrite skipn_length; lia).
    set (ol := firstn (length l) ids) in *. destruct (skipn (length l) ids) as [|oq [|ox o_r]]; cbn [length] in Hl2; try discriminate.
    assert (SC : split_context [mkCtx fn [q] [k]] ids = Ok ([ox], ol ++ oq :: o_r)).
    { cbn [split_context cx_idx py_pops]. unfold py_pop. rewrite (proj2 (Z.ltb_lt _ _) Hk).
      assert (Ez : k + zlen ids = Z.of_nat (S (length ol))) by (unfold k, zlen; rewrite Hlen; cbn [length]; lia).
      rewrite Ez. rewrite (proj2 (Z.leb_le 0 _)) by lia. rewrite (proj2 (Z.ltb_lt _ (zlen ids))) by (unfold zlen; rewrite Hlen; lia). cbn [andb]. rewrite Nat2Z.id.
      assert (Es : skipn (S (length ol)) ids = ox :: o_r).
      { rewrite Ei. rewrite skipn_app. rewrite skipn_all2 by lia. replace (S (length ol) - length ol)%nat with 1%nat by lia. reflexivity. }
      assert (Ef : firstn (S (length ol)) ids = ol ++ [oq]).
      { rewrite Ei at 1. rewrite firstn_app. rewrite firstn_all2 by lia. replace (S (length ol) - length ol)%nat with 1%nat by lia. reflexivity. }
      rewrite Es, Ef. cbn [bind fst snd app]. rewrite <- app_assoc. reflexivity. }
    rewrite SC in E. unfold set_qubits in E. cbn [set_heap w_heap w_stack w_total w_funcs] in E. rewrite Ht, Est in E.
    change (negb (zlen [ox] =? 1)) with false in E. cbn iota in E. cbn [sbind] in E.
    exists ol, oq, ox, o_r. destruct (ol ++ oq :: o_r) as [|y ys] eqn:Ey; [destruct ol; discriminate|]. inversion E; subst w' outs. cbn [w_heap w_stack].
    rewrite <- Ei. auto.
  Qed.
End Negative.
