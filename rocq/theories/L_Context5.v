(** Calling circuit functions to which C has been applied. *)
From Coq Require Import Sorted.
From Verif Require Import Base S_Bits L_Bits M_Kron S_Kron M_Ops S_Ops M_Feed S_Feed M_Func S_Func
  M_Measure S_Measure L_Alg M_Graph S_Graph L_Graph1 L_Graph2 L_Graph3 L_Graph5 L_Graph6 L_Graph7 L_Graph8 L_Graph9 L_Graph10 L_Graph11
  M_Context S_Context L_Sinks L_Grow1 L_Grow2 L_Context1 L_Context2 L_Context3.

Lemma concat_rev_perm {A} (l : list (list A)) : Permutation (concat (rev l)) (concat l).
Proof.
  induction l as [|a l IH]; cbn [rev concat]; auto. rewrite concat_app. cbn [concat]. rewrite app_nil_r.
  rewrite Permutation_app_comm. apply Permutation_app_head. auto.
Qed.
Lemma combine_rev_perm {A B} : forall (l : list A) (l' : list B), length l = length l' -> Permutation (combine (rev l) (rev l')) (combine l l').
Proof.
  induction l as [|a l IH]; intros [|b l'] H; cbn in H; try discriminate; cbn [rev combine]; auto.
  rewrite combine_app by (rewrite !rev_length; lia). cbn [combine]. rewrite Permutation_app_comm. cbn [app]. constructor. apply IH. lia.
Qed.
Lemma app_inj_len {A} : forall (a b c d : list A), a ++ b = c ++ d -> length a = length c -> a = c /\ b = d.
Proof.
  induction a as [|x a IH]; intros b [|y c] d E H; cbn in *; try discriminate; auto.
  injection E as -> E. injection H as H. destruct (IH _ _ _ E H); subst; auto.
Qed.

Section Func.
  Context {K : Type} {OK : OrdRing K}.
  Notation C := (Cx K).
  Variable srcs : list nat.

  (** a function that turns objects for [gs] into objects for [gs'], applying [U], under every context of controls *)
  Definition body_grows (fs : list (list ((ctor -> ctor) * list Z))) (body : world K -> list nat -> st (world K) (list nat))
      (gs gs' : list (list Z)) (U : Z -> (Z -> C) -> Z -> C) : Prop :=
    forall w vis ctl cg qs rest, w_funcs w = fs ->
      ctlw w ctl -> circ srcs (w_heap w) vis (combine ctl cg ++ combine qs gs ++ rest) ->
      length ctl = length cg -> length qs = length gs ->
      (forall g, In g cg -> zlen g = 1) -> NoDup (concat cg ++ concat gs) ->
      exists w' vis' ctl' outs, body w qs = (w', Ok outs) /\ samew w w' /\ ctlw w' ctl' /\ length ctl' = length cg /\ length outs = length gs' /\
        grow srcs (w_heap w) vis (combine ctl cg ++ combine qs gs ++ rest) (w_heap w') vis' (combine ctl' cg ++ combine outs gs' ++ rest)
          (when (widths (w_heap w) srcs) (concat cg) (U (widths (w_heap w) srcs))).

  Lemma steps_body fs cn steps ops gs : (forall g, In g gs -> g <> []) -> Forall2 (step_denotes cn gs) steps ops ->
    body_grows fs (run_steps cn steps) gs gs (fun n => acts n gs ops).
  Proof.
    intros Hgs HF w vis ctl cg qs rest _ Hw Ci L1 L2 Hcg Hnd.
    destruct (steps_grow srcs cn gs cg Hcg Hgs Hnd steps ops HF w vis ctl qs rest Hw Ci L1 L2) as (w' & vis' & ctl' & qs' & E & S & W & L3 & L4 & _ & G).
    exists w', vis', ctl', qs'. repeat (split; [assumption|]). exact G.
  Qed.

  Lemma consume_ctl : forall (cs qs : list nat), consume (repeat (C_ctor, [0]) (length cs)) (cs ++ qs) = Ok (map ctl_ctx (rev cs), qs).
  Proof.
    intros cs. induction cs as [|c cs IH] using rev_ind; intros qs; [reflexivity|].
    rewrite app_length, Nat.add_comm. cbn [length repeat Nat.add consume]. rewrite <- app_assoc. rewrite IH.
    cbn [bind snd fst rev app py_pops]. unfold py_pop. change (0 <? 0) with false. cbn iota. rewrite zlen_cons.
    pose proof (zlen_nonneg qs). rewrite (proj2 (Z.ltb_lt 0 (zlen qs + 1))) by lia. change (0 <=? 0) with true. cbn [andb].
    change (Z.to_nat 0) with O. cbn [skipn firstn app bind fst snd rev]. rewrite rev_app_distr. reflexivity.
  Qed.
  Lemma ctx_size cs : context_size (map ctl_ctx cs) = zlen cs.
  Proof.
    induction cs as [|c cs IH]; auto. unfold context_size in *. cbn [map fold_right]. rewrite IH, zlen_cons. change (zlen (cx_qubits (ctl_ctx c))) with 1. lia.
  Qed.
  Lemma stack_last (st : list (list ctx)) lens k l1 l2 : concat st = map ctl_ctx (l1 ++ l2) -> map (@length ctx) st = lens ++ [k] -> length l2 = k ->
    last st [] = map ctl_ctx l2 /\ concat (removelast st) = map ctl_ctx l1 /\ map (@length ctx) (removelast st) = lens.
  Proof.
    intros E EL Hk. destruct st as [|s st] using rev_ind; [destruct lens; discriminate|]. clear IHst.
    rewrite last_last, removelast_last. rewrite map_app in EL. cbn [map] in EL. apply app_inj_tail in EL. destruct EL as [EL Es].
    rewrite concat_app in E. cbn [concat] in E. rewrite app_nil_r, map_app in E.
    assert (length (concat st) = length (map ctl_ctx l1)).
    { apply (f_equal (@length ctx)) in E. rewrite !app_length, !map_length in E. rewrite map_length. lia. }
    destruct (app_inj_len _ _ _ _ E H). auto.
  Qed.

  Lemma func_body {KW} fs f (body : KW -> world K -> list nat -> st (world K) (list nat)) kw gs gs' U csg :
    body_grows fs (body kw) gs gs' U -> nth f fs [] = repeat (C_ctor, [0]) (length csg) -> (forall g, In g csg -> zlen g = 1) ->
    body_grows fs (fun w => call_func w f body kw) (csg ++ gs) (rev csg ++ gs') (fun n => when n (concat csg) (U n)).
  Proof.
    intros HB Hf Hcs w vis ctl cg qs rest Efs [Est Et] Ci L1 L2 Hcg Hnd.
    rewrite app_length in L2. rewrite <- (firstn_skipn (length csg) qs) in Ci. set (cs := firstn (length csg) qs) in *. set (q2 := skipn (length csg) qs) in *.
    assert (Lc : length cs = length csg) by (unfold cs; rewrite firstn_length; lia).
    assert (Lq : length q2 = length gs) by (unfold q2; rewrite skipn_length; lia).
    assert (Eq : qs = cs ++ q2) by (symmetry; apply firstn_skipn).
    unfold call_func, wrappers_of. rewrite Efs, Hf, <- Lc, Eq, consume_ctl. cbv beta iota. unfold with_context.
    set (set := map ctl_ctx (rev cs)). set (w1 := enter w set (context_size set)).
    assert (Hsz : context_size set = zlen cs) by (unfold set; rewrite ctx_size; unfold zlen; rewrite rev_length; auto).
    assert (Hw1 : ctlw w1 (ctl ++ rev cs)).
    { split; cbn [w1 enter w_stack w_total].
      - rewrite concat_app, Est. cbn [concat]. rewrite app_nil_r, map_app. auto.
      - rewrite Et, Hsz. unfold zlen. rewrite app_length, rev_length. lia. }
    assert (P : Permutation (combine ctl cg ++ combine (cs ++ q2) (csg ++ gs) ++ rest) (combine (ctl ++ rev cs) (cg ++ rev csg) ++ combine q2 gs ++ rest)).
    { rewrite !combine_app by auto. rewrite <- !app_assoc. apply Permutation_app_head. rewrite !app_assoc. do 2 apply Permutation_app_tail.
      symmetry. apply combine_rev_perm. auto. }
    destruct (HB w1 vis (ctl ++ rev cs) (cg ++ rev csg) q2 rest) as (w2 & vis' & ctl2 & outs & E & HS & Hw2 & L3 & L4 & G); auto.
    - eapply circ_perm; eauto.
    - rewrite !app_length, !rev_length. lia.
    - intros g Hg. apply in_app_iff in Hg. destruct Hg as [Hg|Hg]; auto. apply in_rev in Hg. auto.
    - rewrite concat_app in *. eapply Permutation_NoDup; [|exact Hnd]. rewrite !app_assoc. apply Permutation_app_tail, Permutation_app_head.
      symmetry. apply concat_rev_perm.
    - rewrite E. cbn [sbind fst snd].
      rewrite app_length, rev_length in L3. set (ctl' := firstn (length cg) ctl2) in *. set (cs' := skipn (length cg) ctl2) in *.
      assert (L5 : length ctl' = length cg) by (unfold ctl'; rewrite firstn_length; lia).
      assert (L6 : length cs' = length csg) by (unfold cs'; rewrite skipn_length; lia).
      assert (E2 : ctl2 = ctl' ++ cs') by (symmetry; apply firstn_skipn).
      destruct Hw2 as [Est2 Et2]. destruct HS as (HS1 & HS2 & HS3). rewrite E2 in *.
      cbn [w1 enter w_stack w_total w_funcs] in HS1, HS2, HS3. rewrite map_app in HS1. cbn [map] in HS1.
      destruct (stack_last (w_stack w2) _ _ _ _ Est2 HS1) as (S1 & S2 & S3).
      { unfold set. rewrite map_length, rev_length. congruence. }
      rewrite S1, put_ctl, map_id.
      exists (leave w2 (context_size set)), vis', ctl', (cs' ++ outs). split; auto.
      cbn [leave w_heap w_stack w_total w_funcs]. split; [|split; [|split; [auto|split]]].
      + split; [exact S3|]. split; [cbn [leave w_total]; rewrite HS2; lia|exact HS3].
      + split; [exact S2|]. cbn [leave w_total]. rewrite HS2, Et, Hsz. unfold zlen. lia.
      + rewrite !app_length, rev_length. lia.
      + cbn [w1 enter w_heap] in G.
        eapply grow_perm; [symmetry; exact P| |eapply grow_ext; [exact G|]].
        * rewrite !combine_app by (rewrite ?rev_length; lia). rewrite <- !app_assoc. reflexivity.
        * intros v r _. unfold when. rewrite concat_app, forallb_app.
          assert (EF : forall n r, forallb (qbit n r) (concat (rev csg)) = forallb (qbit n r) (concat csg)).
          { intros n0 r0. apply eq_true_iff_eq. rewrite !forallb_forall. split; intros HH x Hx; apply HH.
            - eapply Permutation_in; [symmetry; apply concat_rev_perm|auto].
            - eapply Permutation_in; [apply concat_rev_perm|auto]. }
          rewrite EF. destruct (forallb _ (concat cg)); reflexivity.
  Qed.
End Func.
