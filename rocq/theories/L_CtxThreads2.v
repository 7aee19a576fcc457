(** Schedules of threads with contexts that go wrong; calls of functions. *)
From Verif Require Import Base M_Bits M_Kron M_Ops M_Feed M_Func M_Measure M_Graph M_Context M_CtxObj S_CtxObj L_CtxObj2 M_CtxThreads S_CtxThreads L_CtxThreads.

Section CtxThreads.
  Context {K : Type} {OK : OrdRing K}.
  Variable cn : consts K.

  Lemma orun_bind : forall p f w, orun cn (cbind p f) w = let (w, r) := orun cn p w in orun cn (f r) w.
  Proof.
    induction p as [r|c args k IH|set body IHb k IHk|i outs k IH]; intros f w; cbn [cbind orun].
    - reflexivity.
    - destruct (ocall_op cn w c args) as [w1 r]. apply IH.
    - destruct (owith_new w set _) as [w1 r]. apply IHk.
    - apply IH.
  Qed.
  (** the code of a function call is what M_CtxObj says *)
  Lemma func_ok : forall {KW} (w : oworld K) f (body : KW -> oworld K -> list nat -> st (oworld K) (list nat)) kw inputs set rest (p : list nat -> code K),
    consume (nth f (o_funcs w) []) inputs = Ok (set, rest) -> (forall w, orun cn (p rest) w = body kw w rest) ->
    orun cn (func_code set p rest CEnd) w = ocall_func w f body kw inputs.
  Proof.
    intros KW w f body kw inputs set rest p Hc Hp. unfold ocall_func, func_code. rewrite Hc. cbn [orun]. unfold owith_new, owith.
    set (n := new_context w set). rewrite orun_bind, Hp. destruct (body kw (oenter (fst n) (snd n)) rest) as [w1 [outs|e]]; reflexivity.
  Qed.

  Lemma obj_old (w : oworld K) set i : (i < length (o_objs w))%nat -> obj (fst (new_context w set)) i = obj w i.
  Proof. intros H. unfold obj, new_context. cbn [fst o_objs]. apply app_nth1. exact H. Qed.
  Lemma obj_new (w : oworld K) set : obj (fst (new_context w set)) (length (o_objs w)) = (set, context_size set).
  Proof. unfold obj, new_context. cbn [fst o_objs]. rewrite app_nth2, Nat.sub_diag by lia. reflexivity. Qed.

  (** a call of another thread, inside of the block of the first *)
  Lemma leak : forall (w : oworld K) set body k c args, exists sched w',
    cruns cn w [start (CWith set body k); start (COp c args CEnd)] sched =
      Some (w', [(PRun (body (length (o_objs w))), [(length (o_objs w), k)]); start (CEnd (snd (ocall_op cn (oenter (fst (new_context w set)) (length (o_objs w))) c args)))]) /\
    w' = fst (ocall_op cn (oenter (fst (new_context w set)) (length (o_objs w))) c args).
  Proof.
    intros w set body k c args. set (w1 := oenter (fst (new_context w set)) (length (o_objs w))).
    destruct (alone cn (COp c args CEnd) w1) as (n & Hn). cbn [orun] in Hn.
    exists ([0; 0; 0; 0]%nat ++ repeat 1%nat n). eexists. split; [|reflexivity]. rewrite cruns_app.
    assert (E : cruns cn w [start (CWith set body k); start (COp c args CEnd)] [0; 0; 0; 0]%nat =
      Some (w1, [(PRun (body (length (o_objs w))), [(length (o_objs w), k)]); start (COp c args CEnd)])) by reflexivity.
    rewrite E, Hn by reflexivity. destruct (ocall_op cn w1 c args) as [w2 r]. reflexivity.
  Qed.

  (** blocks that end in the order in which they began *)
  Lemma crossed : forall (w : oworld K) set1 r1 k1 set2 body2 k2, o_stack w = [] -> exists sched w',
    cruns cn w [start (CWith set1 (fun _ => CEnd r1) k1); start (CWith set2 body2 k2)] sched =
      Some (w', [start (k1 r1); (PRun (body2 (S (length (o_objs w)))), [(S (length (o_objs w)), k2)])]) /\
    contents w' = [set1] /\ o_total w' = o_total w + context_size set2.
  Proof.
    intros w set1 r1 k1 set2 body2 k2 Hs. destruct w as [h s t f o]. cbn in Hs. subst s. cbn [o_objs o_total].
    exists ([0; 0; 0; 0] ++ [1; 1; 1; 1] ++ [0; 0; 0])%nat. eexists. split.
    - cbn [app cruns nth_error start cstep upd new_context fst snd o_heap o_stack o_total o_funcs o_objs set_stack set_total].
      rewrite app_length. cbn [length]. rewrite Nat.add_1_r. reflexivity.
    - unfold contents, obj. cbn [map o_stack o_objs set_total set_stack o_total removelast app].
      assert (E : nth (length o) ((o ++ [(set1, context_size set1)]) ++ [(set2, context_size set2)]) ([], 0) = (set1, context_size set1)).
      { rewrite app_nth1 by (rewrite app_length; cbn; lia). rewrite app_nth2, Nat.sub_diag by lia. reflexivity. }
      assert (E2 : nth (S (length o)) ((o ++ [(set1, context_size set1)]) ++ [(set2, context_size set2)]) ([], 0) = (set2, context_size set2)).
      { rewrite app_nth2 by (rewrite app_length; cbn; lia). rewrite app_length. cbn [length]. replace (S (length o) - (length o + 1))%nat with O by lia. reflexivity. }
      rewrite ?E, ?E2. cbn [fst snd]. split; [reflexivity|]. rewrite ?app_nth2, ?Nat.sub_diag by lia. cbn [nth snd]. lia.
  Qed.

  (** an update of the counter is lost *)
  Lemma lost : forall (w : oworld K) set1 r1 set2 r2, o_stack w = [] -> exists sched w',
    cruns cn w [start (CWith set1 (fun _ => CEnd r1) CEnd); start (CWith set2 (fun _ => CEnd r2) CEnd)] sched = Some (w', [start (CEnd r1); start (CEnd r2)]) /\
    o_stack w' = [] /\ o_total w' = o_total w - context_size set1 /\ o_heap w' = o_heap w.
  Proof.
    intros w set1 r1 set2 r2 Hs. destruct w as [h s t f o]. cbn in Hs. subst s. cbn [o_objs o_total].
    exists ([0; 0; 0] ++ [1; 1; 1] ++ [0; 1] ++ [0; 0; 0] ++ [1; 1; 1])%nat. eexists. split.
    - cbn [app cruns nth_error start cstep upd new_context fst snd o_heap o_stack o_total o_funcs o_objs set_stack set_total removelast]. reflexivity.
    - cbn [o_stack o_total o_heap set_total set_stack]. split; [reflexivity|]. split; [|reflexivity].
      assert (E : forall x y, snd (nth (length o) ((o ++ [(set1, x)]) ++ [y]) ([], 0)) = x).
      { intros. rewrite app_nth1 by (rewrite app_length; cbn; lia). rewrite app_nth2, Nat.sub_diag by lia. reflexivity. }
      unfold obj. cbn [o_objs set_total set_stack]. rewrite !E. rewrite !(app_nth2 (o ++ [_])), !Nat.sub_diag by lia. cbn [nth snd]. lia.
  Qed.
End CtxThreads.
