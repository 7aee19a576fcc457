(** Context objects: code that enters an object twice, code whose contexts are made where they are entered, numbers of positions. *)
From Verif Require Import Base M_Bits M_Kron M_Ops M_Feed M_Func M_Measure M_Graph M_Context M_CtxObj S_CtxObj.

Section Objects.
  Context {K : Type} {OK : OrdRing K}.

  (** ** the stack is balanced *)
  Lemma oset_loop_stack : forall stack (w : oworld K) l, o_stack (oset_loop w stack l) = o_stack w.
  Proof. induction stack as [|i stack IH]; intros w l; cbn [oset_loop]; [reflexivity|]. destruct (set_qubits_set _ l). rewrite IH. reflexivity. Qed.
  Definition even (w w' : oworld K) : Prop := o_stack w' = o_stack w.
  Lemma even_sbind {A B} : forall w (x : st (oworld K) A) (k : oworld K -> A -> st (oworld K) B),
    even w (fst x) -> (forall w' a, even w' (fst (k w' a))) -> even w (fst (sbind x k)).
  Proof. intros w [w1 [a|e]] k H Hk; unfold sbind; cbn [fst] in *; auto. unfold even in *. rewrite Hk. exact H. Qed.
  Lemma even_op : forall cn (w : oworld K) c args, even w (fst (ocall_op cn w c args)).
  Proof.
    intros cn w c args. unfold ocall_op. destruct (match o_stack w with [] => false | _ => true end).
    all: apply even_sbind; [reflexivity|]; intros w1 q; apply even_sbind; [reflexivity|]; intros w2 outs; apply even_sbind; [|intros w3 [|a l]; reflexivity]; try reflexivity.
    destruct (split_context _ outs) as [[ap o]|e]; [|reflexivity]. apply even_sbind; [|reflexivity].
    unfold oset_qubits. destruct (negb _); [reflexivity|]. apply oset_loop_stack.
  Qed.
  Lemma even_with {A} : forall (w : oworld K) i (body : oworld K -> st (oworld K) A), (forall w, even w (fst (body w))) -> even w (fst (owith w i body)).
  Proof.
    intros w i body H. unfold owith, even, oleave. cbn [fst o_stack]. rewrite H. unfold oenter. cbn [o_stack]. apply removelast_last.
  Qed.
  Lemma code_even : forall A m, object_code (K := K) A m -> forall w, even w (fst (m w)).
  Proof.
    induction 1 as [A r|A x|A m Hm IH|cn c args|v|KW f body kw inputs Hb IH|set|A i body Hb IH|A B m k Hm IHm Hk IHk|A m hd Hm IHm Hh IHh]; intros w.
    - reflexivity.
    - reflexivity.
    - apply IH.
    - apply even_op.
    - destruct v; reflexivity.
    - unfold ocall_func. destruct (consume _ inputs) as [[set rest]|e]; [|reflexivity]. unfold owith_new.
      change (even (fst (new_context w set)) (fst (owith (fst (new_context w set)) (snd (new_context w set)) (fun w0 =>
        sbind (body kw w0 rest) (fun w1 outputs => (w1, Ok (put_in_order (fun i => i) (fst (obj w1 (snd (new_context w set)))) outputs))))))).
      apply even_with. intros w1. apply even_sbind; [apply IH|reflexivity].
    - reflexivity.
    - apply even_with. exact IH.
    - apply even_sbind; auto.
    - specialize (IHm w). destruct (m w) as [w1 [a|e]]; cbn [fst] in *; auto. unfold even in *. rewrite (IHh e w1). exact IHm.
  Qed.
  Lemma oenter_oleave : forall (w : oworld K) i s, o_stack w = s ++ [i] -> oenter (oleave w i) i = w.
  Proof.
    intros [h s0 t f o] i s H. cbn in H. subst s0. unfold oenter, oleave, obj. cbn. rewrite removelast_last. f_equal. lia.
  Qed.
  Lemma enter_again : forall A B (m : oworld K -> st (oworld K) A) (k : A -> oworld K -> st (oworld K) B) w i, object_code A m ->
    sbind (owith w i m) (fun w a => owith w i (k a)) = owith w i (fun w => sbind (m w) (fun w a => k a w)).
  Proof.
    intros A B m k w i H. pose proof (code_even _ _ H (oenter w i)) as E. unfold owith at 1 3. destruct (m (oenter w i)) as [w1 [a|e]]; cbn [fst snd sbind] in *; [|reflexivity].
    unfold owith. rewrite (oenter_oleave w1 i (o_stack w)); [reflexivity|]. exact E.
  Qed.

  (** ** contexts that are made where they are entered *)
  Definition agree (o : oworld K) (w : world K) : Prop :=
    o_heap o = w_heap w /\ o_total o = w_total w /\ o_funcs o = w_funcs w /\ contents o = w_stack w /\
    NoDup (o_stack o) /\ Forall (fun i => (i < length (o_objs o))%nat) (o_stack o).
  (** the objects that exist keep their size *)
  Definition grows (o o' : oworld K) : Prop :=
    o_stack o' = o_stack o /\ (length (o_objs o) <= length (o_objs o'))%nat /\ forall j, (j < length (o_objs o))%nat -> snd (obj o' j) = snd (obj o j).
  Lemma grows_refl : forall o, grows o o. Proof. intros o. repeat split; auto. Qed.
  Lemma grows_trans : forall a b c, grows a b -> grows b c -> grows a c.
  Proof. intros a b c (A1 & A2 & A3) (B1 & B2 & B3). split; [congruence|]. split; [lia|]. intros j Hj. rewrite B3 by lia. apply A3. exact Hj. Qed.
  Lemma obj_set : forall (w : oworld K) i x j, obj (set_obj w i x) j = if (Nat.eqb i j && Nat.ltb i (length (o_objs w)))%bool then x else obj w j.
  Proof. intros w i x j. unfold obj, set_obj. cbn [o_objs]. apply nth_upd. Qed.
  Lemma loop_spec : forall stack (w : oworld K) l, NoDup stack -> Forall (fun i => (i < length (o_objs w))%nat) stack ->
    let w' := oset_loop w stack l in
    map (fun i => fst (obj w' i)) stack = set_qubits_stack (map (fun i => fst (obj w i)) stack) l /\
    (forall j, ~ In j stack -> obj w' j = obj w j) /\ grows w w' /\ o_heap w' = o_heap w /\ o_total w' = o_total w /\ o_funcs w' = o_funcs w /\
    length (o_objs w') = length (o_objs w).
  Proof.
    induction stack as [|i stack IH]; intros w l ND HF; cbv zeta; cbn [oset_loop map set_qubits_stack].
    - repeat split; auto.
    - destruct (set_qubits_set (fst (obj w i)) l) as [set l'] eqn:E. inversion ND as [|? ? N1 N2]; subst. inversion HF as [|? ? F1 F2]; subst.
      set (w1 := set_obj w i (set, snd (obj w i))).
      assert (L1 : length (o_objs w1) = length (o_objs w)) by (unfold w1, set_obj; cbn [o_objs]; apply upd_length).
      destruct (IH w1 l' N2) as (I1 & I2 & I3 & I4 & I5 & I6 & I7); [rewrite L1; exact F2|].
      assert (G1 : grows w w1).
      { split; [reflexivity|]. split; [lia|]. intros j _. unfold w1. rewrite obj_set. destruct (Nat.eqb_spec i j) as [<-|]; cbn [andb]; [|reflexivity]. destruct (Nat.ltb i _); reflexivity. }
      repeat split.
      + f_equal.
        * rewrite (I2 i N1). unfold w1. rewrite obj_set, Nat.eqb_refl, (proj2 (Nat.ltb_lt _ _) F1). reflexivity.
        * rewrite I1. f_equal. apply map_ext_in. intros j Hj. unfold w1. rewrite obj_set. destruct (Nat.eqb_spec i j) as [->|]; [contradiction|reflexivity].
      + intros j Hj. rewrite I2 by (intros X; apply Hj; right; exact X). unfold w1. rewrite obj_set. destruct (Nat.eqb_spec i j) as [->|]; [destruct Hj; left; reflexivity|reflexivity].
      + rewrite (proj1 I3). reflexivity.
      + rewrite I7. lia.
      + intros j Hj. destruct (grows_trans _ _ _ G1 I3) as (_ & _ & X). apply X. exact Hj.
      + exact I4.
      + exact I5.
      + exact I6.
      + lia.
  Qed.
  (** what a computation in one world and its counterpart in the other do *)
  Definition same {A} (o : oworld K) (x : st (oworld K) A) (y : st (world K) A) : Prop :=
    agree (fst x) (fst y) /\ snd x = snd y /\ grows o (fst x).
  Lemma same_bind {A B} : forall o (x : st (oworld K) A) (y : st (world K) A) (k : oworld K -> A -> st (oworld K) B) (k' : world K -> A -> st (world K) B),
    same o x y -> (forall o1 w1 a, agree o1 w1 -> grows o o1 -> same o1 (k o1 a) (k' w1 a)) -> same o (sbind x k) (sbind y k').
  Proof.
    intros o [o1 r] [w1 r'] k k' (H1 & H2 & H3) Hk. cbn [fst snd] in *. subst r'. destruct r as [a|e]; unfold sbind.
    - destruct (Hk o1 w1 a H1 H3) as (I1 & I2 & I3). split; [exact I1|]. split; [exact I2|]. eapply grows_trans; eauto.
    - split; [exact H1|]. split; [reflexivity|exact H3].
  Qed.
  Lemma same_ret {A} : forall o w (r : res A), agree o w -> same o (o, r) (w, r).
  Proof. intros o w r H. split; [exact H|]. split; [reflexivity|apply grows_refl]. Qed.
  Lemma same_heap {A} : forall o w (x : st (heap K) A), agree o w -> same o (oon_heap o x) (on_heap w x).
  Proof. intros o w x H. split; [|split; [reflexivity|repeat split; auto]]. destruct H as (H1 & H2 & H3 & H4 & H5 & H6). repeat split; auto. Qed.
  Lemma same_set : forall o w l, agree o w -> same o (oset_qubits o l) (set_qubits w l).
  Proof.
    intros o w l H. pose proof H as (H1 & H2 & H3 & H4 & H5 & H6). unfold oset_qubits, set_qubits. rewrite H2. destruct (negb _); [apply same_ret; exact H|].
    destruct (loop_spec (o_stack o) o l H5 H6) as (L1 & L2 & L3 & L4 & L5 & L6 & L7). split; [|split; [reflexivity|exact L3]].
    cbn [fst]. split; [|split; [|split; [|split; [|split]]]]; cbn [w_heap w_total w_funcs w_stack]; try congruence.
    - unfold contents. rewrite (proj1 L3), L1. f_equal. exact H4.
    - rewrite (proj1 L3). exact H5.
    - rewrite (proj1 L3), L7. exact H6.
  Qed.
  Lemma same_op : forall cn o w c args given, agree o w -> same o (ocall_op cn o c args) (call_op cn w c args given).
  Proof.
    intros cn o w c args given H. pose proof H as (H1 & H2 & H3 & H4 & H5 & H6). unfold ocall_op, call_op, apply_in_context. rewrite H1, H4.
    assert (X : match o_stack o with [] => false | _ => true end = match w_stack w with [] => false | _ => true end).
    { rewrite <- H4. unfold contents. destruct (o_stack o); reflexivity. }
    rewrite X. destruct (match w_stack w with [] => false | _ => true end).
    - set (all := concat (w_stack w)). set (b := build cn (w_heap w) (wrap_all all c) (put_in_order AQ all args) no_kw).
      assert (E : forall (x : st (world K) nat) (f : world K -> nat -> st (world K) (list nat)) (g : world K -> list nat -> st (world K) (list nat)), sbind (sbind x f) g = sbind x (fun w a => sbind (f w a) g)).
      { intros [w0 [a|e]] f g; reflexivity. }
      assert (E2 : forall (x : st (world K) (list nat)) (f g : world K -> list nat -> st (world K) (list nat)), sbind (sbind x f) g = sbind x (fun w a => sbind (f w a) g)).
      { intros [w0 [a|e]] f g; reflexivity. }
      rewrite E. apply same_bind; [apply same_heap; exact H|]. intros o1 w1 q A1 _. rewrite E2. rewrite (proj1 A1). apply same_bind; [apply same_heap; exact A1|].
      intros o2 w2 outs A2 _. apply same_bind; [|intros o3 w3 [|a l] A3 _; apply same_ret; exact A3].
      destruct (split_context all outs) as [[ap rest]|e]; [|apply same_ret; exact A2]. apply same_bind; [apply same_set; exact A2|]. intros; apply same_ret; assumption.
    - assert (E : forall (x : st (world K) nat) (f : world K -> nat -> st (world K) (list nat)) (g : world K -> list nat -> st (world K) (list nat)), sbind (sbind x f) g = sbind x (fun w a => sbind (f w a) g)).
      { intros [w0 [a|e]] f g; reflexivity. }
      assert (E2 : forall (x : st (world K) (list nat)) (f g : world K -> list nat -> st (world K) (list nat)), sbind (sbind x f) g = sbind x (fun w a => sbind (f w a) g)).
      { intros [w0 [a|e]] f g; reflexivity. }
      rewrite E. apply same_bind; [apply same_heap; exact H|]. intros o1 w1 q A1 _. rewrite E2. rewrite (proj1 A1). apply same_bind; [apply same_heap; exact A1|].
      intros o2 w2 outs A2 _. apply same_bind; [apply same_ret; exact A2|intros o3 w3 [|a l] A3 _; apply same_ret; exact A3].
  Qed.
  Lemma nodup_snoc {A} : forall (l : list A) x, NoDup l -> ~ In x l -> NoDup (l ++ [x]).
  Proof.
    induction l as [|a l IH]; intros x ND H; cbn [app]; [repeat constructor; auto|]. inversion ND; subst. constructor.
    - rewrite in_app_iff. intros [X|[X|[]]]; [contradiction|]. subst. apply H. left. reflexivity.
    - apply IH; auto. intros X. apply H. right. exact X.
  Qed.
  Lemma agree_new : forall (o : oworld K) w set, agree o w -> let n := new_context o set in
    agree (oenter (fst n) (snd n)) (enter w set (context_size set)) /\ grows o (fst n) /\ fst (obj (oenter (fst n) (snd n)) (snd n)) = set /\
    snd (obj (fst n) (snd n)) = context_size set.
  Proof.
    intros o w set (H1 & H2 & H3 & H4 & H5 & H6). cbv zeta. unfold new_context. cbn [fst snd].
    assert (X : nth (length (o_objs o)) (o_objs o ++ [(set, context_size set)]) ([], 0) = (set, context_size set)) by (rewrite app_nth2, Nat.sub_diag; [reflexivity|lia]).
    split; [|split; [|split]].
    - unfold oenter, obj. cbn [o_heap o_stack o_total o_funcs o_objs]. rewrite X. cbn [snd].
      split; [exact H1|]. split; [cbn [o_total w_total enter]; congruence|]. split; [exact H3|]. split; [|split]; cbn [o_stack w_stack enter o_objs].
      + unfold contents, obj. cbn [o_stack o_objs]. rewrite map_app. cbn [map]. rewrite X. cbn [fst]. f_equal. rewrite <- H4. unfold contents, obj.
        apply map_ext_in. intros j Hj. rewrite app_nth1; [reflexivity|]. exact (proj1 (Forall_forall _ _) H6 j Hj).
      + apply nodup_snoc; [exact H5|]. intros C. apply (proj1 (Forall_forall _ _) H6) in C. lia.
      + rewrite app_length. cbn [length]. apply Forall_app. split; [|constructor; [lia|constructor]]. eapply Forall_impl; [|exact H6]. cbn. lia.
    - split; [reflexivity|]. cbn [o_objs]. split; [rewrite app_length; lia|]. intros j Hj. unfold obj. cbn [o_objs]. rewrite app_nth1; auto.
    - unfold oenter, obj. cbn [o_objs]. rewrite X. reflexivity.
    - unfold obj. cbn [o_objs]. rewrite X. reflexivity.
  Qed.
  Lemma same_with_new {A} : forall o w set (body : nat -> oworld K -> st (oworld K) A) (body' : world K -> st (world K) A), agree o w ->
    (forall o1 w1, agree o1 w1 -> o_stack o1 = o_stack o ++ [length (o_objs o)] -> same o1 (body (length (o_objs o)) o1) (body' w1)) ->
    same o (owith_new o set body) (with_context w set body').
  Proof.
    intros o w set body body' H Hb. destruct (agree_new o w set H) as (A1 & A2 & A3 & A4). unfold owith_new, owith, with_context.
    set (n := new_context o set) in *. set (o1 := oenter (fst n) (snd n)) in *. set (w1 := enter w set (context_size set)) in *.
    change (snd n) with (length (o_objs o)) in *.
    assert (S1 : o_stack o1 = o_stack o ++ [length (o_objs o)]) by reflexivity.
    destruct (Hb o1 w1 A1 S1) as (B1 & B2 & B3). destruct (body (length (o_objs o)) o1) as [o2 r]. destruct (body' w1) as [w2 r']. cbn [fst snd] in *.
    destruct B1 as (C1 & C2 & C3 & C4 & C5 & C6). destruct B3 as (D1 & D2 & D3). rewrite S1 in D1.
    assert (Lo1 : length (o_objs o1) = S (length (o_objs o))) by (unfold o1, n, oenter, new_context; cbn; rewrite app_length; cbn; lia).
    assert (Z2 : snd (obj o2 (length (o_objs o))) = context_size set) by (rewrite D3 by lia; exact A4).
    rewrite D1 in C5, C6. apply NoDup_remove_1 in C5. rewrite app_nil_r in C5. apply Forall_app in C6. destruct C6 as [C6 _].
    split; [|split; [exact B2|]].
    - split; [exact C1|]. split; [unfold oleave; cbn [o_total leave w_total]; rewrite Z2, C2; reflexivity|]. split; [exact C3|].
      unfold oleave. cbn [o_stack o_objs fst leave w_stack]. rewrite D1, removelast_last. split; [|split; [exact C5|exact C6]].
      unfold contents in *. rewrite D1, map_app in C4. cbn [map] in C4. rewrite <- C4, removelast_last. reflexivity.
    - unfold oleave. cbn [fst]. split; [cbn [o_stack]; rewrite D1; apply removelast_last|]. cbn [o_objs]. split; [lia|].
      intros j Hj. change (snd (obj o2 j) = snd (obj o j)). rewrite D3 by lia. destruct A2 as (_ & _ & X). change (obj o1 j) with (obj (fst n) j). apply X. exact Hj.
  Qed.
  Lemma code_same : forall A m m', same_code (K := K) A m m' -> forall o w, agree o w -> same o (m o) (m' w).
  Proof.
    induction 1 as [A r|A x|A m m' Hm IH|cn c args given|v|KW f body body' kw inputs Hb IH|A set body body' Hb IH|A B m m' k k' Hm IHm Hk IHk|A m m' hd hd' Hm IHm Hh IHh]; intros o w H.
    - apply same_ret. exact H.
    - rewrite (proj1 H). apply same_heap. exact H.
    - rewrite (proj1 H). apply IH. exact H.
    - apply same_op. exact H.
    - destruct v as [c|f]; [apply same_ret; exact H|]. cbn [oapply_C apply_C fst snd]. destruct H as (H1 & H2 & H3 & H4 & H5 & H6).
      split; [|split; [reflexivity|repeat split; auto]]. cbn [fst]. repeat split; auto. cbn [o_funcs w_funcs]. unfold wrappers_of. rewrite H3. reflexivity.
    - unfold ocall_func, call_func, wrappers_of. pose proof H as (_ & _ & H3 & _). rewrite H3. destruct (consume _ inputs) as [[set rest]|e]; [|apply same_ret; exact H].
      apply same_with_new; [exact H|]. intros o1 w1 A1 S1. destruct (IH rest o1 w1 A1) as (B1 & B2 & B3).
      destruct (body kw o1 rest) as [o2 r]. destruct (body' kw w1 rest) as [w2 r']. cbn [fst snd] in *. subst r'. destruct r as [outs|e]; unfold sbind.
      + split; [exact B1|]. split; [|exact B3]. cbn [snd]. do 2 f_equal. destruct B1 as (_ & _ & _ & C4 & _). rewrite <- C4. unfold contents. rewrite (proj1 B3), S1, map_app.
        cbn [map]. rewrite last_last. reflexivity.
      + split; [exact B1|]. split; [reflexivity|exact B3].
    - apply same_with_new; [exact H|]. intros o1 w1 A1 _. apply IH. exact A1.
    - apply same_bind; [apply IHm; exact H|]. intros o1 w1 a A1 _. apply IHk. exact A1.
    - destruct (IHm o w H) as (B1 & B2 & B3). destruct (m o) as [o1 r]. destruct (m' w) as [w1 r']. cbn [fst snd] in *. subst r'.
      destruct r as [a|e]; [split; [exact B1|split; [reflexivity|exact B3]]|]. destruct (IHh e o1 w1 B1) as (D1 & D2 & D3). split; [exact D1|]. split; [exact D2|]. eapply grows_trans; eauto.
  Qed.
  (** at the top level *)
  Lemma code_same_top : forall A m m' h funcs objs o' r, same_code (K := K) A m m' -> m (mkOW h [] 0 funcs objs) = (o', r) ->
    exists w', m' (mkWorld h [] 0 funcs) = (w', r) /\ w_heap w' = o_heap o' /\ w_funcs w' = o_funcs o' /\ w_stack w' = [] /\ o_stack o' = [] /\ w_total w' = o_total o'.
  Proof.
    intros A m m' h funcs objs o' r H E.
    destruct (code_same _ _ _ H (mkOW h [] 0 funcs objs) (mkWorld h [] 0 funcs)) as (B1 & B2 & B3); [repeat split; constructor|].
    rewrite E in B1, B2, B3. destruct (m' (mkWorld h [] 0 funcs)) as [w r']. cbn [fst snd] in *. destruct B1 as (C1 & C2 & C3 & C4 & _).
    destruct B3 as (D1 & _). cbn [o_stack] in D1. exists w. unfold contents in C4. rewrite D1 in C4. cbn [map] in C4. repeat split; congruence.
  Qed.

  (** ** numbers of qubits and positions *)
  Lemma pops_length {A} : forall is_ (l : list A) r, py_pops l is_ = Ok r -> length (fst r) = length is_.
  Proof.
    induction is_ as [|i is_ IH]; intros l r H; cbn [py_pops] in H; [injection H as <-; reflexivity|].
    destruct (py_pop l i) as [x|]; cbn [bind] in H; [|discriminate]. destruct (py_pops (snd x) is_) as [y|] eqn:E; cbn [bind] in H; [|discriminate].
    injection H as <-. cbn [fst length]. f_equal. exact (IH _ _ E).
  Qed.
  Lemma split_length : forall all l r, split_context all l = Ok r -> length (fst r) = length (concat (map cx_idx all)).
  Proof.
    induction all as [|cx all IH]; intros l r H; cbn [split_context] in H; [injection H as <-; reflexivity|].
    destruct (py_pops l (cx_idx cx)) as [x|] eqn:E1; cbn [bind] in H; [|discriminate]. destruct (split_context all (snd x)) as [y|] eqn:E2; cbn [bind] in H; [|discriminate].
    injection H as <-. cbn [fst map concat]. rewrite !app_length, (pops_length _ _ _ E1), (IH _ _ E2). reflexivity.
  Qed.
  Lemma count_raises : forall cn (w : oworld K) c args, o_stack w <> [] -> zlen (concat (map cx_idx (concat (contents w)))) <> o_total w ->
    exists w' e, ocall_op cn w c args = (w', Raise e).
  Proof.
    intros cn w c args Hs Hc. unfold ocall_op. destruct (o_stack w) as [|s0 st0] eqn:Es; [congruence|]. clear Hs.
    destruct (build _ _ _ _ _) as [h1 [q|e]]; unfold oon_heap; cbn [fst snd sbind]; [|eauto].
    destruct (split _ q None) as [h2 [outs|e]]; cbn [fst snd sbind]; [|eauto].
    destruct (split_context _ outs) as [[ap rest]|e] eqn:E; cbn [sbind]; [|eauto].
    pose proof (split_length _ _ _ E) as X. cbn [fst] in X. unfold oset_qubits. cbn [o_total oset_heap].
    destruct (Z.eqb_spec (zlen ap) (o_total w)) as [Y|Y]; [|cbn [negb sbind]; eauto]. exfalso. apply Hc. rewrite <- Y. unfold zlen. congruence.
  Qed.
  Lemma context_size_len : forall set, context_size set = zlen (concat (map cx_qubits set)).
  Proof. induction set as [|cx set IH]; [reflexivity|]. unfold context_size in *. cbn [fold_right map concat]. rewrite IH. unfold zlen. rewrite app_length. lia. Qed.
  (** [d] is what TOTAL_CONTEXT_QUBITS is off by *)
  Lemma with_count : forall cn (w : oworld K) set c args, o_stack w = [] ->
    zlen (concat (map cx_idx set)) <> o_total w + zlen (concat (map cx_qubits set)) ->
    exists w' e, owith_new w set (fun _ w => ocall_op cn w c args) = (w', Raise e).
  Proof.
    intros cn w set c args Hs Hn. unfold owith_new, owith. set (n := new_context w set).
    destruct (count_raises cn (oenter (fst n) (snd n)) c args) as (w' & e & E).
    - unfold oenter, n, new_context. cbn. rewrite Hs. discriminate.
    - unfold contents, oenter, n, new_context, obj. cbn [o_stack o_objs fst snd o_total]. rewrite Hs. cbn [app map concat].
      rewrite app_nth2, Nat.sub_diag by lia. cbn [nth fst snd]. rewrite app_nil_r, context_size_len. exact Hn.
    - rewrite E. cbn [fst snd]. eauto.
  Qed.
  (** an entry is added to an active object *)
  Lemma late : forall (w : oworld K) i cx, o_stack w = [] -> o_total w = 0 -> (i < length (o_objs w))%nat ->
    exists w', owith w i (fun w => (add_to w i cx, Ok tt)) = (w', Ok tt) /\ o_stack w' = [] /\ o_total w' = - zlen (cx_qubits cx).
  Proof.
    intros w i cx Hs Ht Hi. eexists. split; [reflexivity|]. unfold owith. cbn [fst]. split.
    - unfold oleave, add_to, set_obj, oenter. cbn [o_stack]. rewrite Hs. reflexivity.
    - unfold oleave. cbn [o_total]. unfold add_to at 2. rewrite obj_set, Nat.eqb_refl. unfold add_to, set_obj, oenter, obj. cbn [o_total o_objs].
      rewrite (proj2 (Nat.ltb_lt _ _) Hi). cbn [andb snd]. lia.
  Qed.
  (** one object entered twice *)
  Lemma nested : forall cn (w : oworld K) i q c args, o_stack w = [] -> fst (obj w i) = [mkCtx C_ctor [q] [0]] ->
    snd (owith w i (fun w => owith w i (fun w => ocall_op cn w c args))) = Raise ValueError.
  Proof.
    intros cn w i q c args Hs Hi. unfold owith. cbn [snd]. unfold ocall_op. set (w1 := oenter (oenter w i) i).
    assert (Es : o_stack w1 = [i; i]) by (unfold w1, oenter; cbn [o_stack]; rewrite Hs; reflexivity).
    assert (Ec : contents w1 = [[mkCtx C_ctor [q] [0]]; [mkCtx C_ctor [q] [0]]]).
    { unfold contents. rewrite Es. cbn [map]. unfold w1, oenter, obj. cbn [o_objs]. fold (obj w i). rewrite Hi. reflexivity. }
    rewrite Es, Ec. cbn [concat app]. unfold put_in_order, wrap_all, py_inserts. cbn [rev app fold_left cx_qubits cx_idx map combine fst snd cx_fn].
    unfold py_insert. cbn [Z.ltb Z.compare Z.to_nat firstn skipn app]. unfold C_ctor at 1. cbn [build].
    replace (zlen (AQ q :: AQ q :: args) <? 2) with false by (symmetry; apply Z.ltb_ge; unfold zlen; cbn [length]; lia).
    destruct (negb (nd_n _ =? 1)); [reflexivity|]. unfold repeated_args. cbn [only_qubits].
    assert (R : repeated (q :: q :: only_qubits args) = true).
    { unfold repeated. apply Nat.ltb_lt. eapply Nat.le_lt_trans; [apply (NoDup_incl_length (l' := q :: only_qubits args)); [apply NoDup_nodup|]|cbn [length]; lia].
      intros x Hx. apply nodup_In in Hx. destruct Hx as [<-|Hx]; [left; reflexivity|exact Hx]. }
    rewrite R. reflexivity.
  Qed.
End Objects.
