(** Contexts are balanced whatever the user's code does; one wrapper of a function. *)
From Coq Require Import Sorted.
From Verif Require Import Base M_Graph M_Context S_Code L_Context1.

Section Balanced.
  Context {K : Type} {OK : OrdRing K}.
  Lemma set_set_shape : forall set l, map (fun cx => (cx_fn cx, cx_idx cx)) (fst (set_qubits_set set l)) = map (fun cx => (cx_fn cx, cx_idx cx)) set.
  Proof.
    induction set as [|cx set IH]; intros l; cbn [set_qubits_set map]; auto.
    destruct (set_qubits_set set _) as [s l'] eqn:E. cbn [fst map cx_fn cx_idx]. f_equal.
    specialize (IH (skipn (length (cx_qubits cx)) l)). rewrite E in IH. exact IH.
  Qed.
  Lemma set_stack_shape : forall stack l, map (map (fun cx => (cx_fn cx, cx_idx cx))) (set_qubits_stack stack l) = map (map (fun cx => (cx_fn cx, cx_idx cx))) stack.
  Proof.
    induction stack as [|set stack IH]; intros l; cbn [set_qubits_stack map]; auto.
    pose proof (set_set_shape set l) as H. destruct (set_qubits_set set l) as [s l']. cbn [map fst] in *. f_equal; auto.
  Qed.
  Definition bal (w w' : world K) : Prop := active w' = active w /\ w_total w' = w_total w.
  Lemma bal_refl : forall w, bal w w. Proof. split; auto. Qed.
  Lemma bal_trans : forall a b c, bal a b -> bal b c -> bal a c.
  Proof. intros a b c [A1 A2] [B1 B2]. split; congruence. Qed.
  Lemma bal_heap {A} : forall w (x : st (heap K) A), bal w (fst (on_heap w x)).
  Proof. intros w x. split; reflexivity. Qed.
  Lemma bal_sbind {A B} : forall w (x : st (world K) A) (k : world K -> A -> st (world K) B),
    bal w (fst x) -> (forall w' a, bal w' (fst (k w' a))) -> bal w (fst (sbind x k)).
  Proof.
    intros w [w1 [a|e]] k H Hk; unfold sbind; cbn [fst] in *; auto. eapply bal_trans; [exact H|apply Hk].
  Qed.
  Lemma bal_op : forall cn w c args given, bal w (fst (call_op cn w c args given)).
  Proof.
    intros cn w c args given. unfold call_op. apply bal_sbind; [|intros w' [|a l]; apply bal_refl].
    unfold apply_in_context. destruct (match w_stack w with [] => false | _ => true end).
    all: apply bal_sbind; [apply bal_heap|]; intros w1 q; apply bal_sbind; [apply bal_heap|]; intros w2 outs; try apply bal_refl.
    destruct (split_context _ outs) as [[ap o]|e]; [|apply bal_refl]. apply bal_sbind; [|intros; apply bal_refl].
    unfold set_qubits. destruct (negb _); [apply bal_refl|]. split; [apply set_stack_shape|reflexivity].
  Qed.
  Lemma removelast_map {A B} (f : A -> B) : forall l, map f (removelast l) = removelast (map f l).
  Proof. induction l as [|a [|b l] IH]; cbn [removelast map]; auto. f_equal. exact IH. Qed.
  Lemma bal_with {A} : forall w set (body : world K -> st (world K) A), (forall w, bal w (fst (body w))) -> bal w (fst (with_context w set body)).
  Proof.
    intros w set body Hb. unfold with_context. cbn [fst]. destruct (Hb (enter w set (context_size set))) as [H1 H2].
    destruct (body (enter w set (context_size set))) as [w1 r]. cbn [fst] in *.
    unfold active, enter in H1. unfold enter in H2. cbn [w_stack w_total] in *. split; unfold active, leave; cbn [w_stack w_total].
    - rewrite removelast_map, H1, map_app. cbn [map]. rewrite removelast_app by discriminate. cbn [removelast]. apply app_nil_r.
    - lia.
  Qed.
  Lemma code_bal : forall A m, user_code (K := K) A m -> forall w, bal w (fst (m w)).
  Proof.
    induction 1 as [A r|A x|A m Hm IH|cn c args given|v|KW f body kw inputs Hb IH|A set body Hb IH|A B m k Hm IHm Hk IHk|A m hd Hm IHm Hh IHh]; intros w.
    - apply bal_refl.
    - apply bal_heap.
    - apply IH.
    - apply bal_op.
    - destruct v; split; reflexivity.
    - unfold call_func. destruct (consume _ inputs) as [[set rest]|e]; [|apply bal_refl].
      apply bal_with. intros w1. apply bal_sbind; [apply IH|]. intros; apply bal_refl.
    - apply bal_with. exact IH.
    - apply bal_sbind; auto.
    - specialize (IHm w). destruct (m w) as [w1 [a|e]]; cbn [fst] in *; auto. eapply bal_trans; [exact IHm|apply IHh].
  Qed.
  Lemma code_balanced : forall A m w w' r, user_code (K := K) A m -> m w = (w', r) -> active w' = active w /\ w_total w' = w_total w.
  Proof. intros A m w w' r H E. pose proof (code_bal _ _ H w) as B. rewrite E in B. exact B. Qed.
  Lemma code_top : forall A m w w' r, user_code (K := K) A m -> m w = (w', r) -> w_stack w = [] -> w_total w = 0 ->
    w_stack w' = [] /\ w_total w' = 0.
  Proof.
    intros A m w w' r H E H1 H2. destruct (code_balanced _ _ _ _ _ H E) as [A1 A2]. split; [|congruence].
    unfold active in A1. rewrite H1 in A1. destruct (w_stack w'); auto; discriminate.
  Qed.

  (** the number of qubits in the contexts *)
  Lemma set_set_sizes : forall set l, (length (concat (map cx_qubits set)) <= length l)%nat ->
    map (fun cx => zlen (cx_qubits cx)) (fst (set_qubits_set set l)) = map (fun cx => zlen (cx_qubits cx)) set /\
    snd (set_qubits_set set l) = skipn (length (concat (map cx_qubits set))) l.
  Proof.
    induction set as [|cx set IH]; intros l H; cbn [set_qubits_set map concat]; auto. cbn [map concat] in H. rewrite app_length in H.
    destruct (IH (skipn (length (cx_qubits cx)) l)) as [I1 I2]; [rewrite skipn_length; lia|].
    destruct (set_qubits_set set _) as [s l'] eqn:E. cbn [fst snd map cx_qubits] in *. split.
    - f_equal; [|exact I1]. unfold zlen. rewrite firstn_length. lia.
    - rewrite I2, app_length. clear. revert l. generalize (length (concat (map cx_qubits set))) as b. induction (length (cx_qubits cx)) as [|a IH]; intros b l; [reflexivity|]. destruct l as [|x l]; [apply skipn_nil|]. cbn [skipn Nat.add]. apply IH.
  Qed.
  Lemma stack_sizes : forall stack l, (length (concat (map cx_qubits (concat stack))) <= length l)%nat -> context_sizes (set_qubits_stack stack l) = context_sizes stack.
  Proof.
    unfold context_sizes. induction stack as [|set stack IH]; intros l H; cbn [set_qubits_stack map concat]; auto. cbn [concat] in H. rewrite map_app, concat_app, app_length in H.
    destruct (set_set_sizes set l) as [I1 I2]; [lia|]. destruct (set_qubits_set set l) as [s l']. cbn [fst snd map] in *. f_equal; [exact I1|]. apply IH. rewrite I2, skipn_length. lia.
  Qed.
  Lemma sizes_sum stack : fold_right Z.add 0 (concat (context_sizes stack)) = zlen (concat (map cx_qubits (concat stack))).
  Proof.
    unfold context_sizes. rewrite concat_map. replace (map (map (fun cx => zlen (cx_qubits cx))) stack) with (map (map zlen) (map (map cx_qubits) stack)) by (rewrite map_map; apply map_ext; intros; apply map_map).
    rewrite <- concat_map. generalize (concat (map (map cx_qubits) stack)) as ls. induction ls as [|l ls IH]; [reflexivity|]. cbn [map fold_right concat]. rewrite IH. unfold zlen. rewrite app_length. lia.
  Qed.
  Definition siz (w w' : world K) : Prop := counted w -> counted w' /\ context_sizes (w_stack w') = context_sizes (w_stack w).
  Lemma siz_refl : forall w, siz w w. Proof. intros w H. auto. Qed.
  Lemma siz_trans : forall a b c, siz a b -> siz b c -> siz a c.
  Proof. intros a b c H1 H2 H. destruct (H1 H) as [A1 A2]. destruct (H2 A1) as [B1 B2]. split; [exact B1|congruence]. Qed.
  Lemma siz_heap {A} : forall w (x : st (heap K) A), siz w (fst (on_heap w x)).
  Proof. intros w x H. split; [exact H|reflexivity]. Qed.
  Lemma siz_sbind {A B} : forall w (x : st (world K) A) (k : world K -> A -> st (world K) B),
    siz w (fst x) -> (forall w' a, siz w' (fst (k w' a))) -> siz w (fst (sbind x k)).
  Proof. intros w [w1 [a|e]] k H Hk; unfold sbind; cbn [fst] in *; auto. eapply siz_trans; [exact H|apply Hk]. Qed.
  Lemma siz_set : forall w l, siz w (fst (set_qubits w l)).
  Proof.
    intros w l H. unfold set_qubits. destruct (zlen l =? w_total w) eqn:E; [|split; [exact H|reflexivity]]. cbn [negb fst w_stack]. apply Z.eqb_eq in E.
    assert (X : context_sizes (set_qubits_stack (w_stack w) l) = context_sizes (w_stack w)).
    { apply stack_sizes. unfold counted in H. rewrite sizes_sum in H. unfold zlen in *. lia. }
    split; [|exact X]. unfold counted in *. cbn [w_stack w_total]. rewrite X. exact H.
  Qed.
  Lemma siz_op : forall cn w c args given, siz w (fst (call_op cn w c args given)).
  Proof.
    intros cn w c args given. unfold call_op. apply siz_sbind; [|intros w' [|a l]; apply siz_refl].
    unfold apply_in_context. destruct (match w_stack w with [] => false | _ => true end).
    all: apply siz_sbind; [apply siz_heap|]; intros w1 q; apply siz_sbind; [apply siz_heap|]; intros w2 outs; try apply siz_refl.
    destruct (split_context _ outs) as [[ap o]|e]; [|apply siz_refl]. apply siz_sbind; [|intros; apply siz_refl]. apply siz_set.
  Qed.
  Lemma counted_enter : forall (w : world K) set, counted w -> counted (enter w set (context_size set)).
  Proof.
    intros w set H. unfold counted in *. cbn [enter w_stack w_total]. rewrite H. unfold context_sizes. rewrite map_app, concat_app. cbn [map concat]. rewrite app_nil_r.
    generalize (concat (map (map (fun cx => zlen (cx_qubits cx))) (w_stack w))) as l. intros l. induction l as [|x l IH]; cbn [fold_right app].
    - unfold context_size. induction set as [|cx set IH]; cbn [map fold_right]; [reflexivity|]. unfold zlen in *. lia.
    - lia.
  Qed.
  Lemma siz_with {A} : forall w set (body : world K -> st (world K) A), (forall w, siz w (fst (body w))) -> siz w (fst (with_context w set body)).
  Proof.
    intros w set body Hb H. unfold with_context. cbn [fst]. destruct (Hb (enter w set (context_size set)) (counted_enter w set H)) as [H1 H2].
    assert (X : context_sizes (w_stack (leave (fst (body (enter w set (context_size set)))) (context_size set))) = context_sizes (w_stack w)).
    { cbn [leave w_stack]. unfold context_sizes in *. rewrite removelast_map, H2. cbn [enter w_stack]. rewrite map_app. cbn [map]. rewrite removelast_app by discriminate. cbn [removelast]. apply app_nil_r. }
    split; [|exact X]. unfold counted in *. rewrite X. cbn [leave w_total]. rewrite H1, H2. cbn [enter w_stack]. unfold context_sizes. rewrite map_app, concat_app. cbn [map concat]. rewrite app_nil_r.
    assert (Hs : fold_right Z.add 0 (map (fun cx => zlen (cx_qubits cx)) set) = context_size set) by (clear; unfold context_size; induction set as [|cx set IH]; cbn [map fold_right]; [reflexivity|rewrite IH; reflexivity]).
    rewrite <- Hs. generalize (concat (map (map (fun cx => zlen (cx_qubits cx))) (w_stack w))) as l. induction l as [|x l IH]; cbn [fold_right app]; lia.
  Qed.
  Lemma code_siz : forall A m, user_code (K := K) A m -> forall w, siz w (fst (m w)).
  Proof.
    induction 1 as [A r|A x|A m Hm IH|cn c args given|v|KW f body kw inputs Hb IH|A set body Hb IH|A B m k Hm IHm Hk IHk|A m hd Hm IHm Hh IHh]; intros w.
    - apply siz_refl.
    - apply siz_heap.
    - apply IH.
    - apply siz_op.
    - intros H. destruct v; split; auto.
    - unfold call_func. destruct (consume _ inputs) as [[set rest]|e]; [|apply siz_refl].
      apply siz_with. intros w1. apply siz_sbind; [apply IH|]. intros; apply siz_refl.
    - apply siz_with. exact IH.
    - apply siz_sbind; auto.
    - specialize (IHm w). destruct (m w) as [w1 [a|e]]; cbn [fst] in *; auto. eapply siz_trans; [exact IHm|apply IHh].
  Qed.
  Lemma code_counted : forall A m w set w' s t, user_code (K := K) A m -> counted w ->
    with_context w set (fun w => let w1 := fst (m w) in (w1, Ok (w_stack w1, w_total w1))) = (w', Ok (s, t)) ->
    t = fold_right Z.add 0 (concat (context_sizes s)) /\ context_sizes s = context_sizes (w_stack w ++ [set]) /\ counted w'.
  Proof.
    intros A m w set w' s t Hm H E. destruct (code_siz _ _ Hm (enter w set (context_size set)) (counted_enter w set H)) as [H1 H2].
    assert (Hw : counted (fst (with_context w set m))) by (apply (siz_with w set m (code_siz _ _ Hm)); exact H).
    unfold with_context in E, Hw. cbn [fst snd] in E, Hw. injection E as Ew Es Et. rewrite <- Es, <- Et, <- Ew. split; [exact H1|]. split; [exact H2|exact Hw].
  Qed.

  Lemma code_loop {I A} : forall (f : world K -> A -> I -> st (world K) A), (forall a i, user_code A (fun w => f w a i)) ->
    forall l a, user_code A (fun w => sloop f l w a).
  Proof.
    intros f Hf l. induction l as [|i l IH]; intros a; cbn [sloop].
    - apply uc_end.
    - apply (uc_then _ _ (fun w => f w a i) (fun a w => sloop f l w a)); auto.
  Qed.
  Ltac code_then := match goal with
    | |- user_code ?B (fun w => sbind (@?m w) (fun w' a => @?k w' a)) => apply (uc_then _ B m (fun a w' => k w' a)); [|intros]
    end.
  Lemma code_one : forall m, user_code (K := K) (list nat) m -> user_code nat (fun w => one_output (m w)).
  Proof. intros m H. unfold one_output. code_then; auto. destruct a as [|x [|y l]]; apply uc_end. Qed.
  Lemma code_two : forall m, user_code (K := K) (list nat) m -> user_code (nat * nat) (fun w => two_outputs (m w)).
  Proof. intros m H. unfold two_outputs. code_then; auto. destruct a as [|x [|y [|z l]]]; apply uc_end. Qed.
  Lemma code_at1 : forall cn c qarr i, user_code (K := K) (list nat) (fun w => apply_at1 cn w c qarr i).
  Proof.
    intros cn c qarr i. unfold apply_at1, lift. code_then; [apply uc_end|]. code_then; [|apply uc_end].
    apply (code_one (fun w => call_op cn w c [AQ a] no_kw)). apply uc_op.
  Qed.
  Lemma code_at2 : forall cn c qarr i j, user_code (K := K) (list nat) (fun w => apply_at2 cn w c qarr i j).
  Proof.
    intros cn c qarr i j. unfold apply_at2, lift. code_then; [apply uc_end|]. code_then; [apply uc_end|].
    code_then; [apply (code_two (fun w => call_op cn w c [AQ a; AQ a0] no_kw)); apply uc_op|].
    code_then; apply uc_end.
  Qed.
  Lemma code_rec : forall cn fuel qarr offset, user_code (K := K) (list nat) (fun w => recQFFT cn fuel w qarr offset).
  Proof.
    induction fuel as [|fuel IH]; intros qarr offset; cbn [recQFFT]; destruct (offset <? zlen qarr); try apply uc_end.
    code_then; [apply code_at1|]. code_then; [|apply IH].
    apply (code_loop (fun w qarr i => apply_at2 cn w (C_ctor (MakeR (1 + i - offset))) qarr i offset)). intros; apply code_at2.
  Qed.
  Lemma code_body : forall cn rev_ inputs, user_code (K := K) (list nat) (fun w => qfft_body cn rev_ w inputs).
  Proof.
    intros cn rev_ inputs. unfold qfft_body. code_then.
    { apply (code_loop (fun w qarr inp =>
             sbind (on_heap w (split (w_heap w) inp (Some (zrange 0 (nd_n (nd (w_heap w) inp)))))) (fun w l => (w, Ok (qarr ++ l))))).
      intros qarr inp. code_then; [|apply uc_end]. apply (uc_heap _ (fun h => split h inp (Some (zrange 0 (nd_n (nd h inp)))))). }
    code_then; [apply code_rec|]. code_then.
    { destruct rev_; [|apply uc_end]. apply (code_loop (fun w qarr i => apply_at2 cn w (Wrap BSwap no_kw) qarr i (-1 - i))). intros; apply code_at2. }
    destruct (zlen inputs <? zlen a1).
    - code_then; [|apply uc_end].
      apply (code_loop (fun w '(out, index) qubit =>
               let n := nd_n (nd (w_heap w) qubit) in
               sbind (on_heap w (new_node (w_heap w) KQubit (firstn (Z.to_nat n) (skipn (Z.to_nat index) a1)) None None false None))
                 (fun w o => (w, Ok (out ++ [o], index + n))))).
      intros [out index] qubit. cbv zeta.
      apply (uc_read _ (fun now w => sbind (on_heap w (new_node (w_heap w) KQubit (firstn (Z.to_nat (nd_n (nd (w_heap now) qubit))) (skipn (Z.to_nat index) a1)) None None false None))
                 (fun w o => (w, Ok (out ++ [o], index + nd_n (nd (w_heap now) qubit)))))).
      intros now. code_then; [|apply uc_end]. apply (uc_heap _ (fun h => new_node h KQubit (firstn (Z.to_nat (nd_n (nd (w_heap now) qubit))) (skipn (Z.to_nat index) a1)) None None false None)).
    - destruct a1; apply uc_end.
  Qed.
  Lemma code_qfft : forall cn f rev_ inputs, user_code (K := K) (list nat) (fun w => QFFT cn w f rev_ inputs).
  Proof. intros. apply (uc_func bool f (qfft_body cn)). intros. apply code_body. Qed.
End Balanced.

(** ** one wrapper *)
Section Positions.
  Context {A : Type}.
  Lemma pop_app : forall (a : list A) x b, py_pop (a ++ x :: b) (zlen a) = Ok (x, a ++ b).
  Proof.
    intros a x b. unfold py_pop. pose proof (zlen_nonneg a) as P. assert (E : (zlen a <? 0) = false) by (apply Z.ltb_ge; lia). rewrite E.
    assert (E2 : (0 <=? zlen a) && (zlen a <? zlen (a ++ x :: b)) = true).
    { apply andb_true_intro. split; [apply Z.leb_le; lia|]. apply Z.ltb_lt. rewrite zlen_app. unfold zlen. cbn [length]. lia. }
    rewrite E2. unfold zlen. rewrite Nat2Z.id. rewrite skipn_app, skipn_all, Nat.sub_diag. cbn [app skipn].
    rewrite firstn_app, firstn_all, Nat.sub_diag. cbn [firstn]. rewrite app_nil_r. reflexivity.
  Qed.
  Lemma insert_app : forall (a : list A) x b, py_insert (a ++ b) (zlen a) x = a ++ x :: b.
  Proof.
    intros a x b. unfold py_insert. pose proof (zlen_nonneg a) as P. assert (E : (zlen a <? 0) = false) by (apply Z.ltb_ge; lia). rewrite E.
    unfold zlen. rewrite Nat2Z.id. rewrite skipn_app, skipn_all, Nat.sub_diag. cbn [app skipn].
    rewrite firstn_app, firstn_all, Nat.sub_diag. cbn [firstn]. rewrite app_nil_r. reflexivity.
  Qed.
  Lemma split_at : forall (l : list A) i, 0 <= i < zlen l -> exists a x b, l = a ++ x :: b /\ zlen a = i.
  Proof.
    intros l i H. destruct (skipn (Z.to_nat i) l) as [|x b] eqn:E.
    - apply (f_equal (@length A)) in E. rewrite skipn_length in E. unfold zlen in H. cbn [length] in E. lia.
    - exists (firstn (Z.to_nat i) l), x, b. split; [rewrite <- E; symmetry; apply firstn_skipn|].
      unfold zlen in *. rewrite firstn_length. lia.
  Qed.
  (** popping the positions from the last to the first and inserting them from the first to the last *)
  Lemma pops_app : forall is1 is2 (l : list A), py_pops l (is1 ++ is2) =
    bind (py_pops l is1) (fun x => bind (py_pops (snd x) is2) (fun y => Ok (fst x ++ fst y, snd y))).
  Proof.
    induction is1 as [|i is1 IH]; intros is2 l; cbn [app py_pops bind fst snd].
    - destruct (py_pops l is2) as [[]|]; reflexivity.
    - destruct (py_pop l i) as [x|e]; cbn [bind]; auto. rewrite IH. destruct (py_pops (snd x) is1) as [y|e]; cbn [bind fst snd]; auto.
      destruct (py_pops (snd y) is2) as [z|e]; cbn [bind fst snd app]; auto.
  Qed.
  Lemma elsewhere_ge : forall (l : list A) k idx, (forall i, In i idx -> i < k) -> elsewhere_from k idx l = l.
  Proof.
    induction l as [|x l IH]; intros k idx H; cbn [elsewhere_from]; auto.
    destruct (existsb (Z.eqb k) idx) eqn:E.
    - apply existsb_exists in E. destruct E as (i & Hi & Ei). apply Z.eqb_eq in Ei. specialize (H i Hi). lia.
    - f_equal. apply IH. intros i Hi. specialize (H i Hi). lia.
  Qed.
  Lemma elsewhere_app : forall (a b : list A) k idx, elsewhere_from k idx (a ++ b) = elsewhere_from k idx a ++ elsewhere_from (k + zlen a) idx b.
  Proof.
    induction a as [|x a IH]; intros b k idx; cbn [app elsewhere_from].
    - f_equal. unfold zlen. cbn [length]. lia.
    - assert (E : k + zlen (x :: a) = k + 1 + zlen a) by (unfold zlen; cbn [length]; lia). rewrite E, IH.
      destruct (existsb _ _); reflexivity.
  Qed.
  Lemma elsewhere_last : forall (l : list A) k idx i, k + zlen l <= i -> elsewhere_from k (idx ++ [i]) l = elsewhere_from k idx l.
  Proof.
    induction l as [|x l IH]; intros k idx i H; cbn [elsewhere_from]; auto.
    assert (L : k + 1 + zlen l <= i) by (unfold zlen in *; cbn [length] in H; lia).
    rewrite existsb_app. cbn [existsb]. assert (E : (k =? i) = false) by (apply Z.eqb_neq; pose proof (zlen_nonneg l); lia).
    rewrite E, orb_false_r, (IH (k + 1) idx i L). reflexivity.
  Qed.
  Lemma at_app : forall idx i (l : list A), at_positions (idx ++ [i]) l = at_positions idx l ++ firstn 1 (skipn (Z.to_nat i) l).
  Proof. intros. unfold at_positions. rewrite map_app, concat_app. cbn [map concat]. rewrite app_nil_r. reflexivity. Qed.
  Lemma at_prefix : forall idx (a b : list A), (forall i, In i idx -> 0 <= i < zlen a) -> at_positions idx (a ++ b) = at_positions idx a.
  Proof.
    intros idx a b H. unfold at_positions. f_equal. apply map_ext_in. intros i Hi. specialize (H i Hi). unfold zlen in H.
    rewrite skipn_app. destruct (skipn (Z.to_nat i) a) as [|x s] eqn:E; [|reflexivity].
    apply (f_equal (@length A)) in E. rewrite skipn_length in E. cbn [length] in E. lia.
  Qed.

  Lemma sorted_last : forall idx (i : Z), StronglySorted Z.lt (idx ++ [i]) -> StronglySorted Z.lt idx /\ forall j, In j idx -> j < i.
  Proof.
    induction idx as [|j idx IH]; intros i H; cbn [app] in *; [split; [constructor|easy]|].
    inversion H as [|? ? H1 H2]; subst. destruct (IH i H1) as [S1 S2]. split.
    - constructor; auto. rewrite Forall_forall in *. intros k Hk. apply H2. apply in_or_app; auto.
    - intros k [<-|Hk]; auto. rewrite Forall_forall in H2. apply H2. apply in_or_app. right. left. reflexivity.
  Qed.
  Lemma pops_sorted : forall idx (l : list A), StronglySorted Z.lt idx -> (forall i, In i idx -> 0 <= i < zlen l) ->
    py_pops l (rev idx) = Ok (rev (at_positions idx l), elsewhere idx l) /\
    py_inserts (at_positions idx l) idx (elsewhere idx l) = l /\ length (at_positions idx l) = length idx.
  Proof.
    induction idx as [|i idx IH] using rev_ind; intros l Hs Hr.
    - cbn [rev py_pops]. unfold elsewhere. rewrite elsewhere_ge by easy. repeat split.
    - destruct (sorted_last _ _ Hs) as [Hs1 Hlt]. destruct (split_at l i) as (a & x & b & El & Ea).
      { apply Hr. apply in_or_app. right. left. reflexivity. }
      assert (Ha : forall j, In j idx -> 0 <= j < zlen a).
      { intros j Hj. split; [apply Hr; apply in_or_app; auto|]. rewrite Ea. auto. }
      assert (Nx : firstn 1 (skipn (Z.to_nat i) l) = [x]).
      { rewrite El, <- Ea. unfold zlen. rewrite Nat2Z.id, skipn_app, skipn_all, Nat.sub_diag. reflexivity. }
      destruct (IH (a ++ b) Hs1) as (I1 & I2 & I3).
      { intros j Hj. specialize (Ha j Hj). rewrite zlen_app. pose proof (zlen_nonneg b). lia. }
      assert (Eat : at_positions (idx ++ [i]) l = at_positions idx (a ++ b) ++ [x]).
      { rewrite at_app, Nx. f_equal. rewrite El. rewrite !at_prefix by auto. reflexivity. }
      assert (Eel : elsewhere (idx ++ [i]) l = elsewhere idx (a ++ b)).
      { unfold elsewhere. rewrite El, !elsewhere_app. rewrite elsewhere_last by lia. f_equal. cbn [elsewhere_from].
        rewrite existsb_app. cbn [existsb]. rewrite Z.add_0_l, Ea, Z.eqb_refl. cbn [orb]. rewrite orb_true_r.
        rewrite !elsewhere_ge; auto.
        intros j Hj. apply in_app_or in Hj. destruct Hj as [Hj|[<-|[]]]; [specialize (Hlt j Hj)|]; lia. }
      split; [|split].
      + rewrite rev_app_distr. cbn [rev app]. cbn [py_pops]. rewrite El at 1. rewrite <- Ea at 1. rewrite pop_app. cbn [bind fst snd].
        rewrite I1. cbn [bind fst snd]. rewrite Eat, Eel, rev_app_distr. reflexivity.
      + rewrite Eat, Eel. unfold py_inserts in *. rewrite combine_app by (symmetry; auto). rewrite fold_left_app, I2. cbn [combine fold_left fst snd].
        rewrite El, <- Ea. apply insert_app.
      + rewrite Eat, !app_length, I3. reflexivity.
  Qed.
End Positions.

Lemma one_wrapper {K} {OK : OrdRing K} : forall KW (w : world K) f fn idx inputs (body : KW -> world K -> list nat -> st (world K) (list nat)) kw,
  wrappers_of w f = [(fn, idx)] -> StronglySorted Z.lt idx -> (forall i, In i idx -> 0 <= i < zlen inputs) ->
  call_func w f body kw inputs = with_context w [mkCtx fn (at_positions idx inputs) idx] (fun w =>
    sbind (body kw w (elsewhere idx inputs)) (fun w outputs => (w, Ok (put_in_order (fun i => i) (last (w_stack w) []) outputs)))).
Proof.
  intros KW w f fn idx inputs body kw Hw Hs Hr. unfold call_func. rewrite Hw. cbn [consume bind fst snd].
  destruct (pops_sorted idx inputs Hs Hr) as (P1 & _). rewrite P1. cbn [bind fst snd]. rewrite rev_involutive. reflexivity.
Qed.
Lemma one_wrapper_id {K} {OK : OrdRing K} : forall KW (w : world K) f fn idx inputs (kw : KW),
  wrappers_of w f = [(fn, idx)] -> StronglySorted Z.lt idx -> (forall i, In i idx -> 0 <= i < zlen inputs) ->
  snd (call_func w f (fun _ w l => (w, Ok l)) kw inputs) = Ok inputs.
Proof.
  intros KW w f fn idx inputs kw Hw Hs Hr. erewrite one_wrapper by eauto.
  destruct (pops_sorted idx inputs Hs Hr) as (_ & P2 & _). unfold with_context, enter, sbind. cbn [fst snd w_stack].
  rewrite last_last. unfold put_in_order. cbn [rev app fold_left cx_qubits cx_idx]. rewrite map_id. rewrite P2. reflexivity.
Qed.
