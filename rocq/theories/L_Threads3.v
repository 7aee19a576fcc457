(** Objects created by several threads: schedules in which ids are given out twice and objects used twice. *)
From Verif Require Import Base M_Kron M_Ops M_Feed M_Graph M_Threads S_Threads L_Threads1 L_Threads2.

Section Bad.
  Context {K : Type} {OK : OrdRing K}.
  Implicit Types h : heap K.
  Fixpoint tsteps (n : nat) h (t : thread K) : option (heap K * thread K) :=
    match n with O => Some (h, t) | S n => match tstep h t with Some (h', t') => tsteps n h' t' | None => None end end.
  Lemma turns_repeat n : forall (s : sys K) i t h' t', nth_error (sy_threads s) i = Some t -> tsteps n (sy_heap s) t = Some (h', t') ->
    turns s (repeat i n) = mkSys h' (upd (sy_threads s) i t').
  Proof.
    induction n as [|n IH]; intros s i t h' t' Et E; cbn [tsteps] in E.
    - inversion E; subst. cbn. rewrite upd_same by auto. destruct s; reflexivity.
    - destruct (tstep (sy_heap s) t) as [[h1 t1]|] eqn:E1; [|discriminate]. unfold turns. cbn [repeat fold_left]. unfold turn at 2. rewrite Et, E1.
      fold (turns (mkSys h1 (upd (sy_threads s) i t1)) (repeat i n)). rewrite (IH (mkSys h1 (upd (sy_threads s) i t1)) i t1 h' t'); cbn [sy_threads sy_heap]; auto; [rewrite upd_upd; reflexivity|].
      rewrite nth_error_upd, Nat.eqb_refl, Et. reflexivity.
  Qed.
  Lemma turns_app (s : sys K) l m : turns s (l ++ m) = turns (turns s l) m.
  Proof. unfold turns. apply fold_left_app. Qed.

  Definition qnode (q : Z) : node K := mkNode KQubit [] 1 q None [].
  Lemma load_qubit (N : list (node K)) Q todo dn : tsteps 3 (mkHeap N Q) (mkThread None ((fun _ => new_qubit) :: todo) dn) = Some (mkHeap N Q, mkThread (Some (new_qubit, PAgain Q Q)) todo dn).
  Proof. reflexivity. Qed.
  Lemma store_qubit (N : list (node K)) Q q x todo dn : tsteps 1 (mkHeap N Q) (mkThread (Some (new_qubit, PAgain q x)) todo dn) = Some (mkHeap N (x + 1), mkThread (Some (new_qubit, PNew q)) todo dn).
  Proof. reflexivity. Qed.
  Lemma enter_qubit (N : list (node K)) Q q todo dn : tsteps 2 (mkHeap N Q) (mkThread (Some (new_qubit, PNew q)) todo dn) = Some (mkHeap (N ++ [qnode q]) Q, mkThread None todo (dn ++ [Ok (length N)])).
  Proof. reflexivity. Qed.
  Lemma whole_qubit (N : list (node K)) Q todo dn : tsteps 6 (mkHeap N Q) (mkThread None ((fun _ => new_qubit) :: todo) dn) = Some (mkHeap (N ++ [qnode Q]) (Q + 1), mkThread None todo (dn ++ [Ok (length N)])).
  Proof. reflexivity. Qed.
  Lemma nd_app2 (N M : list (node K)) Q i : nd (mkHeap (N ++ M) Q) (length N + i)%nat = nd (mkHeap M Q) i.
  Proof. unfold nd. cbn [h_nodes]. rewrite app_nth2 by lia. f_equal. lia. Qed.

  Lemma turns_chunk n (s : sys K) i t h' t' rest : nth_error (sy_threads s) i = Some t -> tsteps n (sy_heap s) t = Some (h', t') ->
    turns s (repeat i n ++ rest) = turns (mkSys h' (upd (sy_threads s) i t')) rest.
  Proof. intros E1 E2. rewrite turns_app, (turns_repeat n s i t h' t' E1 E2). reflexivity. Qed.
  Ltac run_chunk H := erewrite turns_chunk; [|reflexivity|exact H]; cbn [upd sy_threads sy_heap].
  Ltac run_part H := erewrite turns_repeat; [|reflexivity|exact H]; cbn [upd sy_threads sy_heap].
  Lemma same_ids h : exists sched, let e := turns (mkSys h [makes [new_qubit]; makes [new_qubit]]) sched in
    idle e /\ exists a b, a <> b /\ map th_done (sy_threads e) = [[Ok a]; [Ok b]] /\ nd_qid (nd (sy_heap e) a) = nd_qid (nd (sy_heap e) b).
  Proof.
    destruct h as [N Q].
    exists (repeat 0%nat 3 ++ repeat 1%nat 3 ++ repeat 0%nat 1 ++ repeat 1%nat 1 ++ repeat 0%nat 2 ++ repeat 1%nat 2).
    assert (E : turns (mkSys (mkHeap N Q) [makes [new_qubit]; makes [new_qubit]]) (repeat 0%nat 3 ++ repeat 1%nat 3 ++ repeat 0%nat 1 ++ repeat 1%nat 1 ++ repeat 0%nat 2 ++ repeat 1%nat 2) =
      mkSys (mkHeap ((N ++ [qnode Q]) ++ [qnode Q]) (Q + 1)) [mkThread None [] [Ok (length N)]; mkThread None [] [Ok (length (N ++ [qnode Q]))]]).
    { run_chunk (load_qubit N Q [] []). run_chunk (load_qubit N Q [] []). run_chunk (store_qubit N Q Q Q [] []).
      run_chunk (store_qubit N (Q + 1) Q Q [] []). run_chunk (enter_qubit N (Q + 1) Q [] []). run_part (enter_qubit (N ++ [qnode Q]) (Q + 1) Q [] []). reflexivity. }
    cbv zeta. rewrite E. split; [intros t [<-|[<-|[]]]; reflexivity|].
    exists (length N), (length (N ++ [qnode Q])). split; [rewrite app_length; cbn; lia|]. split; [reflexivity|]. cbn [sy_heap]. rewrite <- app_assoc. cbn [app].
    rewrite app_length. cbn [length]. rewrite nd_app2. rewrite <- (Nat.add_0_r (length N)) at 1. rewrite nd_app2. reflexivity.
  Qed.
  Lemma own_ids h : exists sched, let e := turns (mkSys h [makes [new_qubit; new_qubit; new_qubit]; makes [new_qubit]]) sched in
    idle e /\ exists a b c d, b <> c /\ map th_done (sy_threads e) = [[Ok a; Ok b; Ok c]; [Ok d]] /\ nd_qid (nd (sy_heap e) b) = nd_qid (nd (sy_heap e) c).
  Proof.
    destruct h as [N Q].
    exists (repeat 1%nat 3 ++ repeat 0%nat 6 ++ repeat 0%nat 6 ++ repeat 1%nat 1 ++ repeat 0%nat 6 ++ repeat 1%nat 2).
    assert (E : turns (mkSys (mkHeap N Q) [makes [new_qubit; new_qubit; new_qubit]; makes [new_qubit]]) (repeat 1%nat 3 ++ repeat 0%nat 6 ++ repeat 0%nat 6 ++ repeat 1%nat 1 ++ repeat 0%nat 6 ++ repeat 1%nat 2) =
      mkSys (mkHeap (N ++ [qnode Q; qnode (Q + 1); qnode (Q + 1); qnode Q]) (Q + 1 + 1)) [mkThread None [] [Ok (length N); Ok (length N + 1)%nat; Ok (length N + 2)%nat]; mkThread None [] [Ok (length N + 3)%nat]]).
    { run_chunk (load_qubit N Q [] []). run_chunk (whole_qubit N Q [fun _ => new_qubit; fun _ => new_qubit] []). run_chunk (whole_qubit (N ++ [qnode Q]) (Q + 1) [fun _ => new_qubit] ([] ++ [Ok (length N)])). run_chunk (store_qubit ((N ++ [qnode Q]) ++ [qnode (Q + 1)]) (Q + 1 + 1) Q Q [] []). run_chunk (whole_qubit ((N ++ [qnode Q]) ++ [qnode (Q + 1)]) (Q + 1) [] (([] ++ [Ok (length N)]) ++ [Ok (length (N ++ [qnode Q]))])).
      run_part (enter_qubit (((N ++ [qnode Q]) ++ [qnode (Q + 1)]) ++ [qnode (Q + 1)]) (Q + 1 + 1) Q [] []).
      rewrite <- !app_assoc. cbn [app]. rewrite !app_length. reflexivity. }
    cbv zeta. rewrite E. split; [intros t [<-|[<-|[]]]; reflexivity|].
    exists (length N), (length N + 1)%nat, (length N + 2)%nat, (length N + 3)%nat. split; [lia|]. split; [reflexivity|]. cbn [sy_heap]. rewrite !nd_app2. reflexivity.
  Qed.

  (** Qubit(q) *)
  Variable q : nat.
  Definition inode (n i : Z) : node K := mkNode KQubit [q] n i None [].
  Lemma sum_one h : sum_n h [q] = nd_n (nd h q).
  Proof. reflexivity. Qed.
  Lemma tsteps_add n : forall m h t h1 t1, tsteps n h t = Some (h1, t1) -> tsteps (n + m) h t = tsteps m h1 t1.
  Proof.
    induction n as [|n IH]; intros m h t h1 t1 E; cbn [tsteps Nat.add] in *; [inversion E; reflexivity|]. destruct (tstep h t) as [[h2 t2]|]; [|discriminate]. eauto.
  Qed.
  Lemma load_identity h todo dn : 0 < nd_n (nd h q) ->
    tsteps 4 h (mkThread None ((fun _ => new_identity q) :: todo) dn) = Some (mkHeap (h_nodes h) (h_qid h + 1), mkThread (Some (new_identity q, PNew (h_qid h))) todo dn).
  Proof.
    intros Hn. cbn [tsteps tstep th_now th_todo th_done]. assert (En : ctor_n h (new_identity q) = nd_n (nd h q)) by reflexivity. rewrite En.
    replace (nd_n (nd h q) <=? 0) with false by (symmetry; apply Z.leb_gt; lia). reflexivity.
  Qed.
  Lemma enter_identity h Q i todo dn : tsteps 1 (mkHeap (h_nodes h) Q) (mkThread (Some (new_identity q, PNew i)) todo dn) =
    Some (mkHeap (h_nodes h ++ [inode (nd_n (nd h q)) i]) Q, mkThread (Some (new_identity q, PCheck (size h) [q])) todo dn).
  Proof. reflexivity. Qed.
  Lemma check_identity h self c todo dn : nd_sink (nd h q) = [] ->
    tsteps 1 h (mkThread (Some (c, PCheck self [q])) todo dn) = Some (h, mkThread (Some (c, PAppend self q [])) todo dn).
  Proof. intros Hs. cbn [tsteps tstep th_now]. rewrite Hs. destruct (is_qubit _); reflexivity. Qed.
  Lemma begin_identity h todo dn : (q < size h)%nat -> 0 < nd_n (nd h q) -> nd_sink (nd h q) = [] ->
    tsteps 6 h (mkThread None ((fun _ => new_identity q) :: todo) dn) =
    Some (mkHeap (h_nodes h ++ [inode (nd_n (nd h q)) (h_qid h)]) (h_qid h + 1), mkThread (Some (new_identity q, PAppend (size h) q [])) todo dn).
  Proof.
    intros Hq Hn Hs. change 6%nat with (4 + 2)%nat. rewrite (tsteps_add 4 2 _ _ _ _ (load_identity h todo dn Hn)). change 2%nat with (1 + 1)%nat. rewrite (tsteps_add 1 1 _ _ _ _ (enter_identity h _ _ todo dn)).
    apply check_identity. rewrite <- Hs. unfold nd. cbn [h_nodes]. rewrite app_nth1 by exact Hq. reflexivity.
  Qed.
  Lemma end_identity h self todo dn : tsteps 2 h (mkThread (Some (new_identity q, PAppend self q [])) todo dn) = Some (add_sink h q self, mkThread None todo (dn ++ [Ok self])).
  Proof. reflexivity. Qed.
  Lemma cloned h : (q < size h)%nat -> 0 < nd_n (nd h q) -> nd_sink (nd h q) = [] ->
    exists sched, let e := turns (mkSys h [makes [new_identity q]; makes [new_identity q]]) sched in
    idle e /\ exists a b, a <> b /\ map th_done (sy_threads e) = [[Ok a]; [Ok b]] /\ nd_sink (nd (sy_heap e) q) = [a; b] /\ nd_qid (nd (sy_heap e) a) <> nd_qid (nd (sy_heap e) b).
  Proof.
    intros Hq Hn Hs. set (n := nd_n (nd h q)). set (Q := h_qid h).
    set (h1 := mkHeap (h_nodes h ++ [inode n Q]) (Q + 1)). set (h2 := mkHeap (h_nodes h1 ++ [inode n (Q + 1)]) (Q + 1 + 1)).
    assert (E1q : nd h1 q = nd h q) by (unfold nd, h1; cbn [h_nodes]; rewrite app_nth1 by exact Hq; reflexivity).
    assert (S1 : size h1 = S (size h)) by (unfold h1, size; cbn; rewrite app_length; cbn; lia).
    assert (E2q : nd h2 q = nd h q) by (rewrite <- E1q; unfold nd, h2; cbn [h_nodes]; rewrite app_nth1 by (change (q < size h1)%nat; lia); reflexivity).
    assert (S2 : size h2 = S (size h1)) by (unfold h2, size; cbn; rewrite !app_length; cbn; lia).
    set (h3 := add_sink h2 q (size h)). set (h4 := add_sink h3 q (size h1)).
    exists (repeat 0%nat 6 ++ repeat 1%nat 6 ++ repeat 0%nat 2 ++ repeat 1%nat 2).
    assert (E : turns (mkSys h [makes [new_identity q]; makes [new_identity q]]) (repeat 0%nat 6 ++ repeat 1%nat 6 ++ repeat 0%nat 2 ++ repeat 1%nat 2) =
      mkSys h4 [mkThread None [] [Ok (size h)]; mkThread None [] [Ok (size h1)]]).
    { run_chunk (begin_identity h [] [] Hq Hn Hs). fold n Q. fold h1. 
      assert (B1 := begin_identity h1 [] []). rewrite E1q in B1. fold n in B1. change (h_qid h1) with (Q + 1) in B1. fold h2 in B1.
      run_chunk (B1 ltac:(lia) Hn Hs). run_chunk (end_identity h2 (size h) [] []). run_part (end_identity h3 (size h1) [] []). reflexivity. }
    cbv zeta. rewrite E. split; [intros t [<-|[<-|[]]]; reflexivity|]. exists (size h), (size h1). split; [lia|]. split; [reflexivity|]. cbn [sy_heap].
    split.
    - unfold h4. rewrite nd_add_sink by (unfold h3; rewrite add_sink_size; lia). unfold h3. rewrite nd_add_sink by lia. rewrite E2q, Hs. reflexivity.
    - unfold h4, h3. rewrite !add_sink_nodes.
      assert (Ea : nd h2 (size h) = inode n Q) by (unfold nd, h2, h1, size; cbn [h_nodes]; rewrite <- app_assoc, app_nth2, Nat.sub_diag by lia; reflexivity).
      assert (Eb : nd h2 (size h1) = inode n (Q + 1)) by (unfold nd, h2, size; cbn [h_nodes]; rewrite app_nth2, Nat.sub_diag by lia; reflexivity).
      rewrite Ea, Eb. cbn. lia.
  Qed.

  (** in turn, the second one raises *)
  Lemma first_identity h : (q < size h)%nat -> 0 < nd_n (nd h q) -> nd_sink (nd h q) = [] ->
    new_node h KQubit [q] None None false None = (add_sink (mkHeap (h_nodes h ++ [inode (nd_n (nd h q)) (h_qid h)]) (h_qid h + 1)) q (size h), Ok (size h)).
  Proof.
    intros Hq Hn Hs. unfold new_node. rewrite sum_one. replace (nd_n (nd h q) <=? 0) with false by (symmetry; apply Z.leb_gt; lia).
    cbn [sfold sbind]. unfold set_sink.
    assert (Eq : nd (mkHeap (h_nodes h ++ [mkNode KQubit [q] (nd_n (nd h q)) (h_qid h) None []]) (h_qid h + 1)) q = nd h q) by (unfold nd; cbn [h_nodes]; rewrite app_nth1 by exact Hq; reflexivity).
    rewrite Eq, Hs. destruct (is_qubit _); reflexivity.
  Qed.
  Lemma second_identity h s0 l : (q < size h)%nat -> 0 < nd_n (nd h q) -> nd_sink (nd h q) = s0 :: l -> (s0 < size h)%nat -> nd_qid (nd h s0) <> h_qid h ->
    exists h', new_node h KQubit [q] None None false None = (h', Raise GenericException).
  Proof.
    intros Hq Hn Hs H0 Hd. unfold new_node. rewrite sum_one. replace (nd_n (nd h q) <=? 0) with false by (symmetry; apply Z.leb_gt; lia).
    cbn [sfold sbind]. unfold set_sink. set (h1 := mkHeap _ _).
    assert (Eq : nd h1 q = nd h q) by (unfold nd, h1; cbn [h_nodes]; rewrite app_nth1 by exact Hq; reflexivity).
    assert (E0 : nd h1 s0 = nd h s0) by (unfold nd, h1; cbn [h_nodes]; rewrite app_nth1 by exact H0; reflexivity).
    assert (Es : nd h1 (size h) = inode (nd_n (nd h q)) (h_qid h)) by (unfold nd at 1, h1, size; cbn [h_nodes]; rewrite app_nth2, Nat.sub_diag by lia; reflexivity).
    rewrite Es, Eq, Hs, E0. cbn [inode nd_kind is_qubit nd_qid]. apply Z.eqb_neq in Hd. rewrite Hd. eexists. reflexivity.
  Qed.
  Lemma done_skip (s : sys K) i t : nth_error (sy_threads s) i = Some t -> th_todo t = [] -> constructs s i = s.
  Proof. intros E Ht. unfold constructs. rewrite E. destruct t as [[x|] td dn]; auto. cbn in Ht. subst td. reflexivity. Qed.
  Lemma in_turn_end h l who : (forall t, In t l -> th_todo t = []) -> in_turn (mkSys h l) who = mkSys h l.
  Proof.
    intros H. induction who as [|i who IH]; auto. unfold in_turn in *. cbn [fold_left].
    assert (E : constructs (mkSys h l) i = mkSys h l). { destruct (nth_error l i) as [t|] eqn:E; [apply (done_skip (mkSys h l) i t); auto; apply H; eapply nth_error_In; eauto|]. unfold constructs. cbn. rewrite E. reflexivity. }
    rewrite E. exact IH.
  Qed.
  Lemma not_cloned h who a b : (q < size h)%nat -> 0 < nd_n (nd h q) -> nd_sink (nd h q) = [] ->
    map th_done (sy_threads (in_turn (mkSys h [makes [new_identity q]; makes [new_identity q]]) who)) <> [[Ok a]; [Ok b]].
  Proof.
    intros Hq Hn Hs. set (T := makes [new_identity q]). set (n := nd_n (nd h q)).
    set (h1 := mkHeap (h_nodes h ++ [inode n (h_qid h)]) (h_qid h + 1)). set (h2 := add_sink h1 q (size h)).
    pose proof (first_identity h Hq Hn Hs) as F. fold n in F. fold h1 in F. fold h2 in F.
    assert (E1q : nd h1 q = nd h q) by (unfold nd, h1; cbn [h_nodes]; rewrite app_nth1 by exact Hq; reflexivity).
    assert (S1 : size h1 = S (size h)) by (unfold h1, size; cbn; rewrite app_length; cbn; lia).
    assert (S2 : size h2 = S (size h)) by (unfold h2; rewrite add_sink_size; auto).
    destruct (second_identity h2 (size h) []) as (h3 & E3).
    { lia. } { destruct (grows_sink h1 q (size h)) as [_ G]. destruct (G q ltac:(lia)) as ((_ & _ & Gn & _) & _). fold h2 in Gn. rewrite Gn, E1q. exact Hn. }
    { unfold h2. rewrite nd_add_sink by lia. rewrite E1q, Hs. reflexivity. } { lia. }
    { unfold h2. rewrite add_sink_nodes. replace (nd h1 (size h)) with (inode n (h_qid h)) by (unfold nd, h1, size; cbn [h_nodes]; rewrite app_nth2, Nat.sub_diag by lia; reflexivity). cbn. lia. }
    set (D := mkThread (K := K) None [] [Ok (size h)]). set (X := mkThread (K := K) None [] [Raise GenericException]).
    assert (Z : forall hh l, (forall t, In t l -> th_todo t = []) -> forall who, in_turn (mkSys hh l) who = mkSys hh l) by (intros hh l Hl w; apply (in_turn_end hh l w Hl)).
    assert (A0 : forall who, map th_done (sy_threads (in_turn (mkSys h2 [D; T]) who)) <> [[Ok a]; [Ok b]]).
    { induction who0 as [|i w IH]; [discriminate|]. unfold in_turn in *. cbn [fold_left]. destruct i as [|[|i]].
      - rewrite (done_skip (mkSys h2 [D; T]) 0 D) by reflexivity. exact IH.
      - unfold constructs at 2. cbn [nth_error sy_threads T makes map ct_kind ct_inputs ct_n ct_qid ct_default new_identity sy_heap]. rewrite E3. cbn [upd app].
        fold (in_turn (mkSys h3 [D; X]) w). rewrite Z by (intros t [<-|[<-|[]]]; reflexivity). discriminate.
      - assert (E : constructs (mkSys h2 [D; T]) (S (S i)) = mkSys h2 [D; T]) by (unfold constructs; cbn; destruct i; reflexivity). rewrite E. exact IH. }
    assert (A1 : forall who, map th_done (sy_threads (in_turn (mkSys h2 [T; D]) who)) <> [[Ok a]; [Ok b]]).
    { induction who0 as [|i w IH]; [discriminate|]. unfold in_turn in *. cbn [fold_left]. destruct i as [|[|i]].
      - unfold constructs at 2. cbn [nth_error sy_threads T makes map ct_kind ct_inputs ct_n ct_qid ct_default new_identity sy_heap]. rewrite E3. cbn [upd app].
        fold (in_turn (mkSys h3 [X; D]) w). rewrite Z by (intros t [<-|[<-|[]]]; reflexivity). discriminate.
      - rewrite (done_skip (mkSys h2 [T; D]) 1 D) by reflexivity. exact IH.
      - assert (E : constructs (mkSys h2 [T; D]) (S (S i)) = mkSys h2 [T; D]) by (unfold constructs; cbn; destruct i; reflexivity). rewrite E. exact IH. }
    induction who as [|i w IH]; [discriminate|]. unfold in_turn in *. cbn [fold_left]. destruct i as [|[|i]].
    - unfold constructs at 2. cbn [nth_error sy_threads T makes map ct_kind ct_inputs ct_n ct_qid ct_default new_identity sy_heap]. rewrite F. cbn [upd app]. apply A0.
    - unfold constructs at 2. cbn [nth_error sy_threads T makes map ct_kind ct_inputs ct_n ct_qid ct_default new_identity sy_heap]. rewrite F. cbn [upd app]. apply A1.
    - assert (E : constructs (mkSys h [T; T]) (S (S i)) = mkSys h [T; T]) by (unfold constructs; cbn; destruct i; reflexivity). rewrite E. exact IH.
  Qed.
End Bad.
