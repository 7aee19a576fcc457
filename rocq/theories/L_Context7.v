(** Contexts with single qubits at any position. *)
From Coq Require Import Sorted.
From Verif Require Import Base S_Bits M_Kron M_Ops S_Ops L_Alg M_Feed M_Func M_Measure M_Graph S_Graph L_Graph1 L_Graph2 L_Graph3 L_Graph9
  M_Context S_Context L_Sinks L_Context1 L_Context2 L_Context6.

Section Weave.
  Context {K : Type} {OK : OrdRing K}.
  Notation C := (Cx K).
  Implicit Types h : heap K.

  (** ** inputs and sizes are never changed *)
  Definition keeps h h' : Prop := (size h <= size h')%nat /\ forall i, (i < size h)%nat -> inputs_of h' i = inputs_of h i /\ width h' i = width h i /\ nd_kind (nd h' i) = nd_kind (nd h i).
  Lemma keeps_refl h : keeps h h.
  Proof. split; auto. Qed.
  Lemma keeps_trans h1 h2 h3 : keeps h1 h2 -> keeps h2 h3 -> keeps h1 h3.
  Proof.
    intros [A B] [A' B']. split; [lia|]. intros i Hi. destruct (B i Hi) as (E1 & E2 & E5). destruct (B' i ltac:(lia)) as (E3 & E4 & E6). repeat split; congruence.
  Qed.
  Lemma add_sink_keeps h i s : size (add_sink h i s) = size h /\ forall j, inputs_of (add_sink h i s) j = inputs_of h j /\ width (add_sink h i s) j = width h j /\ nd_kind (nd (add_sink h i s) j) = nd_kind (nd h j).
  Proof.
    split; [apply size_add_sink|]. intros j. unfold inputs_of, width, add_sink, nd. cbn [h_nodes]. rewrite !nth_upd.
    destruct (Nat.eqb i j && Nat.ltb i (length (h_nodes h)))%bool eqn:E; auto. apply andb_true_iff in E. destruct E as [E _].
    apply Nat.eqb_eq in E. subst j. auto.
  Qed.
  Lemma set_sink_keeps h i s h' r : set_sink h i s = (h', r) -> size h' = size h /\ forall j, inputs_of h' j = inputs_of h j /\ width h' j = width h j /\ nd_kind (nd h' j) = nd_kind (nd h j).
  Proof.
    unfold set_sink. intros E. destruct (is_qubit _).
    - destruct (nd_sink (nd h i)) as [|s0 ss]; [inversion E; apply add_sink_keeps|].
      destruct (nd_qid (nd h s0) =? nd_qid (nd h s)); inversion E; subst; auto. apply add_sink_keeps.
    - inversion E. apply add_sink_keeps.
  Qed.
  Lemma sinks_keeps self : forall l h h' r, sfold (fun h item => set_sink h item self) l h = (h', r) ->
    size h' = size h /\ forall j, inputs_of h' j = inputs_of h j /\ width h' j = width h j /\ nd_kind (nd h' j) = nd_kind (nd h j).
  Proof.
    induction l as [|i l IH]; intros h h' r E; cbn [sfold] in E; [inversion E; auto|].
    destruct (set_sink h i self) as [h1 [u|e]] eqn:E1; cbn [sbind] in E; apply set_sink_keeps in E1; destruct E1 as [A B].
    - apply IH in E. destruct E as [A' B']. split; [congruence|]. intros j. destruct (B j) as (? & ? & ?), (B' j) as (? & ? & ?). repeat split; congruence.
    - inversion E; subst. auto.
  Qed.
  Lemma nd_snoc h x q i : nd (mkHeap (h_nodes h ++ [x]) q) i = if Nat.eqb i (size h) then x else if Nat.ltb i (size h) then nd h i else nd h i.
  Proof.
    unfold nd, size. cbn [h_nodes]. destruct (Nat.eqb_spec i (length (h_nodes h))) as [->|Hn]; [apply nth_middle|].
    destruct (Nat.ltb_spec i (length (h_nodes h))); [apply app_nth1; auto|]. rewrite !nth_overflow; [auto|lia|rewrite app_length; cbn; lia].
  Qed.
  Lemma new_node_core h k inputs n qid nosink d h' self : new_node h k inputs n qid nosink d = (h', Ok self) ->
    self = size h /\ size h' = S (size h) /\ keeps h h' /\ inputs_of h' self = inputs /\ nd_kind (nd h' self) = k /\
    width h' self = (match n with Some n => n | None => match inputs with [] => 1 | _ => sum_n h inputs end end).
  Proof.
    unfold new_node. intros E.
    set (n' := match n with Some n => n | None => match inputs with [] => 1 | _ => sum_n h inputs end end) in *.
    destruct (match d with Some (DList _) => _ | _ => _ end); [discriminate|]. destruct (n' <=? 0); [discriminate|].
    assert (G : forall q1 q2 h1, h1 = mkHeap (h_nodes h ++ [mkNode k inputs n' q1 d []]) q2 ->
      size h1 = S (size h) /\ keeps h h1 /\ inputs_of h1 (size h) = inputs /\ nd_kind (nd h1 (size h)) = k /\ width h1 (size h) = n').
    { intros q1 q2 h1 ->. rewrite size_snoc. split; auto. split; [|unfold inputs_of, width; rewrite !nd_snoc, Nat.eqb_refl; auto].
      split; [rewrite size_snoc; unfold size; lia|]. intros i Hi. unfold inputs_of, width. rewrite !nd_snoc.
      destruct (Nat.eqb_spec i (size h)); [lia|]. destruct (Nat.ltb_spec i (size h)); auto. }
    destruct qid as [q|]; cbv beta iota zeta in E.
    all: match type of E with context [mkHeap (_ ++ [mkNode _ _ _ ?a _ _]) ?b] => destruct (G a b _ eq_refl) as (G1 & G2 & G3 & G5 & G4) end.
    all: destruct nosink; [inversion E; subst; auto 10|].
    all: destruct (sfold _ _ _) as [h1 [u|e]] eqn:Es; cbn [sbind] in E; inversion E; subst; apply sinks_keeps in Es; destruct Es as [S1 S2].
    all: split; [reflexivity|]; split; [congruence|]; destruct (S2 (size h)) as (-> & -> & ->); split; [|auto].
    all: destruct G2 as [G2 G2']; split; [lia|]; intros i Hi; destruct (S2 i) as (-> & -> & ->); auto.
  Qed.

  Lemma sum_n_keeps h h' l : keeps h h' -> (forall i, In i l -> (i < size h)%nat) -> sum_n h' l = sum_n h l.
  Proof.
    intros [_ X] Hl. unfold sum_n. generalize 0. induction l as [|a l IH]; intros z; cbn [fold_left]; auto.
    destruct (X a (Hl a (or_introl eq_refl))) as (_ & E & _). unfold width in E. rewrite E. apply IH. intros; apply Hl; right; auto.
  Qed.
  Lemma build_core cn c : forall h l given h' q, build cn h c (map AQ l) given = (h', Ok q) -> l <> [] -> (forall i, In i l -> (i < size h)%nat) ->
    (size h <= q < size h')%nat /\ keeps h h' /\ inputs_of h' q = l /\ width h' q = sum_n h l.
  Proof.
    assert (M : forall o dagger nosink h l h' q, new_node h (KMat o dagger) l None None nosink None = (h', Ok q) -> l <> [] ->
      (size h <= q < size h')%nat /\ keeps h h' /\ inputs_of h' q = l /\ width h' q = sum_n h l).
    { intros o dagger nosink h l h' q E Hl. apply new_node_core in E. destruct E as (-> & -> & A & B & _ & D). split; [lia|]. split; auto. split; auto.
      destruct l; [congruence|auto]. }
    assert (G : forall h g l nosink dagger h' q, (forall g' b, g <> GC g' b) -> new_gate h g l None nosink dagger = (h', Ok q) -> l <> [] ->
      (size h <= q < size h')%nat /\ keeps h h' /\ inputs_of h' q = l /\ width h' q = sum_n h l).
    { intros h g l nosink dagger h' q Hg E Hl. destruct g; cbn [new_gate] in E; try (eapply M; eauto; fail).
      - destruct (new_node _ _ _ _ _ _ _) as [h1 [s|e]] eqn:E1; cbn [sbind] in E; [|discriminate].
        assert (E' : (h1, Ok s) = (h', Ok q)).
        { destruct l as [|a [|b [|c0 l]]]; try discriminate. destruct (_ =? _); [auto|discriminate]. }
        inversion E'; subst. eapply M; eauto.
      - exfalso. eapply Hg; eauto. }
    induction c as [b kw|c IH kw|m]; intros h l given h' q E Hl Hin.
    - destruct b; cbn [build construct] in E; try (rewrite as_qubits_map in E; eapply G; [|exact E|]; [discriminate|auto]; fail).
      all: destruct l as [|a l]; [congruence|]; cbn [map] in E.
      + destruct (match as_qubits (map AQ l) with Some _ => _ | None => _ end) as [h1 [x|e]]; cbn [sbind] in E; discriminate.
      + discriminate.
      + destruct l as [|b [|? ?]]; discriminate.
    - cbn [build] in E. destruct (zlen (map AQ l) <? 2); [discriminate|]. destruct l as [|a l]; [discriminate|]. cbn [map] in E.
      destruct (negb _); [discriminate|]. destruct (repeated_args _); [discriminate|].
      destruct (build cn h c (map AQ l) _) as [h1 [inner|e]] eqn:E1; cbn [sbind] in E; [|discriminate].
      destruct (nd_kind (nd h1 inner)) as [| |o b| | |] eqn:Ek; try discriminate.
      change (AQ a :: map AQ l) with (map AQ (a :: l) : list (arg K)) in E. rewrite as_qubits_map in E.
      assert (Hll : l = [] \/ l <> []) by (destruct l; [left|right]; congruence).
      assert (X : keeps h h1).
      { destruct Hll as [->|Hll]; [|eapply IH; eauto; intros; apply Hin; right; auto]. clear - E1 OK. cbn [map] in E1. revert E1. generalize (kw_update (call_kwargs kw given) {| kw_dagger := None; kw_negate := None; kw_nosink := Some true |}).
        clear. intros g E. destruct c as [b kw|c kw|m]; cbn [build construct as_qubits] in E.
        - destruct b; cbn [construct as_qubits new_gate] in E; try discriminate; try (apply new_node_core in E; tauto).
          destruct (new_node _ _ _ _ _ _ _) as [h2 [s|e]] eqn:E1; cbn [sbind] in E; discriminate.
        - discriminate.
        - cbn [new_gate] in E. apply new_node_core in E; tauto. }
      apply new_node_core in E. destruct E as (-> & -> & A & B & _ & D). destruct X as [X1 X2]. split; [lia|]. split; [eapply keeps_trans; [split; eauto|eauto]|].
      split; auto. cbn iota in D. rewrite D. apply sum_n_keeps; auto. split; auto.
    - cbn [build construct] in E. rewrite as_qubits_map in E. eapply G; [|exact E|auto]. discriminate.
  Qed.

  (** ** the outputs of split *)
  Lemma split_loop_out self : forall bounds h qid qs h' ids, StronglySorted Z.lt bounds -> split_loop h self bounds qid qs = (h', Ok ids) ->
    keeps h h' /\ exists new, ids = qs ++ new /\ Forall2 (selects h' self) (chunks bounds) new /\ forall i, In i new -> (size h <= i < size h')%nat.
  Proof.
    induction bounds as [|s [|e rest] IH]; intros h qid qs h' ids Hs E; cbn [split_loop] in E.
    - inversion E; subst. split; [apply keeps_refl|]. exists []. rewrite app_nil_r. repeat split; auto; try destruct H. constructor.
    - inversion E; subst. split; [apply keeps_refl|]. exists []. rewrite app_nil_r. repeat split; auto; try destruct H. constructor.
    - inversion Hs as [|? ? Hs' Hf]; subst. assert (s < e) by (inversion Hf; auto).
      unfold new_split in E. destruct (new_node _ _ _ _ _ _ _) as [h1 [sq|x]] eqn:E1; cbn [sbind] in E; [|discriminate].
      apply new_node_core in E1. destruct E1 as (-> & Sz & K1 & I1 & Kd & W1). apply IH in E; auto. destruct E as (K2 & new & -> & HF & Hn).
      split; [eapply keeps_trans; eauto|]. exists (size h :: new). split; [rewrite <- app_assoc; auto|].
      destruct K2 as [K2 K2']. split.
      + change (chunks (s :: e :: rest)) with (zrange s e :: chunks (e :: rest)). constructor; auto.
        destruct (K2' (size h) ltac:(lia)) as (A & B & D). split; [congruence|]. split; congruence.
      + intros i [<-|Hi]; [lia|]. specialize (Hn i Hi). lia.
  Qed.
  Lemma split_core h q l h' ids : inputs_of h q = l -> l <> [] -> (forall i, In i l -> 0 < width h i) -> width h q = sum_n h l ->
    split h q None = (h', Ok ids) -> keeps h h' /\ length ids = length l /\
    ((length l = 1%nat /\ ids = [q]) \/ ((forall i, In i ids -> (size h <= i < size h')%nat) /\
      exists pieces, Forall2 (selects h' q) pieces ids /\ map zlen pieces = map (width h) l /\ concat pieces = zrange 0 (width h q))).
  Proof.
    intros El Hl Hp Hn E. unfold split, split_bounds in E. rewrite sums_fold in E. cbn [app] in E. fold (inputs_of h q) in E. rewrite El in E.
    set (ws := map (width h) l) in *.
    assert (Hpw : forall x, In x ws -> 0 < x) by (intros x Hx; apply in_map_iff in Hx; destruct Hx as (i & <- & Hi); auto).
    assert (GL : forall w k, length (sums k w) = length w) by (induction w; intros; cbn; auto).
    destruct (Z.eqb_spec (zlen (sums 0 ws)) 1) as [H1|H1].
    { inversion E; subst. unfold zlen, ws in H1. rewrite GL, map_length in H1. split; [apply keeps_refl|]. cbn. split; [lia|left]. split; auto; lia. }
    assert (Hws : ws <> []) by (unfold ws; destruct l; [congruence|discriminate]).
    destruct (sums_sorted ws 0 Hpw) as [S1 S2].
    assert (E0 : zmem 0 (sums 0 ws) = false) by (apply zmem_false; intros H; specialize (S2 0 H); lia). rewrite E0 in E.
    assert (Hn' : nd_n (nd h q) = fold_right Z.add 0 ws) by (fold (width h q); rewrite Hn, sum_n_widths, <- sum_fold_right; reflexivity).
    assert (En : zmem (nd_n (nd h q)) (0 :: sums 0 ws) = true).
    { apply zmem_In. right. rewrite Hn'.
      rewrite <- (Z.add_0_l (fold_right Z.add 0 ws)), <- (sums_last ws 0 0 Hws). apply last_In. destruct ws; [congruence|discriminate]. }
    assert (B1 : StronglySorted Z.lt (0 :: sums 0 ws)) by (constructor; auto; apply Forall_forall; auto).
    rewrite En in E. apply split_loop_out in E; auto. destruct E as (K1 & new & -> & HF & Hnew). split; auto. cbn [app].
    pose proof (chunks_sums ws 0 Hpw) as HC. pose proof (Forall2_length _ _ _ HF) as HL.
    split; [apply (f_equal (@length Z)) in HC; unfold ws in HC; rewrite !map_length in HC; unfold ws in HL; lia|].
    right. split; auto. exists (chunks (0 :: sums 0 ws)). split; auto. split; auto.
    destruct (chunks_spec (0 :: sums 0 ws) 0 (nd_n (nd h q)) B1 eq_refl) as (C1 & _); auto; [|discriminate].
    rewrite Hn'. rewrite <- (Z.add_0_l (fold_right Z.add 0 ws)), <- (sums_last ws 0 0 Hws). destruct (sums 0 ws) eqn:Ez; auto.
  Qed.
  (** ** weaving *)
  Lemma put_cons {A} (inj : nat -> A) cx all l : put_in_order inj (cx :: all) l = py_inserts (map inj (cx_qubits cx)) (cx_idx cx) (put_in_order inj all l).
  Proof. unfold put_in_order. cbn [rev]. rewrite fold_left_app. reflexivity. Qed.
  Lemma put_single {A} (inj : nat -> A) args : forall all, single_contexts all (zlen args) ->
    exists L, put_in_order inj all (map inj args) = map inj L /\ woven (combine (context_qubits all) (flat_map cx_idx all)) args L /\
      zlen L = zlen args + zlen all /\ forall i, In i L <-> In i args \/ In i (context_qubits all).
  Proof.
    induction all as [|cx all IH]; cbn [single_contexts].
    - intros _. exists args. change (zlen (@nil ctx)) with 0. repeat split; try lia; auto; [constructor|]. cbn. tauto.
    - intros [(q & k & Eq & Ek & Hk) HS]. destruct (IH HS) as (L & E & W & HL & HI).
      exists (firstn (Z.to_nat k) L ++ q :: skipn (Z.to_nat k) L). rewrite put_cons, E, Eq, Ek. unfold context_qubits in *. cbn [flat_map]. rewrite Eq, Ek. cbn [app combine].
      assert (Hkl : (Z.to_nat k <= length L)%nat) by (unfold zlen in *; lia). split; [|split; [|split]].
      + unfold py_inserts. cbn [map combine fold_left fst snd]. unfold py_insert. rewrite (proj2 (Z.ltb_ge k 0)) by lia.
        rewrite firstn_map, skipn_map, map_app. reflexivity.
      + constructor; [rewrite firstn_skipn; auto|]. unfold zlen. rewrite firstn_length. lia.
      + rewrite zlen_app, !zlen_cons. assert (zlen (firstn (Z.to_nat k) L) + zlen (skipn (Z.to_nat k) L) = zlen L) by (rewrite <- zlen_app, firstn_skipn; auto). lia.
      + intros i. rewrite in_app_iff. cbn [In].
        assert (EI : In i L <-> In i (firstn (Z.to_nat k) L) \/ In i (skipn (Z.to_nat k) L)) by (rewrite <- in_app_iff, firstn_skipn; tauto). rewrite HI in EI. tauto.
  Qed.
  Lemma split_single_ctx m : forall all ids, single_contexts all m -> zlen ids = m + zlen all ->
    exists xs outs, split_context all ids = Ok (xs, outs) /\ length xs = length all /\ zlen outs = m /\ woven (combine xs (flat_map cx_idx all)) outs ids.
  Proof.
    induction all as [|cx all IH]; cbn [single_contexts]; intros ids HS HL.
    - exists [], ids. change (zlen (@nil ctx)) with 0 in HL. repeat split; auto; try lia. constructor.
    - destruct HS as [(q & k & Eq & Ek & Hk) HS]. rewrite zlen_cons in HL. cbn [split_context]. rewrite Ek. cbn [py_pops]. unfold py_pop.
      rewrite (proj2 (Z.ltb_ge k 0)) by lia. rewrite (proj2 (Z.leb_le 0 k)), (proj2 (Z.ltb_lt k (zlen ids))) by lia. cbn [andb].
      destruct (skipn (Z.to_nat k) ids) as [|x b] eqn:Es.
      { exfalso. apply (f_equal (@length nat)) in Es. rewrite skipn_length in Es. unfold zlen in HL, Hk. cbn in Es. lia. }
      assert (Ei : ids = firstn (Z.to_nat k) ids ++ x :: b) by (rewrite <- Es, firstn_skipn; auto).
      set (a := firstn (Z.to_nat k) ids) in *. assert (Ha : zlen a = k) by (unfold a, zlen; rewrite firstn_length; unfold zlen in HL, Hk; lia).
      cbn [bind fst snd]. destruct (IH (a ++ b) HS) as (xs & outs & E & L1 & L2 & W).
      { rewrite Ei in HL. rewrite !zlen_app, zlen_cons in *. lia. }
      rewrite E. cbn [bind fst snd app]. exists (x :: xs), outs. cbn [length]. repeat split; auto.
      rewrite Ei. cbn [flat_map]. rewrite Ek. cbn [app combine]. constructor; auto.
  Qed.

  Lemma set_single : forall stack xs m, single_contexts (concat stack) m -> length xs = length (concat stack) ->
    context_qubits (concat (set_qubits_stack stack xs)) = xs /\
    map (map (fun cx => (cx_fn cx, cx_idx cx))) (set_qubits_stack stack xs) = map (map (fun cx => (cx_fn cx, cx_idx cx))) stack.
  Proof.
    assert (S1 : forall set rest xs m, single_contexts (set ++ rest) m -> length xs = length (set ++ rest) ->
      exists set', set_qubits_set set xs = (set', skipn (length set) xs) /\ context_qubits set' = firstn (length set) xs /\
        map (fun cx => (cx_fn cx, cx_idx cx)) set' = map (fun cx => (cx_fn cx, cx_idx cx)) set /\ single_contexts rest m).
    { induction set as [|cx set IH]; intros rest xs m HS HL; cbn [app single_contexts] in HS; [exists []; auto|].
      destruct HS as [(q & k & Eq & Ek & Hk) HS]. destruct xs as [|x xs]; cbn [app length] in HL; [discriminate|].
      cbn [set_qubits_set]. rewrite Eq. cbn [length skipn firstn]. destruct (IH rest xs m HS ltac:(lia)) as (set' & E & A & B & D). rewrite E.
      eexists. split; [reflexivity|]. unfold context_qubits in *. cbn [flat_map cx_qubits app map cx_fn cx_idx]. rewrite A, B. auto. }
    induction stack as [|set stack IH]; intros xs m HS HL; cbn [concat set_qubits_stack] in *.
    - destruct xs; [auto|discriminate].
    - destruct (S1 set (concat stack) xs m HS HL) as (set' & E & A & B & D). rewrite E. cbn [concat map].
      rewrite app_length in HL. destruct (IH (skipn (length set) xs) m D) as [A' B']; [rewrite skipn_length; lia|].
      rewrite B, B'. split; auto. unfold context_qubits in *. rewrite flat_map_app, A, A'. apply firstn_skipn.
  Qed.
  Lemma single_len all : forall m, single_contexts all m -> length (context_qubits all) = length all.
  Proof.
    induction all as [|cx all IH]; intros m HS; auto. destruct HS as [(q & k & Eq & _) HS]. unfold context_qubits in *. cbn [flat_map]. rewrite Eq. cbn. f_equal. eauto.
  Qed.

  Lemma outputs_of h h1 h2 q L ids : keeps h h1 -> (forall i, In i L -> (i < size h)%nat) -> (size h <= q < size h1)%nat -> inputs_of h1 q = L ->
    keeps h1 h2 -> length ids = length L ->
    ((length L = 1%nat /\ ids = [q]) \/ ((forall i, In i ids -> (size h1 <= i < size h2)%nat) /\
      exists pieces, Forall2 (selects h2 q) pieces ids /\ map zlen pieces = map (width h1) L /\ concat pieces = zrange 0 (width h1 q))) ->
    new_outputs h h2 L ids.
  Proof.
    intros [Ka Kb] HL Hq HI [K2a K2b] Hlen Hout. destruct (K2b q) as (Ei & Ew & _); [lia|].
    split; auto. exists q. split; [lia|]. split; [congruence|].
    destruct Hout as [Hout|(Hnew & pieces & HF & HM & HC)]; [left; auto|right]. split; [intros i Hi; specialize (Hnew i Hi); lia|].
    exists pieces. split; auto. split; [|congruence]. rewrite HM. apply map_ext_in. intros i Hi. apply Kb; auto.
  Qed.
  Lemma call_weave cn (w : world K) c args given w' outs :
    let all := concat (w_stack w) in
    single_contexts all (zlen args) -> w_total w = zlen (context_qubits all) -> args <> [] ->
    (forall i, In i args \/ In i (context_qubits all) -> (i < size (w_heap w))%nat /\ 0 < width (w_heap w) i) ->
    call_op cn w c (map AQ args) given = (w', Ok outs) ->
    exists L ids, woven (combine (context_qubits all) (flat_map cx_idx all)) args L /\ new_outputs (w_heap w) (w_heap w') L ids /\
      woven (combine (context_qubits (concat (w_stack w'))) (flat_map cx_idx all)) outs ids /\
      length (context_qubits (concat (w_stack w'))) = length (context_qubits all) /\ w_total w' = w_total w /\
      map (map (fun cx => (cx_fn cx, cx_idx cx))) (w_stack w') = map (map (fun cx => (cx_fn cx, cx_idx cx))) (w_stack w).
  Proof.
    cbv zeta. set (all := concat (w_stack w)). intros HS Ht Hne Hin E.
    destruct (put_single (AQ (K := K)) args all HS) as (L & EP & W & HL & HI).
    assert (HLne : L <> []). { destruct args; [congruence|]. rewrite zlen_cons in HL. pose proof (zlen_nonneg args). pose proof (zlen_nonneg all). intros ->. change (zlen (@nil nat)) with 0 in HL. lia. }
    assert (HLs : forall i, In i L -> (i < size (w_heap w))%nat) by (intros i Hi; apply HI in Hi; destruct (Hin i Hi); auto).
    assert (HLw : forall i, In i L -> 0 < width (w_heap w) i) by (intros i Hi; apply HI in Hi; destruct (Hin i Hi); auto).
    assert (BC : forall c0 h1 q h2 ids, build cn (w_heap w) c0 (map AQ L) no_kw = (h1, Ok q) -> split h1 q None = (h2, Ok ids) ->
      new_outputs (w_heap w) h2 L ids).
    { intros c0 h1 q h2 ids E1 E2. destruct (build_core cn c0 _ L _ _ _ E1 HLne HLs) as (Hq & K1 & I1 & W1).
      pose proof K1 as [K1a K1b].
      destruct (split_core h1 q L h2 ids I1 HLne) as (K2 & Hlen & Hout); auto.
      { intros i Hi. destruct (K1b i (HLs i Hi)) as (_ & -> & _). auto. }
      { rewrite W1. symmetry. apply sum_n_keeps; auto. }
      eapply outputs_of; eauto. }
    unfold call_op, apply_in_context in E. fold all in E. destruct (w_stack w) as [|s0 st0] eqn:Est.
    - subst all. cbn [concat] in *. assert (L = args) by (inversion W; auto). subst L.
      unfold on_heap in E. destruct (build cn (w_heap w) c (map AQ args) no_kw) as [h1 [q|e]] eqn:E1; cbn [fst snd sbind] in E; [|discriminate].
      cbn [set_heap w_heap] in E. destruct (split h1 q None) as [h2 [ids|e]] eqn:E2; cbn [fst snd sbind] in E; [|discriminate].
      destruct ids as [|i0 ids]; [discriminate|]. inversion E; subst. cbn [set_heap w_heap w_stack w_total]. rewrite Est.
      exists args, (i0 :: ids). repeat (split; auto). eapply BC; eauto. eapply BC; eauto. constructor.
    - rewrite EP in E. unfold on_heap in E. destruct (build cn (w_heap w) (wrap_all all c) (map AQ L) no_kw) as [h1 [q|e]] eqn:E1; cbn [fst snd sbind] in E; [|discriminate].
      cbn [set_heap w_heap] in E. destruct (split h1 q None) as [h2 [ids|e]] eqn:E2; cbn [fst snd sbind] in E; [|discriminate].
      pose proof (BC _ _ _ _ _ E1 E2) as NO. assert (Hids : zlen ids = zlen args + zlen all) by (destruct NO as [NO _]; unfold zlen in *; lia).
      destruct (split_single_ctx (zlen args) all ids HS Hids) as (xs & outs' & E3 & L1 & L2 & W2). rewrite E3 in E. unfold set_qubits in E.
      cbn [set_heap w_heap w_stack w_total w_funcs] in E.
      assert (Ez : zlen xs =? w_total w = true). { apply Z.eqb_eq. rewrite Ht. unfold zlen. rewrite (single_len all _ HS). congruence. }
      rewrite Ez in E. cbn [negb sbind] in E. destruct outs' as [|o outs']; [discriminate|]. inversion E; subst. cbn [set_heap w_heap w_stack w_total].
      rewrite Est. destruct (set_single (s0 :: st0) xs _ HS L1) as [S1 S2]. rewrite S1. exists L, ids. split; auto. split; auto. split; auto.
      split; [rewrite (single_len all _ HS); auto|]. split; auto.
  Qed.
  (** one context without indices *)
  Lemma woven_front x l L : woven [(x, 0)] l L -> L = x :: l.
  Proof.
    intros H. remember [(x, 0)] as ps eqn:Ep. destruct H as [l|y k ps l a b H Hz]; [discriminate|]. injection Ep as -> -> ->. destruct a as [|z a]; [|unfold zlen in Hz; cbn [length] in Hz; lia].
    cbn [app] in H. remember [] as ps eqn:Ep. destruct H; [reflexivity|discriminate].
  Qed.
  Lemma call_default cn (w : world K) fn q c args given w' outs :
    w_stack w = [[add_context fn [q] None]] -> w_total w = 1 -> args <> [] ->
    (forall i, In i (q :: args) -> (i < size (w_heap w))%nat /\ 0 < width (w_heap w) i) ->
    call_op cn w c (map AQ args) given = (w', Ok outs) ->
    exists o, new_outputs (w_heap w) (w_heap w') (q :: args) (o :: outs) /\ w_stack w' = [[mkCtx fn [o] [0]]] /\ w_total w' = 1.
  Proof.
    intros Hs Ht Ha Hw Hc. assert (X := call_weave cn w c args given w' outs). cbv zeta in X. rewrite Hs in X. cbn [concat app add_context] in X.
    destruct X as (L & ids & W1 & N & W2 & El & Et & Em).
    - cbn. split; [|exact I]. exists q, 0. repeat split; try lia. unfold zlen. cbn [length]. lia.
    - rewrite Ht. reflexivity.
    - exact Ha.
    - intros i Hi. apply Hw. cbn in Hi. destruct Hi as [Hi|[->|[]]]; [right; exact Hi|left; reflexivity].
    - exact Hc.
    - change (woven [(q, 0)] args L) in W1. apply woven_front in W1. subst L.
      destruct (w_stack w') as [|[|[fn' qs' idx'] [|? ?]] [|? ?]]; cbn in Em; try discriminate. injection Em as -> Ei. change (idx' = [0]) in Ei. subst idx'.
      cbn in El. rewrite app_nil_r in El. destruct qs' as [|o [|? ?]]; try discriminate El. change (woven [(o, 0)] outs ids) in W2. apply woven_front in W2. subst ids.
      exists o. split; [exact N|]. split; [reflexivity|]. rewrite Et. exact Ht.
  Qed.
End Weave.
