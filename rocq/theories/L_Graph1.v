(** Invariants of the heaps programs build. *)
From Coq Require Import Sorted.
From Verif Require Import Base M_Kron M_Ops M_Feed M_Graph S_Graph.

Lemma upd_len {A} (l : list A) i v : length (upd l i v) = length l.
Proof. revert i. induction l as [|a l IH]; intros [|i]; cbn; auto. Qed.
Lemma upd_nth {A} (l : list A) i v j d : nth j (upd l i v) d = if (Nat.eqb j i && Nat.ltb i (length l))%bool then v else nth j l d.
Proof.
  revert i j. induction l as [|a l IH]; intros i j.
  - cbn [upd nth length]. destruct i; rewrite andb_false_r; destruct j; reflexivity.
  - destruct i, j; cbn [upd nth length]; auto. rewrite IH. reflexivity.
Qed.
Lemma mem_In x l : mem x l = true <-> In x l.
Proof.
  unfold mem. rewrite existsb_exists. split.
  - intros (y & Hy & E). apply Nat.eqb_eq in E. subst. auto.
  - intros H. exists x. split; auto. apply Nat.eqb_refl.
Qed.
Lemma mem_false x l : mem x l = false <-> ~ In x l.
Proof. rewrite <- mem_In. destruct (mem x l); split; congruence. Qed.
Lemma sorted_app_last (l : list nat) x : StronglySorted le l -> (forall y, In y l -> (y <= x)%nat) -> StronglySorted le (l ++ [x]).
Proof.
  induction 1 as [|a l H IH HF]; cbn; intros Hx.
  - repeat constructor.
  - constructor; [apply IH; intros; apply Hx; auto|]. apply Forall_app. split; auto.
Qed.

Section Heap.
  Context {K : Type} {OK : OrdRing K}.
  Implicit Types h : heap K.

  Definition core (x : node K) := (nd_kind x, nd_inputs x, nd_n x, nd_qid x, nd_default x).
  Definition same_core h h' (i : nat) : Prop := core (nd h' i) = core (nd h i) /\ incl (nd_sink (nd h i)) (nd_sink (nd h' i)).
  (** later heaps keep the objects *)
  Definition ext h h' : Prop :=
    (size h <= size h')%nat /\ h_qid h <= h_qid h' /\ forall i, (i < size h)%nat -> same_core h h' i.

  Lemma ext_refl h : ext h h.
  Proof. split; [lia|]. split; [lia|]. intros i _. split; auto. apply incl_refl. Qed.
  Lemma ext_trans h1 h2 h3 : ext h1 h2 -> ext h2 h3 -> ext h1 h3.
  Proof.
    intros (A1 & B1 & C1) (A2 & B2 & C2). split; [lia|]. split; [lia|]. intros i Hi.
    destruct (C1 i Hi) as [E1 I1]. destruct (C2 i ltac:(lia)) as [E2 I2].
    split; [congruence|]. eapply incl_tran; eauto.
  Qed.
  Lemma ext_fields h h' i : ext h h' -> (i < size h)%nat ->
    nd_kind (nd h' i) = nd_kind (nd h i) /\ nd_inputs (nd h' i) = nd_inputs (nd h i) /\ nd_n (nd h' i) = nd_n (nd h i)
    /\ nd_qid (nd h' i) = nd_qid (nd h i) /\ nd_default (nd h' i) = nd_default (nd h i)
    /\ incl (nd_sink (nd h i)) (nd_sink (nd h' i)).
  Proof.
    intros (_ & _ & H) Hi. destruct (H i Hi) as [E I]. unfold core in E. inversion E. auto 10.
  Qed.
  Lemma sum_n_ext h h' l : ext h h' -> (forall i, In i l -> (i < size h)%nat) -> sum_n h' l = sum_n h l.
  Proof.
    intros E. unfold sum_n. generalize 0. induction l as [|i l IH]; cbn; intros z H; auto.
    destruct (ext_fields h h' i E) as (_ & _ & -> & _); auto.
  Qed.

  (** invariants of all nodes *)
  Record wf0 h : Prop := mkWf0 {
    wf_in : forall i j, (i < size h)%nat -> In j (inputs_of h i) -> (j < i)%nat;
    wf_sorted : forall j, StronglySorted le (nd_sink (nd h j));
    wf_back : forall j s, In s (nd_sink (nd h j)) -> (s < size h)%nat;
    wf_qid : forall i j, (i <= j)%nat -> (j < size h)%nat -> nd_qid (nd h i) <= nd_qid (nd h j);
    wf_next : forall i, (i < size h)%nat -> nd_qid (nd h i) < h_qid h;
    wf_n : forall i, (i < size h)%nat -> inputs_of h i <> [] ->
      nd_n (nd h i) = match nd_kind (nd h i) with KSplit l => zlen l | _ => sum_n h (inputs_of h i) end }.

  Lemma wf0_empty : wf0 empty_heap.
  Proof.
    split; unfold inputs_of, nd, size, empty_heap; cbn; intros; try lia.
    - destruct j; constructor.
    - destruct j; cbn in *; contradiction.
  Qed.

  Lemma size_add_sink h i s : size (add_sink h i s) = size h.
  Proof. unfold size, add_sink. cbn. apply upd_len. Qed.
  Lemma nd_add_sink h i s j : nd (add_sink h i s) j =
    if (Nat.eqb j i && Nat.ltb i (size h))%bool
    then (let x := nd h i in mkNode (nd_kind x) (nd_inputs x) (nd_n x) (nd_qid x) (nd_default x) (nd_sink x ++ [s]))
    else nd h j.
  Proof. unfold nd at 1, add_sink, size. cbn [h_nodes]. rewrite upd_nth. reflexivity. Qed.
  Lemma core_add_sink h i s j : core (nd (add_sink h i s) j) = core (nd h j).
  Proof.
    rewrite nd_add_sink. destruct (Nat.eqb j i && Nat.ltb i (size h))%bool eqn:E; auto.
    apply andb_true_iff in E as [E _]. apply Nat.eqb_eq in E. subst. reflexivity.
  Qed.
  Lemma sink_add_sink h i s j : nd_sink (nd (add_sink h i s) j) = nd_sink (nd h j) \/
    (j = i /\ (i < size h)%nat /\ nd_sink (nd (add_sink h i s) j) = nd_sink (nd h j) ++ [s]).
  Proof.
    rewrite nd_add_sink. destruct (Nat.eqb j i && Nat.ltb i (size h))%bool eqn:E; auto.
    apply andb_true_iff in E as [E E2]. apply Nat.eqb_eq in E. apply Nat.ltb_lt in E2. subst. right. auto.
  Qed.
  Lemma ext_add_sink h i s : ext h (add_sink h i s).
  Proof.
    split; [rewrite size_add_sink; lia|]. split; [cbn; lia|]. intros j Hj. split; [apply core_add_sink|].
    destruct (sink_add_sink h i s j) as [->|(_ & _ & ->)]; [apply incl_refl|apply incl_appl, incl_refl].
  Qed.
  Lemma same_nodes_wf h h' : wf0 h -> size h' = size h -> h_qid h' = h_qid h ->
    (forall i, core (nd h' i) = core (nd h i)) ->
    (forall j, StronglySorted le (nd_sink (nd h' j))) -> (forall j s, In s (nd_sink (nd h' j)) -> (s < size h')%nat) -> wf0 h'.
  Proof.
    intros W Es Eq Ec H1 H2.
    assert (F : forall i, nd_kind (nd h' i) = nd_kind (nd h i) /\ nd_inputs (nd h' i) = nd_inputs (nd h i) /\ nd_n (nd h' i) = nd_n (nd h i)
      /\ nd_qid (nd h' i) = nd_qid (nd h i)) by (intros i; specialize (Ec i); unfold core in Ec; inversion Ec; auto).
    split; auto; rewrite ?Es, ?Eq.
    - intros i j Hi. unfold inputs_of. destruct (F i) as (_ & -> & _). apply (wf_in _ W i j Hi).
    - intros i j Hij Hj. destruct (F i) as (_ & _ & _ & ->). destruct (F j) as (_ & _ & _ & ->). apply (wf_qid _ W); auto.
    - intros i Hi. destruct (F i) as (_ & _ & _ & ->). apply (wf_next _ W); auto.
    - intros i Hi. unfold inputs_of. destruct (F i) as (-> & -> & -> & _). intros Hn.
      rewrite (wf_n _ W i Hi Hn). destruct (nd_kind (nd h i)); auto; unfold sum_n, inputs_of.
      all: generalize 0; induction (nd_inputs (nd h i)) as [|x l IH]; cbn; intros z; auto;
        destruct (F x) as (_ & _ & -> & _); destruct l; [reflexivity|apply IH; discriminate].
  Qed.
  Lemma wf_add_sink h i s : wf0 h -> S s = size h -> wf0 (add_sink h i s).
  Proof.
    intros W Hs. apply (same_nodes_wf h); auto.
    - apply size_add_sink.
    - intros j. apply core_add_sink.
    - intros j. destruct (sink_add_sink h i s j) as [->|(_ & _ & ->)]; [apply (wf_sorted _ W)|].
      apply sorted_app_last; [apply (wf_sorted _ W)|]. intros y Hy. apply (wf_back _ W) in Hy. lia.
    - intros j x. rewrite size_add_sink. destruct (sink_add_sink h i s j) as [->|(_ & _ & ->)]; [apply (wf_back _ W)|].
      rewrite in_app_iff. intros [H|[<-|[]]]; [apply (wf_back _ W) in H; auto|lia].
  Qed.

  Lemma set_sink_ok h i s h' r : wf0 h -> S s = size h -> (i < size h)%nat -> set_sink h i s = (h', r) ->
    wf0 h' /\ ext h h' /\ size h' = size h /\ h_qid h' = h_qid h /\ (forall j, core (nd h' j) = core (nd h j)) /\
    (r = Ok tt -> In s (nd_sink (nd h' i))).
  Proof.
    intros W Hs Hi E.
    assert (A : wf0 (add_sink h i s) /\ ext h (add_sink h i s) /\ size (add_sink h i s) = size h /\
      h_qid (add_sink h i s) = h_qid h /\ (forall j, core (nd (add_sink h i s) j) = core (nd h j)) /\
      (r = Ok tt -> In s (nd_sink (nd (add_sink h i s) i)))).
    { split; [apply wf_add_sink; auto|]. split; [apply ext_add_sink|]. split; [apply size_add_sink|]. split; [reflexivity|].
      split; [intros; apply core_add_sink|]. intros _. rewrite nd_add_sink, Nat.eqb_refl.
      rewrite (proj2 (Nat.ltb_lt i (size h)) Hi). cbn. apply in_app_iff. right. left. auto. }
    assert (B : wf0 h /\ ext h h /\ size h = size h /\ h_qid h = h_qid h /\ (forall j, core (nd h j) = core (nd h j)) /\
      (Raise GenericException = Ok tt -> In s (nd_sink (nd h i)))).
    { split; auto. split; [apply ext_refl|]. repeat split; auto. discriminate. }
    unfold set_sink in E. destruct (is_qubit _).
    - destruct (nd_sink (nd h i)) eqn:Es.
      + inversion E; subst. exact A.
      + destruct (_ =? _); inversion E; subst; [exact A|]. rewrite <- Es in B. exact B.
    - inversion E; subst. exact A.
  Qed.

  Lemma set_sinks_ok l : forall h s h' r, wf0 h -> S s = size h -> (forall i, In i l -> (i < size h)%nat) ->
    sfold (fun h item => set_sink h item s) l h = (h', r) ->
    wf0 h' /\ ext h h' /\ size h' = size h /\ h_qid h' = h_qid h /\ (forall j, core (nd h' j) = core (nd h j)) /\
    (r = Ok tt -> forall i, In i l -> In s (nd_sink (nd h' i))).
  Proof.
    induction l as [|x l IH]; cbn [sfold]; intros h s h' r W Hs Hl E.
    - inversion E; subst. split; auto. split; [apply ext_refl|]. repeat split; auto. intros _ i [].
    - destruct (set_sink h x s) as [h1 r1] eqn:E1.
      destruct (set_sink_ok _ _ _ _ _ W Hs (Hl x (or_introl eq_refl)) E1) as (W1 & X1 & S1 & Q1 & C1 & I1).
      destruct r1 as [[]|e]; cbn [sbind] in E.
      + assert (Hl1 : forall i, In i l -> (i < size h1)%nat) by (intros; rewrite S1; apply Hl; right; auto).
        destruct (IH h1 s h' r W1 ltac:(congruence) Hl1 E) as (W2 & X2 & S2 & Q2 & C2 & I2).
        split; auto. split; [eapply ext_trans; eauto|]. split; [congruence|]. split; [congruence|].
        split; [intros; rewrite C2; apply C1|]. intros Hr i [<-|Hi]; [|apply I2; auto].
        apply (ext_fields h1 h' x X2); [rewrite S1; apply Hl; left; auto|]. apply I1; auto.
      + inversion E; subst. split; auto. split; auto. split; auto. split; auto. split; auto. discriminate.
  Qed.

  Lemma size_snoc (l : list (node K)) x q : size (mkHeap (l ++ [x]) q) = S (length l).
  Proof. unfold size. cbn. rewrite app_length. cbn. lia. Qed.
  Lemma nd_snoc l x q i : nd (mkHeap (l ++ [x]) q) i = if (Nat.ltb i (length l)) then nth i l dummy else if (Nat.eqb i (length l)) then x else (dummy : node K).
  Proof.
    unfold nd. cbn [h_nodes]. destruct (Nat.ltb_spec i (length l)); [apply app_nth1; auto|].
    rewrite app_nth2 by lia. destruct (Nat.eqb_spec i (length l)) as [->|Hn]; [rewrite Nat.sub_diag; reflexivity|].
    destruct (i - length l)%nat as [|[|k]] eqn:E; try reflexivity. lia.
  Qed.

  (** the qid a new node may be given: fresh, or that of the newest nodes *)
  Definition qid_fits h (qid : option Z) : Prop :=
    match qid with None => True | Some q => (forall i, (i < size h)%nat -> nd_qid (nd h i) <= q) /\ q < h_qid h end.
  Definition n_fits h (k : kind K) (inputs : list nat) (n : option Z) : Prop :=
    match k with KSplit l => n = Some (zlen l) | _ => inputs <> [] -> n = None end.

  Lemma alloc_ok h k inputs n q nq d : wf0 h -> (forall i, In i inputs -> (i < size h)%nat) ->
    (forall i, (i < size h)%nat -> nd_qid (nd h i) <= q) -> q < nq -> h_qid h <= nq ->
    (inputs <> [] -> n = match k with KSplit l => zlen l | _ => sum_n h inputs end) ->
    let h' := mkHeap (h_nodes h ++ [mkNode k inputs n q d []]) nq in
    wf0 h' /\ ext h h' /\ size h' = S (size h) /\ nd h' (size h) = mkNode k inputs n q d [].
  Proof.
    intros W Hin Hq Hq2 Hnq Hn h'.
    assert (Sz : size h' = S (size h)) by (apply size_snoc).
    assert (N : forall i, nd h' i = if (Nat.ltb i (size h)) then nd h i else if (Nat.eqb i (size h)) then mkNode k inputs n q d [] else dummy)
      by (intros i; apply nd_snoc).
    assert (Nold : forall i, (i < size h)%nat -> nd h' i = nd h i)
      by (intros i Hi; rewrite N; rewrite (proj2 (Nat.ltb_lt i (size h)) Hi); auto).
    assert (Nnew : nd h' (size h) = mkNode k inputs n q d []).
    { rewrite N, Nat.eqb_refl. destruct (Nat.ltb_spec (size h) (size h)); [lia|auto]. }
    assert (Sk : forall j, nd_sink (nd h' j) = [] \/ ((j < size h)%nat /\ nd_sink (nd h' j) = nd_sink (nd h j))).
    { intros j. destruct (Nat.ltb_spec j (size h)) as [Hj|Hj]; [right; rewrite Nold by auto; auto|].
      left. rewrite N. destruct (Nat.ltb_spec j (size h)); [lia|]. destruct (Nat.eqb j (size h)); reflexivity. }
    assert (X : ext h h').
    { split; [lia|]. split; [cbn; lia|]. intros i Hi. unfold same_core. rewrite Nold by auto. split; auto. apply incl_refl. }
    split; [|auto]. split.
    - intros i j Hi Hj. unfold inputs_of in Hj. destruct (Nat.eq_dec i (size h)) as [->|Hne].
      + rewrite Nnew in Hj. auto.
      + rewrite Nold in Hj by lia. apply (wf_in _ W) in Hj; auto. lia.
    - intros j. destruct (Sk j) as [->|(_ & ->)]; [constructor|apply (wf_sorted _ W)].
    - intros j s. destruct (Sk j) as [->|(_ & ->)]; [intros []|]. intros H. apply (wf_back _ W) in H. lia.
    - intros i j Hij Hj. destruct (Nat.eq_dec j (size h)) as [->|Hne].
      + rewrite Nnew. cbn [nd_qid]. destruct (Nat.eq_dec i (size h)) as [->|Hi]; [rewrite Nnew; cbn; lia|].
        rewrite Nold by lia. apply Hq. lia.
      + rewrite !Nold by lia. apply (wf_qid _ W); lia.
    - intros i Hi. destruct (Nat.eq_dec i (size h)) as [->|Hne].
      + rewrite Nnew. exact Hq2.
      + rewrite Nold by lia. change (h_qid h') with nq. pose proof (wf_next _ W i ltac:(lia)). lia.
    - intros i Hi. unfold inputs_of. destruct (Nat.eq_dec i (size h)) as [->|Hne].
      + rewrite Nnew. cbn [nd_inputs nd_n nd_kind]. intros Hne. rewrite (Hn Hne).
        rewrite (sum_n_ext h h' inputs X Hin). reflexivity.
      + rewrite Nold by lia. intros Hn'. pose proof (wf_n _ W i ltac:(lia) Hn') as E. rewrite E.
        unfold inputs_of in *. rewrite (sum_n_ext h h' _ X); auto.
        intros x Hx. apply (wf_in _ W) in Hx; lia.
  Qed.

  Lemma new_node_ok h k inputs n qid nosink d h' r : wf0 h -> (forall i, In i inputs -> (i < size h)%nat) ->
    qid_fits h qid -> n_fits h k inputs n -> new_node h k inputs n qid nosink d = (h', r) ->
    wf0 h' /\ ext h h' /\ (size h' <= S (size h))%nat /\ h_qid h' <= h_qid h + 1 /\
    (forall i, (size h <= i < size h')%nat -> match qid with Some q => nd_qid (nd h' i) = q | None => nd_qid (nd h' i) = h_qid h end) /\
    forall self, r = Ok self -> self = size h /\ size h' = S (size h) /\
      nd_kind (nd h' self) = k /\ nd_inputs (nd h' self) = inputs /\ nd_default (nd h' self) = d /\
      nd_n (nd h' self) = (match n with Some n => n | None => match inputs with [] => 1 | _ => sum_n h inputs end end) /\
      0 < nd_n (nd h' self) /\
      nd_qid (nd h' self) = (match qid with Some q => q | None => h_qid h end) /\
      h_qid h' = (match qid with Some q => h_qid h | None => h_qid h + 1 end) /\
      (nosink = false -> forall i, In i inputs -> In self (nd_sink (nd h' i))).
  Proof.
    intros W Hin Hqid Hn E. unfold new_node in E.
    set (n' := match n with Some n => n | None => match inputs with [] => 1 | _ => sum_n h inputs end end) in *.
    assert (Fail : forall e, (h, Raise e) = (h', r) -> wf0 h' /\ ext h h' /\ (size h' <= S (size h))%nat /\ h_qid h' <= h_qid h + 1 /\
      (forall i, (size h <= i < size h')%nat -> match qid with Some q => nd_qid (nd h' i) = q | None => nd_qid (nd h' i) = h_qid h end) /\
      forall self, r = Ok self -> False).
    { intros e E'. inversion E'; subst. split; auto. split; [apply ext_refl|]. split; [lia|]. split; [lia|]. split; [lia|]. discriminate. }
    destruct (match d with Some (DList l) => negb (zlen l =? 2 ^ n') | _ => false end).
    { destruct (Fail _ E) as (A & B & C & D & D' & F). do 5 (split; [assumption|]). intros self Hs. destruct (F self Hs). }
    destruct (n' <=? 0) eqn:En.
    { destruct (Fail _ E) as (A & B & C & D & D' & F). do 5 (split; [assumption|]). intros self Hs. destruct (F self Hs). }
    clear Fail.
    set (q := match qid with Some q => q | None => h_qid h end).
    set (nq := match qid with Some q => h_qid h | None => h_qid h + 1 end).
    assert (Hall : forall i, (i < size h)%nat -> nd_qid (nd h i) <= q).
    { intros i Hi. unfold q. destruct qid; [apply Hqid; auto|]. pose proof (wf_next _ W i Hi). lia. }
    assert (Hq2 : q < nq) by (unfold q, nq; destruct qid; [apply Hqid|lia]).
    assert (Hnq : h_qid h <= nq <= h_qid h + 1) by (unfold nq; destruct qid; lia).
    assert (Hnn : inputs <> [] -> n' = match k with KSplit l => zlen l | _ => sum_n h inputs end).
    { intros Hne. unfold n', n_fits in *. destruct k; try (rewrite Hn by auto; destruct inputs; congruence). }
    destruct (alloc_ok h k inputs n' q nq d W Hin Hall Hq2 (proj1 Hnq) Hnn) as (W1 & X1 & S1 & N1).
    set (h1 := mkHeap (h_nodes h ++ [mkNode k inputs n' q d []]) nq) in *.
    assert (E2 : (if nosink then (h1, Ok (size h)) else
       sbind (sfold (fun h0 item => set_sink h0 item (size h)) inputs h1) (fun h1 _ => (h1, Ok (size h)))) = (h', r)).
    { unfold h1, q, nq. destruct qid; exact E. }
    clear E. rename E2 into E.
    assert (Q1 : forall i, (size h <= i < size h1)%nat -> match qid with Some q => nd_qid (nd h1 i) = q | None => nd_qid (nd h1 i) = h_qid h end).
    { intros i Hi. assert (i = size h) by lia. subst i. rewrite N1. cbn. unfold q. destruct qid; auto. }
    destruct nosink.
    - inversion E; subst h' r. split; auto. split; auto. split; [lia|]. split; [cbn; lia|]. split; [exact Q1|].
      intros self Hs. inversion Hs; subst self. rewrite N1. cbn [nd_kind nd_inputs nd_default nd_n nd_qid].
      repeat (split; [auto; fail|]). split; [lia|]. split; [auto|]. split; [auto|]. discriminate.
    - destruct (sfold _ inputs h1) as [h2 r2] eqn:E2.
      assert (Hin1 : forall i, In i inputs -> (i < size h1)%nat) by (intros i Hi; rewrite S1; apply Hin in Hi; lia).
      destruct (set_sinks_ok inputs h1 (size h) h2 r2 W1 (eq_sym S1) Hin1 E2) as (W2 & X2 & S2 & Q2 & C2 & I2).
      assert (Q3 : forall i, (size h <= i < size h2)%nat -> match qid with Some q => nd_qid (nd h2 i) = q | None => nd_qid (nd h2 i) = h_qid h end).
      { intros i Hi. specialize (Q1 i ltac:(lia)). pose proof (C2 i) as C2i. unfold core in C2i. inversion C2i as [[E0 E1 E3 E4 E5]]. rewrite E4. exact Q1. }
      assert (B : wf0 h2 /\ ext h h2 /\ (size h2 <= S (size h))%nat /\ h_qid h2 <= h_qid h + 1).
      { split; auto. split; [eapply ext_trans; eauto|]. split; [lia|]. rewrite Q2. cbn. lia. }
      destruct r2 as [[]|e]; cbn [sbind] in E; inversion E; subst h' r; destruct B as (B1 & B2 & B3 & B4).
      + repeat (split; [auto; fail|]). intros self Hs. inversion Hs; subst self.
        pose proof (C2 (size h)) as C2i. rewrite N1 in C2i. unfold core in C2i. cbn in C2i. inversion C2i as [[E0 E1 E3 E4 E5]].
        rewrite E0, E1, E3, E4, E5. rewrite Q2.
        repeat (split; [auto; try congruence; fail|]). split; [lia|]. split; [auto|]. split; [reflexivity|]. intros _ i Hi. apply I2; auto.
      + repeat (split; [auto; fail|]). discriminate.
  Qed.
End Heap.
