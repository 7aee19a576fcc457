(** Every heap a program builds satisfies the invariants. *)
From Coq Require Import Sorted.
From Verif Require Import Base M_Kron M_Ops M_Feed M_Graph S_Graph L_Graph1.

Section Built.
  Context {K : Type} {OK : OrdRing K}.
  Implicit Types h : heap K.

    (** the op a gate constructor builds *)
  Fixpoint gate_op h (g : gate K) (inputs : list nat) : op K :=
    match g with
    | GNot => ONot | GY => OY | GZ => OZ | GH s => OH s | GR e => OR e
    | GSwap => OSwap (match inputs with a :: _ => nd_n (nd h a) | [] => 0 end)
    | GC g _ => OC (gate_op h g (tl inputs))
    end.
  (** the inputs a gate constructor accepts *)
  Fixpoint gate_fits h (g : gate K) (inputs : list nat) : Prop :=
    match g with
    | GSwap => exists a b, inputs = [a; b] /\ nd_n (nd h a) = nd_n (nd h b)
    | GC g _ => exists c rest, inputs = c :: rest /\ rest <> [] /\ nd_n (nd h c) = 1 /\ NoDup inputs /\ gate_fits h g rest
    | _ => True
    end.
  Lemma gate_op_ext h h' g : forall inputs, ext h h' -> (forall i, In i inputs -> (i < size h)%nat) -> gate_op h' g inputs = gate_op h g inputs.
  Proof.
    induction g; cbn; intros inputs X H; auto.
    - destruct inputs as [|a l]; auto. destruct (ext_fields h h' a X) as (_ & _ & -> & _); auto. apply H; left; auto.
    - rewrite (IHg (tl inputs)); auto. intros i Hi. apply H. destruct inputs; [destruct Hi|right; auto].
  Qed.
  Lemma gate_fits_ext h h' g : forall inputs, ext h h' -> (forall i, In i inputs -> (i < size h)%nat) -> gate_fits h' g inputs <-> gate_fits h g inputs.
  Proof.
    induction g; cbn; intros inputs X H; try tauto.
    - split; intros (a & b & -> & E); exists a, b; split; auto;
      destruct (ext_fields h h' a X) as (_ & _ & Ea & _); try (apply H; left; auto; fail);
      destruct (ext_fields h h' b X) as (_ & _ & Eb & _); try (apply H; right; left; auto; fail); congruence.
    - split; intros (c & rest & -> & Hne & Hc & Hd & Hg); exists c, rest; split; auto; split; auto;
      destruct (ext_fields h h' c X) as (_ & _ & Ec & _); try (apply H; left; auto; fail);
      (split; [congruence|]; split; [auto|]; apply (IHg rest); auto; intros i Hi; apply H; right; auto).
  Qed.
  (** the op of a gate node fits its inputs *)
  Definition kind_ok h i : Prop :=
    match nd_kind (nd h i) with
    | KMat o _ => exists g, o = gate_op h g (inputs_of h i) /\ gate_fits h g (inputs_of h i)
    | KF _ => exists a b, inputs_of h i = [a; b]
    | KSplit _ => exists q, inputs_of h i = [q]
    | _ => True
    end.
  Lemma kind_ok_ext h h' i : ext h h' -> wf0 h -> (i < size h)%nat -> kind_ok h i -> kind_ok h' i.
  Proof.
    intros X W Hi. unfold kind_ok. destruct (ext_fields _ _ _ X Hi) as (-> & E & _). unfold inputs_of in *. rewrite E.
    destruct (nd_kind (nd h i)); auto. intros (g & -> & Hg). exists g.
    assert (Hin : forall j, In j (nd_inputs (nd h i)) -> (j < size h)%nat) by (intros j Hj; apply (wf_in h W i j Hi) in Hj; lia).
    split; [symmetry; apply gate_op_ext; auto|]. apply (gate_fits_ext h h'); auto.
  Qed.

  Record wf h (vis : list nat) : Prop := mkWf {
    wf_base : wf0 h;
    wf_vis : forall i, In i vis -> (i < size h)%nat;
    wf_closed : forall i j, In i vis -> In j (inputs_of h i) -> In j vis;
    wf_sink : forall i j, In i vis -> In j (inputs_of h i) -> In i (nd_sink (nd h j));
    wf_tie : forall i j, In i vis -> In j vis -> (i < j)%nat -> nd_qid (nd h i) = nd_qid (nd h j) ->
      exists p, inputs_of h i = [p] /\ inputs_of h j = [p];
    wf_nonneg : forall i, In i vis -> 0 <= nd_n (nd h i);
    wf_pos : forall i, In i vis -> 0 < nd_n (nd h i) \/ nd_kind (nd h i) = KMeasure;
    wf_kind : forall i, In i vis -> kind_ok h i }.

  Lemma wf_ext h h' vis : wf h vis -> wf0 h' -> ext h h' -> wf h' vis.
  Proof.
    intros W W' X.
    assert (F : forall i, In i vis -> inputs_of h' i = inputs_of h i /\ nd_qid (nd h' i) = nd_qid (nd h i) /\ nd_n (nd h' i) = nd_n (nd h i)).
    { intros i Hi. apply (wf_vis _ _ W) in Hi. destruct (ext_fields _ _ _ X Hi) as (_ & A & B & C & _). auto. }
    split; auto.
    - intros i Hi. apply (wf_vis _ _ W) in Hi. destruct X. lia.
    - intros i j Hi. destruct (F i Hi) as (-> & _). apply (wf_closed _ _ W); auto.
    - intros i j Hi. destruct (F i Hi) as (-> & _). intros Hj.
      apply (ext_fields _ _ j X); [|apply (wf_sink _ _ W); auto].
      apply (wf_vis _ _ W). eapply (wf_closed _ _ W); eauto.
    - intros i j Hi Hj. destruct (F i Hi) as (-> & -> & _). destruct (F j Hj) as (-> & -> & _). apply (wf_tie _ _ W); auto.
    - intros i Hi. destruct (F i Hi) as (_ & _ & ->). apply (wf_nonneg _ _ W); auto.
    - intros i Hi. destruct (F i Hi) as (_ & _ & ->). pose proof (wf_vis _ _ W i Hi) as Hl.
      destruct (ext_fields _ _ _ X Hl) as (-> & _). apply (wf_pos _ _ W); auto.
    - intros i Hi. apply (kind_ok_ext h); auto; [apply W|apply (wf_vis _ _ W); auto|apply (wf_kind _ _ W); auto].
  Qed.
  Lemma wf_add h vis i : wf h vis -> (i < size h)%nat -> incl (inputs_of h i) vis ->
    (forall j, In j (inputs_of h i) -> In i (nd_sink (nd h j))) -> 0 <= nd_n (nd h i) ->
    (0 < nd_n (nd h i) \/ nd_kind (nd h i) = KMeasure) -> kind_ok h i ->
    (forall j, In j vis -> nd_qid (nd h j) = nd_qid (nd h i) -> exists p, inputs_of h j = [p] /\ inputs_of h i = [p]) ->
    wf h (vis ++ [i]).
  Proof.
    intros W Hi Hc Hs Hn Hp Hk Ht. split.
    - apply W.
    - intros j. rewrite in_app_iff. intros [Hj|[<-|[]]]; auto. apply (wf_vis _ _ W); auto.
    - intros j x. rewrite !in_app_iff. intros [Hj|[<-|[]]] Hx; left; auto. eapply (wf_closed _ _ W); eauto.
    - intros j x. rewrite in_app_iff. intros [Hj|[<-|[]]] Hx; auto. apply (wf_sink _ _ W); auto.
    - intros a b. rewrite !in_app_iff. intros [Ha|[<-|[]]] [Hb|[<-|[]]] Hlt E.
      + apply (wf_tie _ _ W); auto.
      + apply Ht; auto.
      + destruct (Ht b Hb (eq_sym E)) as (p & A & B). exists p. auto.
      + lia.
    - intros j. rewrite in_app_iff. intros [Hj|[<-|[]]]; auto. apply (wf_nonneg _ _ W); auto.
    - intros j. rewrite in_app_iff. intros [Hj|[<-|[]]]; auto. apply (wf_pos _ _ W); auto.
    - intros j. rewrite in_app_iff. intros [Hj|[<-|[]]]; auto. apply (wf_kind _ _ W); auto.
  Qed.

  (** a call that created one visible node with a fresh qid *)
  Lemma wf_new h h' vis self : wf h vis -> wf0 h' -> ext h h' -> (self < size h')%nat ->
    incl (inputs_of h' self) vis -> (forall j, In j (inputs_of h' self) -> In self (nd_sink (nd h' j))) ->
    0 <= nd_n (nd h' self) -> (0 < nd_n (nd h' self) \/ nd_kind (nd h' self) = KMeasure) -> kind_ok h' self ->
    h_qid h <= nd_qid (nd h' self) -> wf h' (vis ++ [self]).
  Proof.
    intros W W' X Hs Hc Hk Hn Hp Hkd Hq. apply wf_add; auto; [eapply wf_ext; eauto|].
    intros j Hj E. exfalso. pose proof (wf_vis _ _ W j Hj) as Hj'. destruct (ext_fields _ _ _ X Hj') as (_ & _ & _ & Eq & _).
    pose proof (wf_next _ (wf_base _ _ W) j Hj'). lia.
  Qed.

  Lemma sum_n_nonneg h l : (forall i, In i l -> 0 <= nd_n (nd h i)) -> 0 <= sum_n h l.
  Proof.
    unfold sum_n. intros H. assert (G : forall z, 0 <= z -> 0 <= fold_left (fun a q => a + nd_n (nd h q)) l z).
    { induction l as [|i l IH]; cbn; intros z Hz; auto. apply IH; [intros; apply H; right; auto|].
      specialize (H i (or_introl eq_refl)). lia. }
    apply G. lia.
  Qed.

  (** ** gates *)
  Lemma repeated_NoDup l : repeated l = false <-> NoDup l.
  Proof.
    unfold repeated. rewrite Nat.ltb_ge. split.
    - intros H. eapply NoDup_incl_NoDup; [apply (NoDup_nodup Nat.eq_dec l)|exact H|intros x; apply nodup_In].
    - intros H. rewrite nodup_fixed_point by auto. lia.
  Qed.

  Lemma new_gate_ok g : forall h inputs nosink dagger h' r, wf0 h -> (forall i, In i inputs -> (i < size h)%nat) ->
    new_gate h g inputs None nosink dagger = (h', r) ->
    wf0 h' /\ ext h h' /\ (forall i, (size h <= i < size h')%nat -> h_qid h <= nd_qid (nd h' i)) /\
    forall self, r = Ok self -> (size h <= self)%nat /\ size h' = S self /\
      nd_kind (nd h' self) = KMat (gate_op h g inputs) dagger /\ nd_inputs (nd h' self) = inputs /\
      nd_default (nd h' self) = None /\ 0 < nd_n (nd h' self) /\ gate_fits h g inputs /\
      (nosink = false -> forall i, In i inputs -> In self (nd_sink (nd h' i))).
  Proof.
    assert (Simple : forall h o inputs nosink dagger h' r, wf0 h -> (forall i, In i inputs -> (i < size h)%nat) ->
      new_node h (KMat o dagger) inputs None None nosink None = (h', r) ->
      wf0 h' /\ ext h h' /\ (forall i, (size h <= i < size h')%nat -> h_qid h <= nd_qid (nd h' i)) /\
      forall self, r = Ok self -> (size h <= self)%nat /\ size h' = S self /\
        nd_kind (nd h' self) = KMat o dagger /\ nd_inputs (nd h' self) = inputs /\
        nd_default (nd h' self) = None /\ 0 < nd_n (nd h' self) /\
        (nosink = false -> forall i, In i inputs -> In self (nd_sink (nd h' i)))).
    { intros h o inputs nosink dagger h' r W Hin E.
      destruct (new_node_ok h (KMat o dagger) inputs None None nosink None h' r W Hin I (fun _ => eq_refl) E) as (A & B & _ & _ & Q & F).
      split; auto. split; auto. split; [intros i Hi; specialize (Q i Hi); cbn in Q; lia|].
      intros self Hs. destruct (F self Hs) as (F1 & F2 & F3 & F4 & F5 & F6 & F7 & F8 & F9 & F10). subst self.
      repeat (split; [auto; lia|]). auto. }
    induction g; cbn [new_gate]; intros h inputs ns dagger h' r W Hin E; cbn [gate_op gate_fits];
      try (destruct (Simple _ _ _ _ _ _ _ W Hin E) as (A & B & Q & F); split; [auto|]; split; [auto|]; split; [auto|];
           intros self Hs; destruct (F self Hs) as (F1 & F2 & F3 & F4 & F5 & F6 & F7); do 6 (split; [auto|]); split; [exact I|]; auto; fail).
    - (* swap *)
      destruct (new_node h _ inputs None None ns None) as [h1 r1] eqn:E1.
      destruct (Simple _ _ _ _ _ _ _ W Hin E1) as (A & B & Q & F).
      destruct r1 as [s1|e]; cbn [sbind] in E.
      + destruct (F s1 eq_refl) as (F1 & F2 & F3 & F4 & F5 & F6 & F7).
        assert (Fail : forall e, (h1, Raise e) = (h', r) -> wf0 h' /\ ext h h' /\ (forall i, (size h <= i < size h')%nat -> h_qid h <= nd_qid (nd h' i)) /\ forall self, r = Ok self -> False).
        { intros e E'. inversion E'; subst. do 3 (split; [auto|]). discriminate. }
        destruct inputs as [|a [|b [|c l]]];
          try (destruct (Fail _ E) as (G1 & G2 & G3 & G4); do 3 (split; [auto|]); intros self Hs; destruct (G4 self Hs)).
        destruct (Z.eqb_spec (nd_n (nd h1 a)) (nd_n (nd h1 b))) as [En|En];
          try (destruct (Fail _ E) as (G1 & G2 & G3 & G4); do 3 (split; [auto|]); intros self Hs; destruct (G4 self Hs)).
        inversion E; subst h' r. do 3 (split; [auto|]). intros self Hs. inversion Hs; subst self.
        do 6 (split; [auto|]). split; [|auto]. exists a, b. split; auto.
        destruct (ext_fields h h1 a B) as (_ & _ & Ea & _); [apply Hin; left; auto|].
        destruct (ext_fields h h1 b B) as (_ & _ & Eb & _); [apply Hin; right; left; auto|]. congruence.
      + inversion E; subst. do 3 (split; [auto|]). discriminate.
    - (* control *)
      assert (Fail : forall e, (h, Raise e) = (h', r) -> wf0 h' /\ ext h h' /\ (forall i, (size h <= i < size h')%nat -> h_qid h <= nd_qid (nd h' i)) /\ forall self, r = Ok self -> False).
      { intros e E'. inversion E'; subst. split; auto. split; [apply ext_refl|]. split; [lia|]. discriminate. }
      destruct (Z.ltb_spec (zlen inputs) 2) as [Hl|Hl];
        [destruct (Fail _ E) as (G1 & G2 & G3 & G4); do 3 (split; [auto|]); intros self Hs; destruct (G4 self Hs)|].
      destruct inputs as [|c rest];
        [destruct (Fail _ E) as (G1 & G2 & G3 & G4); do 3 (split; [auto|]); intros self Hs; destruct (G4 self Hs)|].
      destruct (Z.eqb_spec (nd_n (nd h c)) 1) as [Hc|Hc]; cbn [negb] in E;
        [|destruct (Fail _ E) as (G1 & G2 & G3 & G4); do 3 (split; [auto|]); intros self Hs; destruct (G4 self Hs)].
      destruct (repeated (c :: rest)) eqn:Hr;
        [destruct (Fail _ E) as (G1 & G2 & G3 & G4); do 3 (split; [auto|]); intros self Hs; destruct (G4 self Hs)|].
      clear Fail. apply repeated_NoDup in Hr.
      assert (Hin2 : forall i, In i rest -> (i < size h)%nat) by (intros; apply Hin; right; auto).
      destruct (new_gate h g rest None nosink dagger) as [h1 r1] eqn:E1.
      destruct (IHg h rest nosink dagger h1 r1 W Hin2 E1) as (A & B & Q & F).
      destruct r1 as [s1|e]; cbn [sbind] in E; [|inversion E; subst; do 3 (split; [auto|]); discriminate].
      destruct (F s1 eq_refl) as (F1 & F2 & F3 & F4 & F5 & F6 & F7 & F8). rewrite F3 in E.
      assert (Hin3 : forall i, In i (c :: rest) -> (i < size h1)%nat) by (intros i Hi; apply Hin in Hi; destruct B; lia).
      assert (Hqf : qid_fits h1 (Some (nd_qid (nd h1 s1)))).
      { split; [|apply (wf_next _ A); lia]. intros i Hi. apply (wf_qid _ A); lia. }
      destruct (new_node_ok h1 (KMat (OC (gate_op h g rest)) dagger) (c :: rest) None _ ns None h' r A Hin3 Hqf (fun _ => eq_refl) E) as (A' & B' & _ & _ & Q' & F').
      split; auto. split; [eapply ext_trans; eauto|]. split.
      + intros i Hi. destruct (Nat.lt_ge_cases i (size h1)) as [Hi1|Hi1].
        * destruct (ext_fields _ _ _ B' Hi1) as (_ & _ & _ & -> & _). apply Q. lia.
        * rewrite (Q' i) by lia. apply Q. lia.
      + intros self Hs. destruct (F' self Hs) as (G1 & G2 & G3 & G4 & G5 & G6 & G7 & G8 & G9 & G10). subst self.
        split; [destruct B; lia|]. split; [auto|]. split; [exact G3|]. split; [auto|]. split; [auto|]. split; [auto|].
        split; [|auto]. exists c, rest. split; auto. split; [|auto].
        intros ->. rewrite zlen_cons, zlen_nil in Hl. lia.
  Qed.

  (** ** split *)
  Lemma new_split_ok h vis self idx qid h' r : wf h vis -> In self vis -> qid_fits h qid ->
    (forall j, In j vis -> match qid with Some q => nd_qid (nd h j) = q -> inputs_of h j = [self] | None => True end) ->
    new_split h idx [self] qid = (h', r) ->
    wf0 h' /\ ext h h' /\ forall sq, r = Ok sq -> wf h' (vis ++ [sq]) /\ sq = size h /\ size h' = S (size h) /\
      nd_kind (nd h' sq) = KSplit idx /\ inputs_of h' sq = [self] /\ nd_n (nd h' sq) = zlen idx /\ 0 < zlen idx /\
      nd_qid (nd h' sq) = match qid with Some q => q | None => h_qid h end.
  Proof.
    intros W Hv Hq Ht E. unfold new_split in E.
    assert (Hin : forall i, In i [self] -> (i < size h)%nat) by (intros i [<-|[]]; apply (wf_vis _ _ W); auto).
    destruct (new_node_ok h (KSplit idx) [self] (Some (zlen idx)) qid false None h' r (wf_base _ _ W) Hin Hq eq_refl E) as (A & B & C & D & Q & F).
    split; auto. split; auto. intros sq Hs. destruct (F sq Hs) as (F1 & F2 & F3 & F4 & F5 & F6 & F7 & F8 & F9 & F10).
    assert (Fi : inputs_of h' sq = [self]) by exact F4.
    split.
    - apply wf_add.
      + eapply wf_ext; eauto.
      + lia.
      + rewrite Fi. intros x [<-|[]]; auto.
      + rewrite Fi. apply F10. auto.
      + lia.
      + left. lia.
      + unfold kind_ok. rewrite F3. eauto.
      + intros j Hj. pose proof (wf_vis _ _ W j Hj) as Hj'. destruct (ext_fields _ _ _ B Hj') as (_ & Ei & _ & -> & _).
        rewrite F8, Fi. unfold inputs_of in *. rewrite Ei. intros Eq. exists self. split; auto.
        specialize (Ht j Hj). destruct qid; auto. pose proof (wf_next _ (wf_base _ _ W) j Hj'). lia.
    - rewrite F6 in F7. repeat (split; [auto; fail|]). auto.
  Qed.

  (** what a list of split outputs looks like *)
  Definition split_out h (self : nat) (idx : list Z) (sq : nat) : Prop :=
    nd_kind (nd h sq) = KSplit idx /\ inputs_of h sq = [self] /\ nd_n (nd h sq) = zlen idx.
  Lemma split_out_ext h h' self idx sq : ext h h' -> (sq < size h)%nat -> split_out h self idx sq -> split_out h' self idx sq.
  Proof.
    intros X Hs (A & B & C). destruct (ext_fields _ _ _ X Hs) as (E1 & E2 & E3 & _). unfold split_out, inputs_of in *.
    rewrite E1, E2, E3. auto.
  Qed.
  (** neighbouring boundaries *)
  Fixpoint chunks (bounds : list Z) : list (list Z) :=
    match bounds with
    | s :: (e :: _) as rest => zrange s e :: chunks rest
    | _ => []
    end.

  Lemma split_loop_ok bounds : forall h vis self qid qs h' r, wf h vis -> In self vis -> qid_fits h qid ->
    (forall j, In j vis -> match qid with Some q => nd_qid (nd h j) = q -> inputs_of h j = [self] | None => True end) ->
    split_loop h self bounds qid qs = (h', r) ->
    wf0 h' /\ ext h h' /\ forall ids, r = Ok ids -> exists new, ids = qs ++ new /\ wf h' (vis ++ new) /\
      (forall i, In i new -> (size h <= i)%nat) /\ Forall2 (split_out h' self) (chunks bounds) new.
  Proof.
    induction bounds as [|s [|e rest] IH]; intros h vis self qid qs h' r W Hv Hq Ht E; cbn [split_loop] in E.
    - inversion E; subst. split; [apply W|]. split; [apply ext_refl|]. intros ids Hi. inversion Hi; subst. exists [].
      rewrite !app_nil_r. split; auto. split; auto. split; [intros i []|constructor].
    - inversion E; subst. split; [apply W|]. split; [apply ext_refl|]. intros ids Hi. inversion Hi; subst. exists [].
      rewrite !app_nil_r. split; auto. split; auto. split; [intros i []|constructor].
    - destruct (new_split h (zrange s e) [self] qid) as [h1 r1] eqn:E1.
      destruct (new_split_ok _ _ _ _ _ _ _ W Hv Hq Ht E1) as (A & B & F).
      destruct r1 as [sq|ex]; cbn [sbind] in E; [|inversion E; subst; split; auto; split; auto; discriminate].
      destruct (F sq eq_refl) as (W1 & Hsq & Sz & F3 & F4 & F5 & F6 & F7).
      assert (Hq1 : qid_fits h1 (Some (nd_qid (nd h1 sq)))).
      { split; [|apply (wf_next _ A); lia]. intros i Hi. apply (wf_qid _ A); lia. }
      assert (Ht1 : forall j, In j (vis ++ [sq]) -> nd_qid (nd h1 j) = nd_qid (nd h1 sq) -> inputs_of h1 j = [self]).
      { intros j. rewrite in_app_iff. intros [Hj|[<-|[]]] Eq; auto.
        assert (Hsq' : In sq (vis ++ [sq])) by (apply in_app_iff; right; left; auto).
        assert (Hj' : In j (vis ++ [sq])) by (apply in_app_iff; auto).
        assert (Hlt : (j < sq)%nat) by (apply (wf_vis _ _ W) in Hj; lia).
        destruct (wf_tie _ _ W1 j sq Hj' Hsq' Hlt Eq) as (p & P1 & P2). congruence. }
      assert (Hv1 : In self (vis ++ [sq])) by (apply in_app_iff; auto).
      destruct (IH h1 (vis ++ [sq]) self (Some (nd_qid (nd h1 sq))) (qs ++ [sq]) h' r W1 Hv1 Hq1 Ht1 E) as (A2 & B2 & F2).
      split; auto. split; [eapply ext_trans; eauto|]. intros ids Hi. destruct (F2 ids Hi) as (new & -> & Wn & Hn & HF).
      exists (sq :: new). rewrite <- app_assoc. split; auto. split; [rewrite <- app_assoc in Wn; exact Wn|].
      split; [intros i [<-|Hi']; [lia|apply Hn in Hi'; lia]|]. cbn [chunks]. constructor; auto.
      apply (split_out_ext h1); auto; [lia|]. split; auto.
  Qed.

  Lemma split_ok h vis self indices h' r : wf h vis -> In self vis -> split h self indices = (h', r) ->
    wf0 h' /\ ext h h' /\ forall ids, r = Ok ids -> wf h' (vis ++ ids).
  Proof.
    intros W Hv E. unfold split in E. destruct (split_bounds h self indices) as [l|].
    - eapply split_loop_ok in E; eauto; [|exact I]. destruct E as (A & B & F). split; auto. split; auto.
      intros ids Hi. destruct (F ids Hi) as (new & -> & Wn & _). exact Wn.
    - inversion E; subst. split; [apply W|]. split; [apply ext_refl|]. intros ids Hi. inversion Hi; subst.
      split; try apply W.
      + intros i. rewrite in_app_iff. intros [Hi'|[<-|[]]]; apply (wf_vis _ _ W); auto.
      + intros i j. rewrite !in_app_iff. intros [Hi'|[<-|[]]] Hj; left; eapply (wf_closed _ _ W); eauto.
      + intros i j. rewrite in_app_iff. intros [Hi'|[<-|[]]] Hj; apply (wf_sink _ _ W); auto.
      + intros a b. rewrite !in_app_iff. intros [Ha|[<-|[]]] [Hb|[<-|[]]]; apply (wf_tie _ _ W); auto.
      + intros i. rewrite in_app_iff. intros [Hi'|[<-|[]]]; apply (wf_nonneg _ _ W); auto.
      + intros i. rewrite in_app_iff. intros [Hi'|[<-|[]]]; apply (wf_pos _ _ W); auto.
      + intros i. rewrite in_app_iff. intros [Hi'|[<-|[]]]; apply (wf_kind _ _ W); auto.
  Qed.

  Lemma extract_ok h vis self indices h' r : wf h vis -> In self vis -> extract_index h self indices = (h', r) ->
    wf0 h' /\ ext h h' /\ forall ids, r = Ok ids -> wf h' (vis ++ ids) /\ exists l sq qs, indices = IList l /\ ids = [sq; qs] /\
      let n := nd_n (nd h self) in
      split_out h' self (filter (fun i => (0 <=? i) && (i <? n)) l) sq /\
      split_out h' self (filter (fun i => negb (zmem i l) && ((0 <=? i) && (i <? n))) (zrange 0 n)) qs.
  Proof.
    intros W Hv E. unfold extract_index in E. destruct indices as [i|l].
    { inversion E; subst. split; [apply W|]. split; [apply ext_refl|]. discriminate. }
    destruct (new_split h _ [self] None) as [h1 r1] eqn:E1.
    destruct (new_split_ok h vis self _ None h1 r1 W Hv I (fun _ _ => I) E1) as (A & B & F).
    destruct r1 as [sq|ex]; cbn [sbind] in E; [|inversion E; subst; split; auto; split; auto; discriminate].
    destruct (F sq eq_refl) as (W1 & Hsq & Sz & F3 & F4 & F5 & F6 & F7).
    assert (Hq1 : qid_fits h1 (Some (nd_qid (nd h1 sq)))).
    { split; [|apply (wf_next _ A); lia]. intros i Hi. apply (wf_qid _ A); lia. }
    assert (Ht1 : forall j, In j (vis ++ [sq]) -> nd_qid (nd h1 j) = nd_qid (nd h1 sq) -> inputs_of h1 j = [self]).
    { intros j. rewrite in_app_iff. intros [Hj|[<-|[]]] Eq; auto.
      assert (Hsq' : In sq (vis ++ [sq])) by (apply in_app_iff; right; left; auto).
      assert (Hj' : In j (vis ++ [sq])) by (apply in_app_iff; auto).
      assert (Hlt : (j < sq)%nat) by (apply (wf_vis _ _ W) in Hj; lia).
      destruct (wf_tie _ _ W1 j sq Hj' Hsq' Hlt Eq) as (p & P1 & P2). congruence. }
    assert (Hv1 : In self (vis ++ [sq])) by (apply in_app_iff; auto).
    destruct (new_split h1 _ [self] _) as [h2 r2] eqn:E2.
    destruct (new_split_ok h1 (vis ++ [sq]) self _ _ h2 r2 W1 Hv1 Hq1 Ht1 E2) as (A2 & B2 & F').
    destruct r2 as [qs|ex]; cbn [sbind] in E; inversion E; subst h' r.
    - split; auto. split; [eapply ext_trans; eauto|]. intros ids Hi. inversion Hi; subst ids.
      destruct (F' qs eq_refl) as (W2 & Hqs & Sz2 & G3 & G4 & G5 & G6 & G7).
      split; [rewrite <- app_assoc in W2; exact W2|]. exists l, sq, qs. split; auto. split; auto. split.
      + apply (split_out_ext h1); auto; [lia|]. split; auto.
      + split; auto.
    - split; auto. split; [eapply ext_trans; eauto|]. discriminate.
  Qed.

  Lemma size_set_n h i n : size (set_n h i n) = size h.
  Proof. unfold size, set_n. cbn. apply upd_len. Qed.
  Lemma nd_set_n h i n j : nd (set_n h i n) j =
    if (Nat.eqb j i && Nat.ltb i (size h))%bool
    then (let x := nd h i in mkNode (nd_kind x) (nd_inputs x) n (nd_qid x) (nd_default x) (nd_sink x))
    else nd h j.
  Proof. unfold nd at 1, set_n, size. cbn [h_nodes]. rewrite upd_nth. reflexivity. Qed.

  Lemma new_measure_ok h vis k inputs h' r : wf h vis -> incl inputs vis -> (k = KMeasure \/ exists t, k = KStoch t) ->
    new_measure h k inputs = (h', r) ->
    wf0 h' /\ ext h h' /\ forall self, r = Ok self -> wf h' (vis ++ [self]) /\ (size h <= self)%nat /\
      nd_kind (nd h' self) = k /\ inputs_of h' self = inputs.
  Proof.
    intros W Hv Hk E. unfold new_measure in E.
    assert (Hin : forall i, In i inputs -> (i < size h)%nat) by (intros i Hi; apply (wf_vis _ _ W); auto).
    assert (Hnf : n_fits h k inputs None) by (unfold n_fits; destruct Hk as [->|(t & ->)]; auto).
    destruct (new_node h k inputs None None false None) as [h1 r1] eqn:E1.
    destruct (new_node_ok h k inputs None None false None h1 r1 (wf_base _ _ W) Hin I Hnf E1) as (A & B & C & D & Q & F).
    destruct r1 as [s1|ex]; cbn [sbind] in E; [|inversion E; subst; split; auto; split; auto; discriminate].
    destruct (F s1 eq_refl) as (F1 & F2 & F3 & F4 & F5 & F6 & F7 & F8 & F9 & F10).
    set (h2 := match k with KMeasure => set_n h1 s1 (sum_n h1 inputs) | _ => h1 end) in *.
    assert (H2 : wf0 h2 /\ ext h h2 /\ size h2 = size h1 /\ h_qid h2 = h_qid h1 /\ 0 <= nd_n (nd h2 s1) /\
      nd_kind (nd h2 s1) = k /\ nd_inputs (nd h2 s1) = inputs /\ nd_qid (nd h2 s1) = h_qid h /\
      forall i, nd_sink (nd h2 i) = nd_sink (nd h1 i)).
    { assert (G0 : wf0 h1 /\ ext h h1 /\ size h1 = size h1 /\ h_qid h1 = h_qid h1 /\ 0 <= nd_n (nd h1 s1) /\
        nd_kind (nd h1 s1) = k /\ nd_inputs (nd h1 s1) = inputs /\ nd_qid (nd h1 s1) = h_qid h /\
        forall i, nd_sink (nd h1 i) = nd_sink (nd h1 i)).
      { split; auto. split; auto. repeat (split; [auto; fail|]). split; [lia|]. auto 10. }
      destruct k; try exact G0. subst h2. destruct G0 as (_ & _ & _ & _ & G5 & G6 & G7 & G8 & _).
      assert (N : forall j, nd (set_n h1 s1 (sum_n h1 inputs)) j =
        if (Nat.eqb j s1) then mkNode (nd_kind (nd h1 s1)) (nd_inputs (nd h1 s1)) (sum_n h1 inputs) (nd_qid (nd h1 s1)) (nd_default (nd h1 s1)) (nd_sink (nd h1 s1)) else nd h1 j).
      { intros j. rewrite nd_set_n. rewrite (proj2 (Nat.ltb_lt s1 (size h1))) by lia. rewrite andb_true_r. reflexivity. }
      assert (Fld : forall j, nd_kind (nd (set_n h1 s1 (sum_n h1 inputs)) j) = nd_kind (nd h1 j) /\
        nd_inputs (nd (set_n h1 s1 (sum_n h1 inputs)) j) = nd_inputs (nd h1 j) /\
        nd_qid (nd (set_n h1 s1 (sum_n h1 inputs)) j) = nd_qid (nd h1 j) /\
        nd_default (nd (set_n h1 s1 (sum_n h1 inputs)) j) = nd_default (nd h1 j) /\
        nd_sink (nd (set_n h1 s1 (sum_n h1 inputs)) j) = nd_sink (nd h1 j)).
      { intros j. rewrite N. destruct (Nat.eqb_spec j s1) as [->|]; auto. }
      assert (Nn : forall j, j <> s1 -> nd_n (nd (set_n h1 s1 (sum_n h1 inputs)) j) = nd_n (nd h1 j)).
      { intros j Hj. rewrite N. destruct (Nat.eqb_spec j s1); congruence. }
      assert (Sn : forall l, (forall i, In i l -> i <> s1) -> sum_n (set_n h1 s1 (sum_n h1 inputs)) l = sum_n h1 l).
      { clear - Nn. generalize dependent (sum_n h1 inputs). intros m Nn l. unfold sum_n. generalize 0. induction l as [|x l IH]; cbn [fold_left In]; intros z Hl; auto.
        rewrite Nn by (apply Hl; auto). apply IH. intros; apply Hl; auto. }
      split.
      { split; rewrite ?size_set_n.
        - intros i j Hi. unfold inputs_of. destruct (Fld i) as (_ & -> & _). apply (wf_in _ A); auto.
        - intros j. destruct (Fld j) as (_ & _ & _ & _ & ->). apply (wf_sorted _ A).
        - intros j s. destruct (Fld j) as (_ & _ & _ & _ & ->). apply (wf_back _ A).
        - intros i j. destruct (Fld i) as (_ & _ & -> & _). destruct (Fld j) as (_ & _ & -> & _). apply (wf_qid _ A).
        - intros i Hi. destruct (Fld i) as (_ & _ & -> & _). apply (wf_next _ A); auto.
        - intros i Hi. unfold inputs_of. destruct (Fld i) as (-> & -> & _). intros Hne.
          assert (Hlt : forall x, In x (nd_inputs (nd h1 i)) -> x <> s1).
          { intros x Hx. apply (wf_in _ A) in Hx; lia. }
          rewrite (Sn _ Hlt). destruct (Nat.eq_dec i s1) as [->|Hns].
          + rewrite N, Nat.eqb_refl. cbn [nd_n]. rewrite G6, G7. reflexivity.
          + rewrite Nn by auto. apply (wf_n _ A); auto. }
      split.
      { destruct B as (B1 & B2 & B3). split; [rewrite size_set_n; lia|]. split; [exact B2|]. intros i Hi.
        destruct (B3 i Hi) as [Ec Ei]. unfold same_core. split.
        - rewrite <- Ec. unfold core. destruct (Fld i) as (-> & -> & -> & -> & _). rewrite Nn by lia. reflexivity.
        - destruct (Fld i) as (_ & _ & _ & _ & ->). auto. }
      split; [apply size_set_n|]. split; [reflexivity|]. split.
      { rewrite N, Nat.eqb_refl. cbn [nd_n]. apply sum_n_nonneg. intros i Hi.
        destruct (ext_fields _ _ i B) as (_ & _ & -> & _); [apply Hin; auto|]. apply (wf_nonneg _ _ W). auto. }
      destruct (Fld s1) as (-> & -> & -> & _). split; auto. split; auto. split; auto. intros i. apply Fld. }
    assert (Hp2 : 0 < nd_n (nd h2 s1) \/ k = KMeasure).
    { destruct Hk as [->|(t & ->)]; auto. }
    clearbody h2. destruct H2 as (A2 & B2 & S2 & Q2 & N2 & K2 & I2 & Qi2 & Sk2).
    destruct (sfold _ inputs h2) as [h3 r3] eqn:E3.
    assert (Hin2 : forall i, In i inputs -> (i < size h2)%nat) by (intros i Hi; apply Hin in Hi; lia).
    destruct (set_sinks_ok inputs h2 s1 h3 r3 A2 ltac:(lia) Hin2 E3) as (A3 & B3 & S3 & Q3 & C3 & I3).
    destruct r3 as [[]|ex]; cbn [sbind] in E; inversion E; subst h' r.
    - split; auto. split; [eapply ext_trans; eauto|]. intros self Hs. inversion Hs; subst self.
      pose proof (C3 s1) as Cs. unfold core in Cs. inversion Cs as [[E0 E1' E2' E4 E5]].
      assert (Hi3 : inputs_of h3 s1 = inputs) by (unfold inputs_of; congruence).
      split; [|split; [lia|split; [congruence|auto]]].
      apply (wf_new h); auto.
      + eapply ext_trans; eauto.
      + lia.
      + rewrite Hi3; auto.
      + rewrite Hi3. intros j Hj. apply I3; auto.
      + lia.
      + rewrite E0, K2. destruct Hp2; auto. left. lia.
      + unfold kind_ok. rewrite E0, K2. destruct Hk as [->|(t & ->)]; exact I.
      + lia.
    - split; auto. split; [eapply ext_trans; eauto|]. discriminate.
  Qed.

  Lemma exec_wf h vis c h' r : wf h vis -> incl (call_refs c) vis -> exec h c = (h', r) ->
    wf0 h' /\ ext h h' /\ forall ids, r = Ok ids -> wf h' (vis ++ ids).
  Proof.
    intros W Hr E.
    assert (Node : forall k inputs n d h' r, incl inputs vis -> n_fits h k inputs n ->
      match k with KMat _ _ | KSplit _ => False | KF _ => exists a b, inputs = [a; b] | _ => True end ->
      one (new_node h k inputs n None false d) = (h', r) ->
      wf0 h' /\ ext h h' /\ forall ids, r = Ok ids -> wf h' (vis ++ ids)).
    { clear h' r E. intros k inputs n d h' r Hi Hn Hkd E. unfold one in E.
      assert (Hin : forall i, In i inputs -> (i < size h)%nat) by (intros i Hi'; apply (wf_vis _ _ W); auto).
      destruct (new_node h k inputs n None false d) as [h1 r1] eqn:E1.
      destruct (new_node_ok h k inputs n None false d h1 r1 (wf_base _ _ W) Hin I Hn E1) as (A & B & C & D & Q & F).
      destruct r1 as [s|ex]; cbn [sbind] in E; inversion E; subst; split; auto; split; auto; [|discriminate].
      intros ids Hids. inversion Hids; subst. destruct (F s eq_refl) as (F1 & F2 & F3 & F4 & F5 & F6 & F7 & F8 & F9 & F10).
      apply (wf_new h); auto; unfold inputs_of; rewrite ?F4; auto; try lia.
      unfold kind_ok, inputs_of. rewrite F3, F4. destruct k; auto; contradiction. }
    destruct c as [n d|l|g l dagger|f a b|l|l k|q idx|q idx]; cbn [exec call_refs] in *.
    - eapply (Node KQubit); [exact Hr| |exact I|exact E]. red. congruence.
    - eapply (Node KQubit); [exact Hr| |exact I|exact E]. red. reflexivity.
    - unfold one in E.
      assert (Hin : forall i, In i l -> (i < size h)%nat) by (intros i Hi'; apply (wf_vis _ _ W); auto).
      destruct (new_gate h g l None false dagger) as [h1 r1] eqn:E1.
      destruct (new_gate_ok g h l false dagger h1 r1 (wf_base _ _ W) Hin E1) as (A & B & Q & F).
      destruct r1 as [s|ex]; cbn [sbind] in E; inversion E; subst; split; auto; split; auto; [|discriminate].
      intros ids Hids. inversion Hids; subst. destruct (F s eq_refl) as (F1 & F2 & F3 & F4 & F5 & F6 & F7 & F8).
      apply (wf_new h); auto; unfold inputs_of; rewrite ?F4; auto; [lia|lia| |].
      + unfold kind_ok, inputs_of. rewrite F3, F4. exists g. split; [symmetry; apply gate_op_ext; auto|].
        apply (gate_fits_ext h); auto.
      + apply Q. lia.
    - eapply (Node (KF f)); [exact Hr| | |exact E]; [red; reflexivity|cbn; eauto].
    - unfold one in E. destruct (new_measure h KMeasure l) as [h1 r1] eqn:E1.
      eapply new_measure_ok in E1; eauto. destruct E1 as (A & B & F).
      destruct r1 as [s|ex]; cbn [sbind] in E; inversion E; subst; split; auto; split; auto; [|discriminate].
      intros ids Hids. inversion Hids; subst. apply F. auto.
    - unfold one in E. destruct (new_measure h (KStoch k) l) as [h1 r1] eqn:E1.
      eapply new_measure_ok in E1; eauto. destruct E1 as (A & B & F).
      destruct r1 as [s|ex]; cbn [sbind] in E; inversion E; subst; split; auto; split; auto; [|discriminate].
      intros ids Hids. inversion Hids; subst. apply F. auto.
    - eapply split_ok; eauto. apply Hr. left; auto.
    - eapply extract_ok in E; [|eauto|apply Hr; left; auto]. destruct E as (A & B & F). split; auto. split; auto.
      intros ids Hi. apply F. auto.
  Qed.

  Theorem built_wf h vis : built h vis -> wf h vis.
  Proof.
    induction 1 as [|h vis c h' ids H IH Hr E|h vis c h' e H IH Hr E].
    - split; [apply wf0_empty|..]; cbn [In]; intros; contradiction.
    - eapply exec_wf; eauto.
    - eapply exec_wf in E; eauto. destruct E as (A & B & _). eapply wf_ext; eauto.
  Qed.
End Built.
