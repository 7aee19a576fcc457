(** Programs that start from fresh qubits: the circuit of the fresh qubits, and what running a circuit built on it
    computes. *)
From Coq Require Import Sorted.
From Verif Require Import Base S_Bits L_Bits M_Kron S_Kron M_Ops S_Ops M_Feed S_Feed M_Func S_Func
  M_Measure S_Measure L_Alg M_Graph S_Graph L_Graph1 L_Graph2 L_Graph3 L_Graph5 L_Graph6 L_Graph7 L_Graph8 L_Graph9 L_Graph10 L_Graph11
  M_Context S_Context L_Sinks L_Grow1 L_Grow2 L_Context4.

(** consecutive positions for registers of the given widths *)
Fixpoint spans (n : Z) (ks : list Z) : list (list Z) :=
  match ks with [] => [] | k :: ks => zrange n (n + k) :: spans (n + k) ks end.

Section Programs.
  Context {K : Type} {OK : OrdRing K}.
  Notation C := (Cx K).
  Implicit Types h : heap K.

  (** ** fresh qubits *)
  Record fresh h (srcs : list nat) : Prop := mkFresh {
    f_built : built h srcs;
    f_session : session h srcs cache0 [];
    f_sorted : StronglySorted lt srcs;
    f_size : forall i, In i srcs -> (i < size h)%nat;
    f_node : forall i, In i srcs -> nd_kind (nd h i) = KQubit /\ inputs_of h i = [] }.
  Definition layout h (srcs : list nat) : list (nat * list Z) := combine srcs (spans 0 (map (width h) srcs)).

  Lemma fresh_empty : fresh empty_heap [].
  Proof. split; try (intros i []); constructor. Qed.
  Lemma fresh_add h srcs k d : fresh h srcs -> 0 < k -> match d with Some (DList l) => zlen l = 2 ^ k | _ => True end ->
    exists h', new_node h KQubit [] (Some k) None false d = (h', Ok (size h)) /\ fresh h' (srcs ++ [size h]) /\ ext h h' /\
      width h' (size h) = k /\ nd_default (nd h' (size h)) = d /\ size h' = S (size h).
  Proof.
    intros F Hk Hd.
    set (h' := mkHeap (h_nodes h ++ [mkNode KQubit [] k (h_qid h) d []]) (h_qid h + 1)).
    assert (E : new_node h KQubit [] (Some k) None false d = (h', Ok (size h))).
    { unfold new_node. replace (match d with Some (DList l) => negb (zlen l =? 2 ^ k) | _ => false end) with false.
      - rewrite (proj2 (Z.leb_gt _ _)) by lia. reflexivity.
      - destruct d as [[l|l|i]|]; auto. rewrite Hd, Z.eqb_refl. auto. }
    assert (Ex : exec h (NewQubit (Some k) d) = (h', Ok [size h])) by (cbn [exec]; rewrite E; reflexivity).
    assert (Nj : nd h' (size h) = mkNode KQubit [] k (h_qid h) d []) by (unfold nd, size; cbn [h' h_nodes]; rewrite nth_middle; auto).
    assert (Sz : size h' = S (size h)) by (unfold size; cbn [h' h_nodes]; rewrite app_length; cbn; lia).
    assert (X : ext h h') by (apply (exec_wf h srcs (NewQubit (Some k) d) h' (Ok [size h]) (built_wf _ _ (f_built _ _ F)) ltac:(intros x []) Ex)).
    exists h'. split; auto. split; [|split; [auto|split; [unfold width; rewrite Nj; auto|split; [rewrite Nj; auto|auto]]]].
    split.
    - eapply built_ok; [apply F| |eauto]. intros x [].
    - eapply session_call; [apply F| |eauto]. intros x [].
    - apply sorted_app_lt; [apply F|repeat constructor|]. intros a b Ha [<-|[]]. apply (f_size _ _ F); auto.
    - intros i Hi. apply in_app_iff in Hi. rewrite Sz. destruct Hi as [Hi|[<-|[]]]; [apply (f_size _ _ F) in Hi|]; lia.
    - intros i Hi. apply in_app_iff in Hi. destruct Hi as [Hi|[<-|[]]].
      + pose proof (f_size _ _ F i Hi) as Hs. rewrite (ext_kind h h'), (ext_inputs h h'); auto. apply (f_node _ _ F); auto.
      + unfold inputs_of. rewrite Nj. auto.
  Qed.
  Lemma fresh_anc h srcs i : fresh h srcs -> ancestor h srcs i <-> In i srcs.
  Proof.
    intros F. split; [|apply anc_arg]. induction 1 as [i Hi|i j H IH Hj]; auto.
    destruct (f_node _ _ F i IH) as [_ E]. rewrite E in Hj. destruct Hj.
  Qed.
  Lemma layout_wires h srcs : forall l l0 n, srcs = l0 ++ l -> n = widths h l0 -> forall q g,
    In (q, g) (combine l (spans n (map (width h) l))) -> wires h srcs q g.
  Proof.
    induction l as [|x l IH]; intros l0 n E En q g Hi; cbn [map spans combine] in Hi; [destruct Hi|].
    destruct Hi as [Hi|Hi].
    - inversion Hi; subst q g n. apply wires_source with l. auto.
    - apply (IH (l0 ++ [x]) (n + width h x)) in Hi; auto; [rewrite <- app_assoc; auto|].
      rewrite widths_app, widths_cons. cbn. lia.
  Qed.
  Lemma spans_len ks : forall n, length (spans n ks) = length ks.
  Proof. induction ks; cbn; auto. Qed.
  Lemma layout_fst h srcs : map fst (layout h srcs) = srcs.
  Proof.
    unfold layout. generalize (spans_len (map (width h) srcs) 0). rewrite map_length. generalize (spans 0 (map (width h) srcs)).
    induction srcs as [|a l IH]; intros [|g gs]; cbn; intros E; try discriminate; auto. rewrite IH; auto.
  Qed.
  Lemma fresh_circ h srcs : fresh h srcs -> circ srcs h srcs (layout h srcs).
  Proof.
    intros F. pose proof (fun i => fresh_anc h srcs i F) as A. split; rewrite ?layout_fst; auto using incl_refl.
    - apply F.
    - intros i idx k Hi Hk. destruct (f_node _ _ F i Hi) as [E _]. congruence.
    - intros i o Hi Hk. destruct (f_node _ _ F i Hi) as [E _]. congruence.
    - split; [apply F|]. intros i. rewrite A. split; [|tauto]. intros Hi. split; auto. apply (f_node _ _ F i Hi).
    - intros i Hi. apply A in Hi. unfold node_ok. rewrite (proj1 (f_node _ _ F i Hi)). exact I.
    - apply (layout_wires h srcs srcs [] 0); auto.
  Qed.

  (** ** leaving out outputs *)
  (** what [args] has and [args'] has not are outputs of splits of nodes needed by [args'] *)
  Definition slim h (args args' : list nat) : Prop :=
    incl args' args /\ forall d, In d args -> In d args' \/
      (exists idx, nd_kind (nd h d) = KSplit idx) /\ inputs_of h d <> [] /\ forall j, In j (inputs_of h d) -> ancestor h args' j.
  Lemma slim_anc h args args' : slim h args args' -> forall i, ancestor h args i -> ancestor h args' i \/
    (exists idx, nd_kind (nd h i) = KSplit idx) /\ inputs_of h i <> [] /\ forall j, In j (inputs_of h i) -> ancestor h args' j.
  Proof.
    intros [H1 H2] i. induction 1 as [i Hi|i j H IH Hj].
    - destruct (H2 i Hi) as [A|A]; auto. left. apply anc_arg; auto.
    - left. destruct IH as [A|(_ & _ & A)]; auto. eapply anc_input; eauto.
  Qed.
  Lemma slim_circuit h vis args args' srcs : slim h args args' -> circuit h vis args srcs -> circuit h vis args' srcs.
  Proof.
    intros Sl (B & I & Sp & Sw & Sr & Ok_). pose proof (slim_anc _ _ _ Sl) as A. destruct Sl as [H1 H2].
    split; auto. split; [eapply incl_tran; eauto|]. split; auto. split; auto. split.
    - destruct Sr as [S1 S2]. split; auto. intros i. rewrite S2. split; intros [X Y]; split; auto.
      + destruct (A i X) as [Z|(_ & Z & _)]; auto. congruence.
      + eapply anc_incl; eauto.
    - intros i Hi. apply Ok_. eapply anc_incl; eauto.
  Qed.

  Variable srcs : list nat.
  Lemma evolves_insert rs h n (p : nat -> bool) keys : (forall i, In i keys -> p i = false ->
      (exists idx, nd_kind (nd h i) = KSplit idx) /\ exists gs, Forall2 (wires h srcs) (inputs_of h i) gs) ->
    forall l v v', map fst l = filter p keys -> evolves rs h srcs n l v v' -> exists l', map fst l' = keys /\ evolves rs h srcs n l' v v'.
  Proof.
    induction keys as [|i keys IH]; intros Hp l v v' E H.
    - exists l. auto.
    - assert (IH' := IH (fun j Hj => Hp j (or_intror Hj))). cbn [filter] in E. destruct (p i) eqn:Ep.
      + destruct l as [|[j cv] l]; [discriminate|]. cbn [map fst] in E. injection E as -> E. inversion H; subst.
        match goal with HE : evolves _ _ _ _ l _ _ |- _ => destruct (IH' _ _ _ E HE) as (l' & <- & H') end.
        exists ((i, cv) :: l'). split; auto. econstructor; eauto.
      + destruct (Hp i (or_introl eq_refl) Ep) as ((idx & Ek) & gs & Hg). destruct (IH' _ _ _ E H) as (l' & <- & H').
        exists ((i, CZero) :: l'). split; auto. econstructor; eauto. rewrite Ek. constructor. auto.
  Qed.

  (** ** running *)
  Lemma fresh_runs h h' vis' lg' U args' : fresh h srcs -> grow srcs h srcs (layout h srcs) h' vis' lg' U -> slim h' (map fst lg') args' ->
    let n := widths h srcs in
    forall c l ev feed strict state init, session h' vis' c l -> (forall a, In a l -> same_qubits h' args' a) ->
    enum_ok ev -> scheds_ok ev h' n -> initial h' srcs n feed state init -> (strict = true -> incl srcs (fed_nodes feed)) ->
    exists c' st_ cm, run ev c h' args' feed strict state = (c', Ok (st_, cm)) /\ zlen st_ = 2 ^ n /\ forall r, 0 <= r < 2 ^ n -> amp st_ r = U (fed_amp n init) r.
  Proof.
    intros F G Sl n c l ev feed strict state init S Q He Hsc HI Hst.
    pose proof (fresh_circ h srcs F) as Ci. pose proof (grow_widths _ _ _ _ _ _ _ _ Ci G) as EW. pose proof (grow_circ _ _ _ _ _ _ _ _ G) as Ci'.
    pose proof (circ_circuit _ _ _ _ Ci') as CC. pose proof (slim_circuit _ _ _ _ _ Sl CC) as CC'.
    pose proof (slim_anc _ _ _ Sl) as An.
    destruct G as (_ & X & Hvi & _ & HU & new & N1 & N2 & N3 & N4 & N5). rewrite layout_fst in N3.
    destruct CC as (B & In_ & Sp & Sw & Sr & Ok_). destruct CC' as (_ & In' & _ & _ & Sr' & Ok').
    pose proof (built_wf _ _ B) as W. fold n in EW, HU.
    assert (Hn : 0 <= n) by exact (circ_n _ _ _ _ Ci).
    pose proof (splits_anc h' vis' (map fst lg') W In_ Sp) as Hsp.
    assert (Hnode : forall i, In i srcs -> nd_kind (nd h' i) = KQubit /\ inputs_of h' i = []).
    { intros i Hi. pose proof (f_size _ _ F i Hi). rewrite (ext_kind h h'), (ext_inputs h h'); auto. apply (f_node _ _ F); auto. }
    assert (Hkeys : forall i, ancestor h' (map fst lg') i <-> In i (srcs ++ new)).
    { intros i. rewrite N3, in_app_iff, (fresh_anc h srcs i F). tauto. }
    assert (Hk : forall i, In i (srcs ++ new) -> nd_kind (nd h' i) <> KMeasure).
    { intros i Hi. apply in_app_iff in Hi. destruct Hi as [Hi|Hi]; [destruct (Hnode i Hi) as [-> _]; discriminate|apply N4; auto]. }
    destruct (run_top h' vis' c l args' srcs S Sp Sw In' Q Sr' Ok' ev feed strict state init He) as (R & T & _); try (rewrite EW; auto).
    destruct T as (c' & [st_ cm] & E); auto.
    { intros i Hi. apply Hk, Hkeys. eapply anc_incl; [|exact Hi]. apply Sl. }
    destruct (R _ _ _ E) as (Hz & So & Ha & Ev). rewrite EW in Hz, Ev. exists c', st_, cm. split; auto. split; auto. intros r Hr.
    assert (Hsorted : StronglySorted lt (srcs ++ new)).
    { apply sorted_app_lt; auto; [apply F|]. intros a b Hx Hy. apply (f_size _ _ F) in Hx. apply N2 in Hy. lia. }
    destruct (evolves_insert (e_rsqrt ev) h' n (fun i => mem i (map fst cm)) (srcs ++ new)) with (l := cm) (v := amp (map (fed_amp n init) (zrange 0 (2 ^ n)))) (v' := amp st_)
      as (lf & El & Ev'); auto.
    { intros i Hi Hm. apply Hkeys in Hi. destruct (An i Hi) as [A|A].
      - apply Ha, mem_In in A. congruence.
      - split; [apply A|]. exists (map (wire h' srcs) (inputs_of h' i)). apply (a_inputs h' vis' (map fst lg') srcs); auto. }
    { apply sorted_lt_unique; auto.
      - clear - Hsorted. induction Hsorted as [|a l H IH HF]; cbn [filter]; [constructor|]. destruct (mem a (map fst cm)); auto. constructor; auto.
        apply Forall_forall. intros x Hx. apply filter_In in Hx. rewrite Forall_forall in HF. apply HF, Hx.
      - intros i. rewrite filter_In, mem_In. split; [|tauto]. intros Hi. split; auto. apply Hkeys. apply Ha in Hi. eapply anc_incl; [|exact Hi]. apply Sl. }
    assert (Hz0 : forall v, evolves (e_rsqrt ev) h' srcs n (zeros srcs ++ zeros new) v (U v)).
    { intros v. apply (evolves_app srcs (e_rsqrt ev) h' n _ _ v v).
      - assert (Hsub : forall l0, incl l0 srcs -> evolves (e_rsqrt ev) h' srcs n (zeros l0) v v).
        { induction l0 as [|i l0 IH]; intros Hl0; [constructor; auto|]. cbn [zeros map]. destruct (Hnode i (Hl0 i (or_introl eq_refl))) as [E1 E2].
          econstructor; [rewrite E2; constructor|rewrite E1; constructor; auto|]. apply IH. intros x Hx. apply Hl0. right; auto. }
        apply Hsub, incl_refl.
      - intros u Hu. eapply evolves_final; [apply N5|]. apply HU. auto. }
    assert (Hfst : map fst (zeros (K := K) srcs ++ zeros new) = srcs ++ new).
    { intros. unfold zeros. rewrite map_app, !map_map, !map_id. auto. }
    pose proof (evolves_fun h' vis' (map fst lg') srcs W In_ Hsp Sr (e_rsqrt ev) Ok_) as EF. rewrite EW in EF.
    destruct (EF _ _ _ (Hz0 (amp (map (fed_amp n init) (zrange 0 (2 ^ n))))) lf _ _ Ev') as [EA _]; auto.
    { intros i Hi. rewrite Hfst in Hi. apply Hkeys; auto. }
    { unfold same_outcomes. assert (El' : map fst (zeros (K := K) srcs ++ zeros new) = map fst lf) by congruence.
      assert (Hk' : forall i, In i (map fst lf) -> nd_kind (nd h' i) <> KMeasure) by (rewrite El; auto).
      clear - El' Hk'. revert lf El' Hk'. generalize (zeros (K := K) srcs ++ zeros new). intros l0. induction l0 as [|[i a] l0 IH]; intros [|[j b] lf] E Hk; cbn in E; try discriminate; constructor.
      - injection E as -> E. split; auto. cbn [fst]. intros H. exfalso. apply (Hk j); auto. left; auto.
      - injection E as -> E. apply IH; auto. intros i Hi. apply Hk. right; auto. }
    rewrite <- EA by auto. apply HU; auto. intros x Hx. unfold amp. rewrite znth_map_zrange by lia. f_equal.
  Qed.
End Programs.
