(** Calling op constructors: the circuit grows by the op, controlled on the qubits of the contexts. *)
From Coq Require Import Sorted.
From Verif Require Import Base S_Bits L_Bits M_Kron S_Kron M_Ops S_Ops M_Feed S_Feed M_Func S_Func
  M_Measure S_Measure L_Alg M_Graph S_Graph L_Graph1 L_Graph2 L_Graph3 L_Graph5 L_Graph6 L_Graph7 L_Graph8 L_Graph9 L_Graph10 L_Graph11
  M_Context S_Context L_Sinks L_Grow1 L_Grow2.

Lemma concat_inj {A} : forall l l' : list (list A), map (@length A) l = map (@length A) l' -> concat l = concat l' -> l = l'.
Proof.
  induction l as [|a l IH]; intros [|b l'] Hl Hc; cbn in *; try discriminate; auto.
  injection Hl as Hab Hl. assert (E : firstn (length a) (a ++ concat l) = firstn (length b) (b ++ concat l')) by congruence.
  rewrite !firstn_app, !Nat.sub_diag, !firstn_all in E. cbn [firstn] in E. rewrite !app_nil_r in E. subst b.
  apply app_inv_head in Hc. f_equal. auto.
Qed.
Lemma pieces_groups groups pieces : map zlen pieces = map zlen groups -> concat pieces = zrange 0 (zlen (concat groups)) ->
  map (map (znth 0 (concat groups))) pieces = groups.
Proof.
  intros Hl Hc. apply concat_inj.
  - rewrite map_map. rewrite (map_ext _ (@length Z)) by (intros; apply map_length).
    assert (E : map Z.to_nat (map zlen pieces) = map Z.to_nat (map zlen groups)) by congruence. rewrite !map_map in E.
    rewrite !(map_ext (fun x => Z.to_nat (zlen x)) (@length Z)) in E by (intros; unfold zlen; lia). auto.
  - rewrite <- concat_map, Hc. apply list_eq_znth with (d := 0).
    + rewrite zlen_map, zlen_zrange; [lia|apply zlen_nonneg].
    + rewrite zlen_map, zlen_zrange by apply zlen_nonneg. intros j Hj. rewrite znth_map_zrange by lia. reflexivity.
Qed.
Lemma combine_app {A B} (l1 : list A) (l1' : list B) l2 l2' : length l1 = length l1' ->
  combine (l1 ++ l2) (l1' ++ l2') = combine l1 l1' ++ combine l2 l2'.
Proof. revert l1'. induction l1 as [|a l1 IH]; intros [|b l1'] H; cbn in *; try discriminate; auto. f_equal. auto. Qed.
Lemma map_fst_combine {A B} (l : list A) (l' : list B) : length l = length l' -> map fst (combine l l') = l.
Proof. revert l'. induction l as [|a l IH]; intros [|b l'] H; cbn in *; try discriminate; auto. f_equal. auto. Qed.
Lemma map_snd_combine {A B} (l : list A) (l' : list B) : length l = length l' -> map snd (combine l l') = l'.
Proof. revert l'. induction l as [|a l IH]; intros [|b l'] H; cbn in *; try discriminate; auto. f_equal. auto. Qed.

Section Call.
  Context {K : Type} {OK : OrdRing K}.
  Notation C := (Cx K).
  Implicit Types h : heap K.

  (** ** gates *)
  Lemma gate_total g : forall h inputs nosink dagger, wf0 h -> (forall i, In i inputs -> (i < size h)%nat /\ 0 < nd_n (nd h i)) ->
    inputs <> [] -> gate_fits h g inputs -> exists h' id, new_gate h g inputs None nosink dagger = (h', Ok id).
  Proof.
    assert (Hsum : forall h inputs, (forall i, In i inputs -> (i < size h)%nat /\ 0 < nd_n (nd h i)) -> inputs <> [] -> 0 < sum_n h inputs).
    { intros h inputs Hi Hne. rewrite sum_n_widths. destruct inputs as [|a l]; [congruence|]. rewrite widths_cons.
      destruct (Hi a (or_introl eq_refl)) as [_ Ha]. unfold width.
      enough (0 <= widths h l) by lia. assert (Hl : forall i, In i l -> 0 < nd_n (nd h i)) by (intros i Hin; apply Hi; right; auto).
      clear - Hl. induction l as [|b l IH]; [cbn; lia|]. rewrite widths_cons. unfold width.
      pose proof (Hl b (or_introl eq_refl)). assert (0 <= widths h l) by (apply IH; intros; apply Hl; right; auto). lia. }
    assert (Simple : forall h o inputs nosink dagger qid, (forall i, In i inputs -> (i < size h)%nat /\ 0 < nd_n (nd h i)) -> inputs <> [] ->
      exists h' id, new_node h (KMat o dagger) inputs None qid nosink None = (h', Ok id)).
    { intros h o inputs nosink dagger qid Hi Hne. destruct (new_node_total h (KMat o dagger) inputs None qid nosink eq_refl) as (h' & E); eauto.
      specialize (Hsum h inputs Hi Hne). destruct inputs; [congruence|auto]. }
    induction g as [| | | | | |g IH ns]; intros h inputs nosink dagger W Hi Hne Hf; cbn [new_gate]; try (apply Simple; auto; fail).
    - destruct Hf as (a & b & -> & Eab).
      assert (exists h' id, new_node h (KMat (OSwap (nd_n (nd h a))) dagger) [a; b] None None nosink None = (h', Ok id)) as (h' & id & E) by (apply Simple; auto; discriminate).
      rewrite E. cbn [sbind]. assert (X : ext h h').
      { destruct (new_node_ok h (KMat (OSwap (nd_n (nd h a))) dagger) [a; b] None None nosink None h' (Ok id) W (fun i H => proj1 (Hi i H)) I (fun _ => eq_refl) E) as (_ & X & _). auto. }
      destruct (Hi a (or_introl eq_refl)) as [Ha _]. destruct (Hi b (or_intror (or_introl eq_refl))) as [Hb _].
      destruct (ext_fields h h' a X Ha) as (_ & _ & -> & _). destruct (ext_fields h h' b X Hb) as (_ & _ & -> & _).
      rewrite Eab, Z.eqb_refl. eauto.
    - destruct Hf as (c & rest & -> & Hr & Hc & Hd & Hg).
      assert (Hz : (zlen (c :: rest) <? 2) = false). { apply Z.ltb_ge. destruct rest; [congruence|]. rewrite !zlen_cons. pose proof (zlen_nonneg rest). lia. }
      rewrite Hz, Hc. cbn [negb Z.eqb]. change (1 =? 1) with true. cbn [negb]. rewrite (proj2 (repeated_NoDup _) Hd).
      destruct (IH h rest ns dagger W) as (h1 & id & E); auto; [intros i H; apply Hi; right; auto|]. rewrite E. cbn [sbind].
      destruct (new_gate_ok g h rest ns dagger h1 (Ok id) W) as (_ & X & _ & F); auto. { intros i H; apply Hi; right; auto. }
      destruct (F id eq_refl) as (_ & _ & -> & _). apply Simple; auto. intros i H. destruct (Hi i H) as [A B].
      destruct (ext_fields h h1 i X A) as (_ & _ & -> & _). destruct X. split; auto; lia.
  Qed.

  Lemma as_qubits_map l : as_qubits (map AQ l : list (arg K)) = Some l.
  Proof. induction l as [|a l IH]; cbn; auto. rewrite IH. auto. Qed.
  Lemma only_qubits_map l : only_qubits (map AQ l : list (arg K)) = l.
  Proof. induction l as [|a l IH]; cbn; auto. rewrite IH. auto. Qed.

  (** constructors that denote an op behave as the gates of the graph model *)
  Lemma denotes_gate cn c gs o : denotes cn c gs o -> exists g,
    (forall h l given, build cn h c (map AQ l) given = new_gate h g l None false false) /\
    forall h l, map (width h) l = map zlen gs -> NoDup l -> gs <> [] -> gate_fits h g l /\ gate_op h g l = o.
  Proof.
    induction 1 as [gs|gs|gs|gs|m gs|a b E|c a gs o Ha Hg HD IH].
    1-5: match goal with |- exists _, _ /\ forall _ _, _ -> _ -> _ -> _ /\ _ = ?o =>
      match o with ONot => exists GNot | OY => exists GY | OZ => exists GZ | OH ?x => exists (GH x) | OR ?e => exists (GR e) end end;
      (split; [intros h l given; cbn [build construct]; rewrite as_qubits_map; reflexivity|]; intros; split; [exact I|reflexivity]).
    - exists GSwap. split; [intros h l given; cbn [build construct]; rewrite as_qubits_map; reflexivity|].
      intros h l Hl Hd _. destruct l as [|x [|y [|z l]]]; cbn in Hl; try discriminate. injection Hl as Hx Hy. unfold width in *.
      split; [|cbn; congruence]. exists x, y. split; auto. congruence.
    - destruct IH as (g & IH1 & IH2). exists (GC g false). split.
      + intros h l given. cbn [build new_gate]. rewrite zlen_map. destruct l as [|q l]; [reflexivity|]. destruct (zlen (q :: l) <? 2); auto. cbn [map].
        destruct (negb (nd_n (nd h q) =? 1)); auto.
        unfold repeated_args. change (AQ q :: map AQ l) with (map AQ (q :: l) : list (arg K)). rewrite only_qubits_map, as_qubits_map. destruct (repeated (q :: l)); auto.
        rewrite IH1. reflexivity.
      + intros h l Hl Hd _. destruct l as [|q l]; cbn [map] in Hl; [discriminate|]. injection Hl as Hq Hl.
        inversion Hd; subst. destruct (IH2 h l Hl) as [F E]; auto. cbn [gate_fits gate_op tl]. split; [|congruence].
        exists q, l. unfold width in Hq. repeat split; auto; try congruence. destruct l; [destruct gs; [congruence|discriminate]|discriminate].
  Qed.

  (** ** split outputs are in creation order *)
  Lemma sinks_size self : forall l h h' r, sfold (fun h item => set_sink h item self) l h = (h', r) -> size h' = size h.
  Proof.
    induction l as [|i l IH]; intros h h' r E; cbn [sfold] in E; [inversion E; auto|].
    assert (Es : forall h1 r1, set_sink h i self = (h1, r1) -> size h1 = size h).
    { intros h1 r1 Es. unfold set_sink in Es. destruct (is_qubit _).
      - destruct (nd_sink (nd h i)) as [|s ss]; [inversion Es; apply size_add_sink|].
        destruct (nd_qid (nd h s) =? nd_qid (nd h self)); inversion Es; subst; auto. apply size_add_sink.
      - inversion Es. apply size_add_sink. }
    destruct (set_sink h i self) as [h1 [u|e]] eqn:E1; cbn [sbind] in E.
    - apply IH in E. specialize (Es _ _ eq_refl). congruence.
    - inversion E; subst. eauto.
  Qed.
  Lemma new_node_size h k inputs n qid nosink d h' id : new_node h k inputs n qid nosink d = (h', Ok id) ->
    id = size h /\ size h' = S (size h).
  Proof.
    unfold new_node. intros E.
    destruct (match d with Some (DList _) => _ | _ => _ end); [discriminate|]. destruct (_ <=? 0); [discriminate|].
    destruct qid as [q|]; cbv beta iota zeta in E.
    - destruct nosink; [inversion E; subst; rewrite size_snoc; auto|].
      destruct (sfold _ _ _) as [h1 [u|e]] eqn:Es; cbn [sbind] in E; inversion E; subst. apply sinks_size in Es. rewrite size_snoc in Es. auto.
    - destruct nosink; [inversion E; subst; rewrite size_snoc; auto|].
      destruct (sfold _ _ _) as [h1 [u|e]] eqn:Es; cbn [sbind] in E; inversion E; subst. apply sinks_size in Es. rewrite size_snoc in Es. auto.
  Qed.
  Lemma split_loop_sorted self : forall bounds h qid qs h' ids, split_loop h self bounds qid qs = (h', Ok ids) ->
    exists new, ids = qs ++ new /\ StronglySorted lt new /\ forall i, In i new -> (size h <= i)%nat.
  Proof.
    induction bounds as [|s [|e rest] IH]; intros h qid qs h' ids E; cbn [split_loop] in E.
    - inversion E; subst. exists []. rewrite app_nil_r. split; auto. split; [constructor|intros i []].
    - inversion E; subst. exists []. rewrite app_nil_r. split; auto. split; [constructor|intros i []].
    - unfold new_split in E. destruct (new_node _ _ _ _ _ _ _) as [h1 [sq|x]] eqn:E1; cbn [sbind] in E; [|discriminate].
      apply new_node_size in E1. destruct E1 as [-> Sz]. apply IH in E. destruct E as (new & -> & Hs & Hn).
      exists (size h :: new). split; [rewrite <- app_assoc; auto|]. split.
      + constructor; auto. apply Forall_forall. intros x Hx. apply Hn in Hx. lia.
      + intros i [<-|Hi]; auto. apply Hn in Hi. lia.
  Qed.

  (** ** one op on separate objects, then split *)
  Variable srcs : list nat.
  Lemma op_grow cn h vis c l gs o rest : circ srcs h vis (combine l gs ++ rest) -> length l = length gs -> denotes cn c gs o -> gs <> [] ->
    (forall g, In g gs -> g <> []) -> NoDup (concat gs) -> NoDup l ->
    exists h1 j h' vis' outs, (forall given, build cn h c (map AQ l) given = (h1, Ok j)) /\ split h1 j None = (h', Ok outs) /\ length outs = length gs /\
      moves h h' l outs /\ (forall i, In i outs -> (size h <= i)%nat) /\ grow srcs h vis (combine l gs ++ rest) h' vis' (combine outs gs ++ rest) (op_acts (widths h srcs) o gs).
  Proof.
    intros Ci Hlen HD Hne Hpos Hnd Hl. pose proof (built_wf _ _ (c_built _ _ _ _ Ci)) as W.
    destruct (denotes_gate cn c gs o HD) as (g & HB & HG).
    assert (Efst : map fst (combine l gs) = l) by (apply map_fst_combine; auto).
    assert (Esnd : map snd (combine l gs) = gs) by (apply map_snd_combine; auto).
    assert (Hw : map (width h) l = map zlen gs).
    { transitivity (map (width h) (map fst (combine l gs))); [rewrite Efst; auto|]. transitivity (map zlen (map snd (combine l gs))); [|rewrite Esnd; auto]. rewrite !map_map. apply map_ext_in. intros [q w] Hq. cbn [fst snd]. symmetry.
      apply (circ_len _ _ _ _ Ci). apply in_app_iff; auto. }
    destruct (HG h l Hw Hl Hne) as [HF HO].
    assert (Hin : forall i, In i l -> In i vis).
    { intros i Hi. apply (c_incl _ _ _ _ Ci). rewrite map_app, Efst. apply in_app_iff; auto. }
    assert (Hlp : forall i, In i l -> 0 < width h i).
    { intros i Hi. rewrite <- Efst in Hi. apply in_map_iff in Hi. destruct Hi as ([q w] & <- & Hq). cbn [fst].
      rewrite <- (circ_len _ _ _ _ Ci q w) by (apply in_app_iff; auto).
      assert (w <> []) by (apply Hpos; rewrite <- Esnd; apply in_map_iff; exists (q, w); auto).
      destruct w; [congruence|]. rewrite zlen_cons. pose proof (zlen_nonneg w). lia. }
    assert (Hlne : l <> []) by (destruct l; [destruct gs; [congruence|discriminate]|discriminate]).
    destruct (gate_total g h l false false (wf_base _ _ W)) as (h1 & j & E); auto.
    { intros i Hi. split; [apply (wf_vis _ _ W); auto|]. apply (Hlp i Hi). }
    destruct (new_gate_ok g h l false false h1 (Ok j) (wf_base _ _ W)) as (_ & X1 & _ & F); auto.
    { intros i Hi. apply (wf_vis _ _ W); auto. }
    destruct (F j eq_refl) as (F1 & F2 & F3 & F4 & _). rewrite HO in F3.
    pose proof (new_gate_touch _ _ _ _ _ _ _ _ E) as T1.
    assert (Hls : forall i, In i l -> (i < size h)%nat) by (intros i Hi; apply (wf_vis _ _ W); auto).
    assert (Ex : exec h (Gate g l false) = (h1, Ok [j])) by (cbn [exec]; rewrite E; reflexivity).
    assert (G1 : grow srcs h vis (combine l gs ++ rest) h1 (vis ++ [j]) ((j, concat gs) :: rest) (op_acts (widths h srcs) o gs)).
    { replace (concat gs) with (concat (map snd (combine l gs))) by (rewrite Esnd; auto). apply (node_grow srcs h vis (combine l gs) rest (Gate g l false) h1 j (KMat o false)); auto.
      - destruct l, gs; try congruence; discriminate.
      - lia.
      - unfold inputs_of. rewrite F4; auto.
      - right. exists o. rewrite Esnd. auto. }
    pose proof (grow_circ _ _ _ _ _ _ _ _ G1) as C1. pose proof (built_wf _ _ (c_built _ _ _ _ C1)) as W1.
    assert (Hj : In j (vis ++ [j])) by (apply in_app_iff; right; left; auto).
    destruct l as [|q [|q2 l]]; [congruence| |].
    - destruct gs as [|g0 [|]]; cbn in Hlen; try discriminate.
      exists h1, j, h1, (vis ++ [j]), [j]. split; [intros; rewrite HB; auto|]. split; [eapply split_one; eauto|]. split; auto. split.
      { split; [intros; apply T1; auto|]. intros x [<-|[]]. rewrite T1; [apply nd_beyond; lia|]. intros Hi. apply Hls in Hi. lia. }
      split; [intros i [<-|[]]; lia|].
      cbn [combine concat] in *. rewrite app_nil_r in G1. exact G1.
    - destruct (split_inputs h1 (vis ++ [j]) j W1 Hj) as (h' & ids & pieces & Es & Sel & Hge & Hz & Hc).
      { unfold inputs_of. rewrite F4. cbn. lia. }
      { unfold inputs_of. rewrite F4. intros i Hi. unfold width. destruct (ext_fields h h1 i X1) as (_ & _ & -> & _); [apply (wf_vis _ _ W); auto|]. apply Hlp; auto. }
      assert (Hj_len : zlen (concat gs) = width h1 j) by (apply (circ_len _ _ _ _ C1); left; auto).
      assert (Hzl : map zlen pieces = map zlen gs).
      { rewrite Hz. unfold inputs_of. rewrite F4. rewrite <- Hw. apply map_ext_in. intros i Hi. apply ext_width; auto. }
      assert (Hl2 : length ids = length gs).
      { rewrite <- (map_length zlen gs), <- Hzl, map_length. clear - Sel. induction Sel; cbn; auto. }
      exists h1, j, h', ((vis ++ [j]) ++ ids), ids. split; [intros; rewrite HB; auto|]. split; auto. split; auto. split.
      { pose proof (split_touch _ _ _ _ _ Es) as T2. split.
        - intros x Hx Hnx. rewrite T2 by lia. apply T1; auto.
        - intros x Hx. apply Hge in Hx. rewrite T2 by lia. rewrite T1; [apply nd_beyond; lia|]. intros Hi. apply Hls in Hi. lia. }
      split; [intros i Hi; apply Hge in Hi; lia|].
      replace (combine ids gs) with (combine ids (map (map (znth 0 (concat gs))) pieces)) by (rewrite (pieces_groups gs pieces); auto; rewrite Hc, Hj_len; auto).
      eapply (grow_ext _ _ _ _ _ _ _ (fun v => op_acts (widths h srcs) o gs v)); [|intros v r _; reflexivity].
      eapply (grow_trans srcs h vis _ h1 _ _ h' _ _ (op_acts (widths h srcs) o gs) (fun v => v)); eauto.
      eapply (split_grow srcs h1 (vis ++ [j]) j (concat gs) rest (Split j None)); eauto.
      + unfold split in Es. destruct (split_bounds h1 j None) as [bd|] eqn:Eb.
        * apply split_loop_sorted in Es. destruct Es as (new & -> & Hs & _). auto.
        * inversion Es; subst. constructor; constructor.
      + destruct ids; [destruct gs; [congruence|discriminate]|discriminate].
      + rewrite Hc, Hj_len. intros p Hp. apply in_zrange in Hp. auto.
  Qed.
End Call.
