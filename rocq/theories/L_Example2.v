(** Calls of ops outside of contexts, on circuits. *)
From Coq Require Import Sorted.
From Verif Require Import Base S_Bits L_Bits M_Kron S_Kron M_Ops S_Ops M_Feed S_Feed M_Func S_Func L_Func2
  M_Measure S_Measure L_Alg M_Graph S_Graph L_Graph1 L_Graph2 L_Graph3 L_Graph5 L_Graph6 L_Graph7 L_Graph8 L_Graph9 L_Graph10 L_Graph11
  M_Context S_Context L_Sinks L_Grow1 L_Grow2 L_Context1 L_Context2 L_Context3 L_Context4 L_Context6 L_Context7 M_Examples L_Example1.

Section Calls.
  Context {K : Type} {OK : OrdRing K}.
  Notation C := (Cx K).
  Variable srcs : list nat.

  (** a world outside of contexts *)
  Definition plain (w : world K) : Prop := w_stack w = [] /\ w_total w = 0.

  Lemma circ_pos (h : heap K) vis l gs rest : circ srcs h vis (combine l gs ++ rest) -> length l = length gs -> (forall g, In g gs -> g <> []) ->
    forall i, In i l -> (i < size h)%nat /\ 0 < width h i.
  Proof.
    intros Ci Hl Hp i Hi. pose proof (built_wf _ _ (c_built _ _ _ _ Ci)) as W.
    assert (exists g, In (i, g) (combine l gs)) as (g & Hg).
    { clear - Hi Hl. revert gs Hl. induction l as [|a l IH]; intros [|g gs] Hl; cbn in *; try discriminate; [destruct Hi|].
      destruct Hi as [->|Hi]; [exists g; auto|]. injection Hl as Hl. destruct (IH Hi gs Hl) as (g' & H); eauto. }
    split.
    - apply (wf_vis _ _ W), (c_incl _ _ _ _ Ci). apply in_map_iff. exists (i, g). split; auto. apply in_app_iff; auto.
    - rewrite <- (circ_len _ _ _ _ Ci i g) by (apply in_app_iff; auto). apply in_combine_r in Hg. specialize (Hp g Hg).
      destruct g; [congruence|]. rewrite zlen_cons. pose proof (zlen_nonneg g). lia.
  Qed.

  (** the op is built on the arguments and its outputs returned *)
  Lemma call_plain cn (w : world K) vis c qs gs o rest : plain w -> circ srcs (w_heap w) vis (combine qs gs ++ rest) -> length qs = length gs ->
    denotes cn c gs o -> gs <> [] -> (forall g, In g gs -> g <> []) -> NoDup (concat gs) ->
    exists w' vis' outs, call_op cn w c (map AQ qs) no_kw = (w', Ok outs) /\ plain w' /\ length outs = length gs /\
      new_outputs (w_heap w) (w_heap w') qs outs /\
      grow srcs (w_heap w) vis (combine qs gs ++ rest) (w_heap w') vis' (combine outs gs ++ rest) (op_acts (widths (w_heap w) srcs) o gs).
  Proof.
    intros [P1 P2] Ci Hl HD Hne Hp Hnd.
    destruct (call_grow srcs cn w vis [] [] c qs gs o rest no_kw) as (w' & vis' & ctl' & outs & E & (S1 & S2 & S3) & Hw & L1 & L2 & _ & _ & G); auto.
    { split; [rewrite P1|rewrite P2]; reflexivity. } { intros g []. }
    destruct ctl'; [|discriminate]. cbn [combine app concat] in G.
    assert (P1' : w_stack w' = []) by (rewrite P1 in S1; destruct (w_stack w'); [auto|discriminate]).
    exists w', vis', outs. split; auto. split; [split; [auto|congruence]|]. split; auto. split.
    - destruct (call_weave cn w c qs no_kw w' outs) as (L & ids & W1 & W2 & W3 & _); rewrite ?P1; auto.
      + exact I.
      + destruct qs, gs; cbn in Hl; try discriminate; congruence.
      + intros i [Hi|[]]. eapply circ_pos; eauto.
      + rewrite P1, P1' in *. cbn in W1, W3. inversion W1; subst. inversion W3; subst. auto.
    - eapply grow_ext; [exact G|]. intros v r _. reflexivity.
  Qed.

  Lemma fnode_grow h vis a b ga gb rest func f h' j : circ srcs h vis ((a, ga) :: (b, gb) :: rest) ->
    exec h (Fun func a b) = (h', Ok [j]) -> (size h <= j < size h')%nat -> inputs_of h' j = [a; b] -> nd_kind (nd h' j) = KF func ->
    NoDup (ga ++ gb) -> (forall x, 0 <= x < 2 ^ zlen ga -> func x = Ok (f x)) ->
    let n := widths h srcs in
    zlen (others n ga gb) = zlen gb \/ others n ga gb = [] ->
    grow srcs h vis ((a, ga) :: (b, gb) :: rest) h' (vis ++ [j]) ((j, ga ++ gb) :: rest) (fun v r => v (fxor n ga gb f r)).
  Proof.
    intros Ci E Hj Hi Hk Hnd Hf n Ho. set (ps := [(a, ga); (b, gb)]). change ((a, ga) :: (b, gb) :: rest) with (ps ++ rest) in *.
    pose proof (built_wf _ _ (c_built _ _ _ _ Ci)) as W.
    assert (Hr : incl (call_refs (K := K) (Fun func a b)) vis).
    { intros x Hx. apply (c_incl _ _ _ _ Ci). rewrite map_app. apply in_app_iff; auto. }
    destruct (exec_wf h vis _ h' (Ok [j]) W Hr E) as (W0' & X & HW). specialize (HW [j] eq_refl).
    assert (Hps : incl ps (ps ++ rest)) by (apply incl_appl, incl_refl).
    assert (Hab : forall x, In x [a; b] -> (x < size h)%nat) by (intros x Hx; apply (wf_vis _ _ W), Hr; auto).
    assert (HF : Forall2 (wires h' srcs) [a; b] [ga; gb]).
    { apply (Forall2_iff_in (wires h srcs)); [|exact (circ_Forall2 _ _ _ _ Ci ps Hps)].
      intros x y Hx. apply (wires_ext srcs h h' (wf_base _ _ W) X (fun s => circ_srcs _ _ _ _ Ci s)). auto. }
    assert (HFun : forall gs, Forall2 (wires h' srcs) [a; b] gs -> gs = [ga; gb]).
    { intros gs Hgs. apply (circ_F2fun _ _ _ _ Ci ps Hps gs). apply (Forall2_iff_in (wires h srcs) (wires h' srcs)); auto.
      intros x y Hx. apply (wires_ext srcs h h' (wf_base _ _ W) X (fun s => circ_srcs _ _ _ _ Ci s)). auto. }
    assert (Hrange : forall q, In q (ga ++ gb) -> 0 <= q < n).
    { intros q Hq. apply in_app_iff in Hq. destruct Hq as [Hq|Hq]; eapply (circ_range _ _ _ _ Ci); try exact Hq; apply Hps; cbn; auto. }
    assert (Hn : 0 <= n) by exact (circ_n _ _ _ _ Ci).
    eapply grow_step; eauto.
    - constructor; constructor.
    - intros i [<-|[]]; auto.
    - apply (anc_grow h h' vis); auto; [apply Ci|..].
      + intros i [<-|[]]. rewrite Hi, map_app. apply incl_appl, incl_refl.
      + cbn [map fst]. intros x [<-|Ha]; [right; left; auto|left]. rewrite map_app. apply in_app_iff; auto.
      + intros i [<-|[]]. left; auto.
      + intros x. rewrite map_app, in_app_iff. intros [Ha|Ha]; [|left; right; auto].
        right. exists j. split; [left; auto|]. rewrite Hi. auto.
    - intros i [<-|[]]. split; [rewrite Hi; discriminate|]. rewrite Hk. split; [discriminate|]. split; [|split; discriminate].
      unfold node_ok. rewrite Hk, Hi. split; [discriminate|]. split.
      + intros gs Hgs. rewrite (HFun gs Hgs). cbn [concat]. rewrite app_nil_r. auto.
      + intros r1 r2 Hgs. specialize (HFun _ Hgs). inversion HFun; subst. split; auto. exists f. auto.
    - cbn [map fst]. intros x [<-|Ha]; apply in_app_iff; [right; left; auto|left].
      apply (c_incl _ _ _ _ Ci). rewrite map_app. apply in_app_iff; auto.
    - intros q g [Hq|Hq].
      + inversion Hq; subst q g. replace (ga ++ gb) with (concat [ga; gb]) by (cbn; rewrite app_nil_r; auto).
        apply wires_keep; [rewrite Hk; discriminate|rewrite Hi; discriminate|rewrite Hi; auto].
      + apply (wires_ext srcs h h' (wf_base _ _ W) X (fun s => circ_srcs _ _ _ _ Ci s)).
        * apply (wf_vis _ _ W), (c_incl _ _ _ _ Ci). rewrite map_app. apply in_app_iff; right.
          apply in_map_iff. exists (q, g); auto.
        * apply (c_wires _ _ _ _ Ci), in_app_iff; auto.
    - intros v v' Hv r Hr'. apply Hv. apply fxor_range; auto.
    - intros rs v. cbn [zeros map]. econstructor; [rewrite Hi; exact HF| |apply evolves_nil; intros; reflexivity].
      rewrite Hk. apply (sem_f _ _ _ _ _ func f ga gb); auto. intros x Hx. fold n. rewrite fxor_invol; auto. split; auto.
  Qed.

  (** F on two registers that leave no other qubits, or as many as the second has *)
  Lemma f_grow_parts cn (w : world K) vis a b ga gb func f rest : plain w -> circ srcs (w_heap w) vis ((a, ga) :: (b, gb) :: rest) ->
    ga <> [] -> gb <> [] -> NoDup (ga ++ gb) -> (forall x, 0 <= x < 2 ^ zlen ga -> func x = Ok (f x)) ->
    let n := widths (w_heap w) srcs in
    zlen (others n ga gb) = zlen gb \/ others n ga gb = [] ->
    exists w' vis' a' b', call_op cn w (Wrap BF no_kw) [AFun func; AQ a; AQ b] no_kw = (w', Ok [a'; b']) /\ plain w' /\
      grow srcs (w_heap w) vis ((a, ga) :: (b, gb) :: rest) (w_heap w') vis' ((a', ga) :: (b', gb) :: rest) (fun v r => v (fxor n ga gb f r)) /\
      exists j, (j < a')%nat /\ inputs_of (w_heap w') a' = [j] /\ inputs_of (w_heap w') b' = [j] /\ (a' <> b') /\ exists ix, nd_kind (nd (w_heap w') b') = KSplit ix.
  Proof.
    intros [P1 P2] Ci Hga Hgb Hnd Hf n Ho. set (h := w_heap w) in *.
    pose proof (built_wf _ _ (c_built _ _ _ _ Ci)) as W.
    assert (Hpos : forall x, In x [a; b] -> (x < size h)%nat /\ 0 < width h x).
    { apply (circ_pos h vis [a; b] [ga; gb] rest); auto. intros g [<-|[<-|[]]]; auto. }
    destruct (new_node_total h (KF func) [a; b] None None false eq_refl) as (h1 & E).
    { rewrite sum_n_widths, !widths_cons. change (widths h []) with 0. destruct (Hpos a), (Hpos b); cbn; auto. lia. }
    assert (Ex : exec h (Fun func a b) = (h1, Ok [size h])) by (cbn [exec]; unfold new_f; rewrite E; reflexivity).
    assert (Hr : incl [a; b] vis) by (intros x Hx; apply (c_incl _ _ _ _ Ci); destruct Hx as [<-|[<-|[]]]; cbn; auto).
    assert (Hj : (size h < size h1)%nat /\ inputs_of h1 (size h) = [a; b] /\ nd_kind (nd h1 (size h)) = KF func).
    { destruct (new_node_ok h (KF func) [a; b] None None false None h1 (Ok (size h)) (wf_base _ _ W)) as (_ & _ & _ & _ & _ & F); auto.
      - intros x Hx. apply Hpos; auto.
      - exact I.
      - intros _; reflexivity.
      - destruct (F _ eq_refl) as (_ & S1 & A & B & _). split; [lia|]. auto. }
    destruct Hj as (Hj & Hi & Hk).
    pose proof (fnode_grow h vis a b ga gb rest func f h1 (size h) Ci Ex ltac:(lia) Hi Hk Hnd Hf Ho) as G1. fold n in G1.
    pose proof (grow_circ _ _ _ _ _ _ _ _ G1) as C1. pose proof (built_wf _ _ (c_built _ _ _ _ C1)) as W1.
    assert (X1 : ext h h1) by apply G1.
    assert (Hjv : In (size h) (vis ++ [size h])) by (apply in_app_iff; right; left; auto).
    destruct (split_inputs h1 (vis ++ [size h]) (size h) W1 Hjv) as (h' & ids & pieces & Es & Sel & Hge & Hz & Hc).
    { rewrite Hi. cbn. lia. }
    { rewrite Hi. intros i Hin. destruct (Hpos i Hin). rewrite (ext_width h h1); auto. }
    assert (Hj_len : zlen (ga ++ gb) = width h1 (size h)) by (apply (circ_len _ _ _ _ C1); left; auto).
    assert (Hzl : map zlen pieces = map zlen [ga; gb]).
    { rewrite Hz, Hi. cbn [map]. pose proof (circ_len _ _ _ _ Ci a ga) as L1. pose proof (circ_len _ _ _ _ Ci b gb) as L2.
      rewrite L1, L2 by (cbn; auto). destruct (Hpos a), (Hpos b); cbn; auto. rewrite !(ext_width h h1); auto. }
    assert (Hl2 : length ids = 2%nat).
    { assert (length pieces = 2%nat) as <- by (rewrite <- (map_length zlen), Hzl; auto). clear - Sel. induction Sel; cbn; auto. }
    destruct ids as [|a' [|b' [|]]]; try discriminate.
    exists (set_heap w h'), ((vis ++ [size h]) ++ [a'; b']), a', b'. split.
    { unfold call_op, apply_in_context. rewrite P1. cbn [build construct new_f call_kwargs]. unfold new_f. fold h. rewrite E.
      cbn [on_heap fst snd sbind set_heap w_heap]. rewrite Es. reflexivity. }
    split; [split; auto|]. cbn [set_heap w_heap].
    assert (Hs : StronglySorted lt [a'; b']).
    { unfold split in Es. destruct (split_bounds h1 (size h) None) as [bd|] eqn:Eb; [|discriminate].
      apply split_loop_sorted in Es. destruct Es as (new & -> & Hs & _). auto. }
    split; [|exists (size h); inversion Sel as [|pa ia la ja Sa Sel']; subst; inversion Sel' as [|pb ib lb jb Sb _]; subst;
      destruct Sa as (Sa1 & Sa2 & _), Sb as (Sb1 & Sb2 & _); inversion Hs as [|? ? _ HF]; subst; inversion HF; subst;
      assert (size h1 <= a')%nat by (apply Hge; left; auto); split; [lia|]; split; auto; split; auto; split; [lia|eauto]].
    change ((a', ga) :: (b', gb) :: rest) with (combine [a'; b'] [ga; gb] ++ rest).
    replace (combine [a'; b'] [ga; gb]) with (combine [a'; b'] (map (map (znth 0 (ga ++ gb))) pieces)).
    2: { f_equal. pose proof (pieces_groups [ga; gb] pieces) as PG. cbn [concat] in PG. rewrite app_nil_r in PG. apply PG; auto. rewrite Hc, Hj_len. auto. }
    eapply (grow_ext _ _ _ _ _ _ _ (fun v => (fun v r => v (fxor n ga gb f r)) v)); [|intros v r _; reflexivity].
    eapply (grow_trans srcs h vis _ h1 _ _ h' _ _ (fun v r => v (fxor n ga gb f r)) (fun v => v)); eauto.
    eapply (split_grow srcs h1 (vis ++ [size h]) (size h) (ga ++ gb) rest (Split (size h) None)); eauto.
    - discriminate.
    - rewrite Hc, Hj_len. intros p Hp. apply in_zrange in Hp. auto.
  Qed.
  Lemma f_grow cn (w : world K) vis a b ga gb func f rest : plain w -> circ srcs (w_heap w) vis ((a, ga) :: (b, gb) :: rest) ->
    ga <> [] -> gb <> [] -> NoDup (ga ++ gb) -> (forall x, 0 <= x < 2 ^ zlen ga -> func x = Ok (f x)) ->
    let n := widths (w_heap w) srcs in
    zlen (others n ga gb) = zlen gb \/ others n ga gb = [] ->
    exists w' vis' a' b', call_op cn w (Wrap BF no_kw) [AFun func; AQ a; AQ b] no_kw = (w', Ok [a'; b']) /\ plain w' /\
      grow srcs (w_heap w) vis ((a, ga) :: (b, gb) :: rest) (w_heap w') vis' ((a', ga) :: (b', gb) :: rest) (fun v r => v (fxor n ga gb f r)).
  Proof.
    intros H1 H2 H3 H4 H5 H6 n H7. destruct (f_grow_parts cn w vis a b ga gb func f rest H1 H2 H3 H4 H5 H6 H7) as (w' & vis' & a' & b' & A & B & D & _).
    exists w', vis', a', b'. auto.
  Qed.
End Calls.
