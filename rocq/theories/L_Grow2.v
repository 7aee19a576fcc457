(** Growing a circuit by one gate, one merge or one split. *)
From Coq Require Import Sorted.
From Verif Require Import Base S_Bits L_Bits M_Kron S_Kron M_Ops S_Ops M_Feed S_Feed M_Func S_Func
  M_Measure S_Measure L_Alg M_Graph S_Graph L_Graph1 L_Graph2 L_Graph3 L_Graph5 L_Graph6 L_Graph7 L_Graph8 L_Graph9 L_Graph10 L_Graph11 L_Grow1.

Section Grow2.
  Context {K : Type} {OK : OrdRing K}.
  Notation C := (Cx K).
  Implicit Types h : heap K.
  Variable srcs : list nat.

  Lemma anc_grow h h' vis args args' ids : wf h vis -> incl args vis -> ext h h' ->
    (forall i, In i ids -> incl (inputs_of h' i) args) ->
    (forall a, In a args' -> In a args \/ In a ids) -> incl ids args' ->
    (forall a, In a args -> In a args' \/ exists i, In i ids /\ In a (inputs_of h' i)) ->
    forall i, ancestor h' args' i <-> ancestor h args i \/ In i ids.
  Proof.
    intros W Ha X Hin Hnew Hids Hold.
    assert (Hsz : forall i, ancestor h args i -> (i < size h)%nat) by (intros i Hi; eapply anc_size; eauto).
    split.
    - induction 1 as [i Hi|i j Hi IH Hj].
      + destruct (Hnew i Hi); auto. left. apply anc_arg; auto.
      + destruct IH as [IH|IH].
        * left. eapply anc_input; eauto. rewrite (ext_inputs h h') in Hj; auto.
        * left. apply anc_arg. apply (Hin i IH); auto.
    - intros [Hi|Hi]; [|apply anc_arg; auto]. induction Hi as [i Hi|i j Hi IH Hj].
      + destruct (Hold i Hi) as [H|(k & Hk & H)]; [apply anc_arg; auto|]. eapply anc_input; eauto. apply anc_arg; auto.
      + eapply anc_input; eauto. rewrite (ext_inputs h h'); auto.
  Qed.

  Lemma grow_step h vis lg c h' ids lg' U : circ srcs h vis lg -> incl (call_refs c) vis -> exec h c = (h', Ok ids) ->
    StronglySorted lt ids -> (forall i, In i ids -> (size h <= i < size h')%nat) ->
    (forall i, ancestor h' (map fst lg') i <-> ancestor h (map fst lg) i \/ In i ids) ->
    (forall i, In i ids -> inputs_of h' i <> [] /\ nd_kind (nd h' i) <> KMeasure /\ node_ok h' srcs (widths h srcs) i /\
       (forall idx k, nd_kind (nd h' i) = KSplit idx -> In k idx -> 0 <= k < widths h' (inputs_of h' i)) /\
       (forall o, nd_kind (nd h' i) <> KMat o true)) ->
    incl (map fst lg') (vis ++ ids) ->
    (forall q g, In (q, g) lg' -> wires h' srcs q g) ->
    (forall v v', eqn (widths h srcs) v v' -> eqn (widths h srcs) (U v) (U v')) ->
    (forall rs v, evolves rs h' srcs (widths h srcs) (zeros ids) v (U v)) ->
    grow srcs h vis lg h' (vis ++ ids) lg' U.
  Proof.
    intros Ci Hr E Hs Hid HA Hnode Hv Hw HU Hev. pose proof (built_wf _ _ (c_built _ _ _ _ Ci)) as W.
    destruct (exec_wf h vis c h' (Ok ids) W Hr E) as (W0' & X & HW). specialize (HW ids eq_refl).
    assert (EW : widths h' srcs = widths h srcs) by (apply ext_widths; auto; intros i; apply (circ_srcs _ _ _ _ Ci)).
    split.
    { split.
      - eapply built_ok; eauto. apply Ci.
      - auto.
      - intros i idx k Hi Hk Hin. apply in_app_iff in Hi. destruct Hi as [Hi|Hi]; [|eapply Hnode; eauto].
        pose proof (wf_vis _ _ W i Hi) as Hl. rewrite (ext_kind h h') in Hk by auto. rewrite (ext_inputs h h') by auto.
        rewrite (ext_widths h h'); auto; [eapply (c_split _ _ _ _ Ci); eauto|].
        intros j Hj. apply (wf_vis _ _ W), (wf_closed _ _ W i); auto.
      - intros i o Hi Hk. apply in_app_iff in Hi. destruct Hi as [Hi|Hi]; [|exfalso; eapply Hnode; eauto].
        pose proof (wf_vis _ _ W i Hi) as Hl. rewrite (ext_kind h h') in Hk by auto. eapply (c_swap _ _ _ _ Ci); eauto.
      - destruct (c_src _ _ _ _ Ci) as [S1 S2]. split; auto. intros i. rewrite S2, HA. split.
        + intros [A B]. split; auto. rewrite (ext_inputs h h'); auto. eapply circ_size; eauto.
        + intros [[A|A] B].
          * split; auto. rewrite (ext_inputs h h') in B; auto. eapply circ_size; eauto.
          * destruct (Hnode i A) as [Hne _]. congruence.
      - intros i Hi. apply HA in Hi. rewrite EW. destruct Hi as [Hi|Hi].
        + apply (node_ok_ext srcs h h' (wf_base _ _ W) X (fun s => circ_srcs _ _ _ _ Ci s)); [eapply circ_size; eauto|].
          apply (c_ok _ _ _ _ Ci). auto.
        + apply Hnode. auto.
      - auto. }
    split; auto. split; [apply incl_appl, incl_refl|]. split; [intros; eapply session_call; eauto|]. split; auto.
    exists ids. split; auto. split; auto. split; auto. split; [|auto]. intros i Hi. destruct (Hnode i Hi) as (A & B & _). auto.
  Qed.

  (** ** one node that takes some of the objects *)
  Lemma node_grow h vis ps rest c h' j k U : circ srcs h vis (ps ++ rest) -> call_refs c = map fst ps -> ps <> [] ->
    exec h c = (h', Ok [j]) -> (size h <= j < size h')%nat -> inputs_of h' j = map fst ps -> nd_kind (nd h' j) = k ->
    (k = KQubit /\ U = (fun v => v) \/ exists o, k = KMat o false /\ NoDup (concat (map snd ps)) /\ U = op_acts (widths h srcs) o (map snd ps)) ->
    grow srcs h vis (ps ++ rest) h' (vis ++ [j]) ((j, concat (map snd ps)) :: rest) U.
  Proof.
    intros Ci Hc Hne E Hj Hi Hk HU. pose proof (built_wf _ _ (c_built _ _ _ _ Ci)) as W.
    assert (Hr : incl (call_refs c) vis).
    { rewrite Hc. intros x Hx. apply (c_incl _ _ _ _ Ci). rewrite map_app. apply in_app_iff; auto. }
    destruct (exec_wf h vis c h' (Ok [j]) W Hr E) as (W0' & X & HW). specialize (HW [j] eq_refl).
    assert (Hps : incl ps (ps ++ rest)) by (apply incl_appl, incl_refl).
    assert (HF : Forall2 (wires h' srcs) (map fst ps) (map snd ps)).
    { apply (Forall2_iff_in (wires h srcs)); [|eapply circ_Forall2; eauto].
      intros a b Ha. apply (wires_ext srcs h h' (wf_base _ _ W) X (fun s => circ_srcs _ _ _ _ Ci s)).
      apply (wf_vis _ _ W), Hr. rewrite Hc. auto. }
    assert (HFun : forall gs, Forall2 (wires h' srcs) (map fst ps) gs -> gs = map snd ps).
    { intros gs Hgs. apply (circ_F2fun _ _ _ _ Ci ps); auto. apply (Forall2_iff_in (wires h srcs) (wires h' srcs)); auto.
      intros a b Ha. apply (wires_ext srcs h h' (wf_base _ _ W) X (fun s => circ_srcs _ _ _ _ Ci s)).
      apply (wf_vis _ _ W), Hr. rewrite Hc. auto. }
    assert (Hne' : inputs_of h' j <> []) by (rewrite Hi; destruct ps; [congruence|discriminate]).
    eapply grow_step; eauto.
    - constructor; constructor.
    - intros i [<-|[]]; auto.
    - apply (anc_grow h h' vis); auto; [apply Ci|..].
      + intros i [<-|[]]. rewrite Hi, map_app. apply incl_appl, incl_refl.
      + cbn [map fst]. intros a [<-|Ha]; [right; left; auto|left]. rewrite map_app. apply in_app_iff; auto.
      + intros i [<-|[]]. left; auto.
      + intros a. rewrite map_app, in_app_iff. intros [Ha|Ha]; [|left; right; auto].
        right. exists j. split; [left; auto|]. rewrite Hi. auto.
    - intros i [<-|[]]. split; auto. rewrite Hk. unfold node_ok. rewrite Hk.
      destruct HU as [[-> _]|(o & -> & Hd & _)].
      + split; [discriminate|]. split; [exact I|]. split; discriminate.
      + split; [discriminate|]. split; [|split; discriminate]. split; auto. split; auto. intros gs Hgs. rewrite Hi in Hgs.
        apply HFun in Hgs. subst gs. auto.
    - cbn [map fst]. intros a [<-|Ha]; apply in_app_iff; [right; left; auto|left].
      apply (c_incl _ _ _ _ Ci). rewrite map_app. apply in_app_iff; auto.
    - intros q g [Hq|Hq].
      + inversion Hq; subst q g. apply wires_keep; auto; [|rewrite Hi; auto].
        rewrite Hk. destruct HU as [[-> _]|(o & -> & _)]; discriminate.
      + apply (wires_ext srcs h h' (wf_base _ _ W) X (fun s => circ_srcs _ _ _ _ Ci s)).
        * apply (wf_vis _ _ W), (c_incl _ _ _ _ Ci). rewrite map_app. apply in_app_iff; right.
          apply in_map_iff. exists (q, g); auto.
        * apply (c_wires _ _ _ _ Ci), in_app_iff; auto.
    - destruct HU as [[-> ->]|(o & -> & Hd & ->)]; auto. intros v v' Hv. unfold eqn. apply op_acts_ext; [apply (circ_n _ _ _ _ Ci)| |auto].
      intros q Hq. apply in_concat in Hq. destruct Hq as (g & Hg & Hq). apply in_map_iff in Hg. destruct Hg as ([q' g'] & Eg & Hin).
      cbn [snd] in Eg. subst g'. eapply (circ_range _ _ _ _ Ci); [apply Hps|]; eauto.
    - intros rs v. cbn [zeros map]. econstructor; [rewrite Hi; exact HF| |apply evolves_nil; auto].
      rewrite Hk. destruct HU as [[-> ->]|(o & -> & Hd & ->)]; constructor; auto.
  Qed.

  (** ** splitting one object *)
  Lemma split_grow h vis self w rest c h' ids pieces : circ srcs h vis ((self, w) :: rest) -> call_refs c = [self] ->
    exec h c = (h', Ok ids) -> Forall2 (selects h' self) pieces ids -> StronglySorted lt ids ->
    (forall i, In i ids -> (size h <= i)%nat) -> ids <> [] -> (forall p, In p (concat pieces) -> 0 <= p < zlen w) ->
    grow srcs h vis ((self, w) :: rest) h' (vis ++ ids) (combine ids (map (map (znth 0 w)) pieces) ++ rest) (fun v => v).
  Proof.
    intros Ci Hc E HF Hs Hge Hne Hp. pose proof (built_wf _ _ (c_built _ _ _ _ Ci)) as W.
    assert (Hself : In self vis) by (apply (c_incl _ _ _ _ Ci); left; auto).
    assert (Hr : incl (call_refs c) vis) by (rewrite Hc; intros x [<-|[]]; auto).
    destruct (exec_wf h vis c h' (Ok ids) W Hr E) as (W0' & X & HW). specialize (HW ids eq_refl).
    assert (Hsel : forall i, In i ids -> exists p, In p pieces /\ selects h' self p i).
    { clear - HF. induction HF as [|p i ps is_ H HF IH]; intros x Hx; [destruct Hx|]. destruct Hx as [<-|Hx].
      - exists p. split; auto. left; auto.
      - destruct (IH x Hx) as (p' & A & B). exists p'. split; auto. right; auto. }
    assert (Hww : wires h' srcs self w).
    { apply (wires_ext srcs h h' (wf_base _ _ W) X (fun s => circ_srcs _ _ _ _ Ci s)); [apply (wf_vis _ _ W); auto|].
      apply (c_wires _ _ _ _ Ci). left; auto. }
    assert (Hlen : zlen w = width h' self).
    { rewrite (circ_len _ _ _ _ Ci self w) by (left; auto). symmetry. apply ext_width; auto. apply (wf_vis _ _ W); auto. }
    assert (HFw : Forall2 (wires h' srcs) ids (map (map (znth 0 w)) pieces)) by (eapply pieces_wires; eauto).
    assert (Hfst : map fst (combine ids (map (map (znth 0 w)) pieces)) = ids).
    { clear - HF. induction HF; cbn [map combine fst]; congruence. }
    eapply grow_step; eauto.
    - intros i Hi. split; auto. apply (wf_vis _ _ HW). apply in_app_iff; auto.
    - rewrite map_app, Hfst. apply (anc_grow h h' vis); auto; [apply Ci|..].
      + intros i Hi. destruct (Hsel i Hi) as (p & _ & _ & -> & _). cbn [map fst]. intros x [<-|[]]; left; auto.
      + cbn [map fst]. intros a Ha. apply in_app_iff in Ha. destruct Ha; auto. left; right; auto.
      + apply incl_appl, incl_refl.
      + cbn [map fst]. intros a [<-|Ha]; [|left; apply in_app_iff; auto]. right. destruct ids as [|i ids']; [congruence|].
        exists i. split; [left; auto|]. destruct (Hsel i (or_introl eq_refl)) as (p & _ & _ & -> & _). left; auto.
    - intros i Hi. destruct (Hsel i Hi) as (p & Hpi & Hk & Hin & _). rewrite Hin. split; [discriminate|]. rewrite Hk. split; [discriminate|].
      split; [unfold node_ok; rewrite Hk; exact I|]. split; [|discriminate]. intros idx k Ek Hki. inversion Ek; subst idx.
      rewrite widths_cons. change (widths h' []) with 0. rewrite <- Hlen, Z.add_0_r. apply Hp. apply in_concat. eauto.
    - rewrite map_app, Hfst. intros a Ha. apply in_app_iff in Ha. apply in_app_iff. destruct Ha; auto. left.
      apply (c_incl _ _ _ _ Ci). right; auto.
    - intros q g Hq. apply in_app_iff in Hq. destruct Hq as [Hq|Hq].
      + clear - HFw Hq. revert Hq. induction HFw; cbn [combine]; intros Hq; [destruct Hq|]. destruct Hq as [Hq|Hq]; auto. inversion Hq; subst; auto.
      + apply (wires_ext srcs h h' (wf_base _ _ W) X (fun s => circ_srcs _ _ _ _ Ci s)).
        * apply (wf_vis _ _ W), (c_incl _ _ _ _ Ci). right. apply in_map_iff. exists (q, g); auto.
        * apply (c_wires _ _ _ _ Ci). right; auto.
    - intros rs v. assert (Hsub : forall l, incl l ids -> evolves rs h' srcs (widths h srcs) (zeros l) v v).
      { induction l as [|i l IH]; intros Hl; cbn [zeros map]; [constructor; auto|].
        destruct (Hsel i (Hl i (or_introl eq_refl))) as (p & _ & Hk & Hin & _). econstructor.
        - rewrite Hin. constructor; [exact Hww|constructor].
        - rewrite Hk. constructor. intros; reflexivity.
        - apply IH. intros x Hx. apply Hl. right; auto. }
      apply Hsub, incl_refl.
  Qed.
End Grow2.
