(** Phases of a circuit function, their composition, and the loops of qip/qfft.py on single qubits. *)
From Coq Require Import Sorted.
From Verif Require Import Base S_Bits L_Bits M_Kron S_Kron M_Ops S_Ops L_Ops4 M_Feed S_Feed M_Func S_Func
  M_Measure S_Measure L_Alg M_Graph S_Graph L_Graph1 L_Graph2 L_Graph3 L_Graph5 L_Graph6 L_Graph7 L_Graph8 L_Graph9 L_Graph10 L_Graph11
  M_Context S_Context L_Fourier L_Sinks L_Grow1 L_Grow2 L_Context1 L_Context2 L_Context3 L_Context5.

Definition sing (qs : list Z) : list (list Z) := map (fun q => [q]) qs.
Lemma concat_sing qs : concat (sing qs) = qs.
Proof. unfold sing. induction qs as [|q qs IH]; auto. cbn [map concat app]. rewrite IH. auto. Qed.
Lemma sing_len qs : length (sing qs) = length qs.
Proof. apply map_length. Qed.

Section Phase.
  Context {K : Type} {OK : OrdRing K}.
  Notation C := (Cx K).
  Local Notation U := ((Z -> C) -> Z -> C).
  Variable srcs : list nat.
  Variable cn : consts K.

  Definition local_in (gs : list (list Z)) (u : Z -> U) : Prop :=
    forall n, 0 <= n -> (forall q, In q (concat gs) -> 0 <= q < n) -> local n (concat gs) (u n).
  Definition phase (gs gs' : list (list Z)) (body : world K -> list nat -> st (world K) (list nat)) (u : Z -> U) : Prop :=
    local_in gs u /\
    forall w vis ctl cg qs rest,
      ctlw w ctl -> circ srcs (w_heap w) vis (combine ctl cg ++ combine qs gs ++ rest) ->
      length ctl = length cg -> length qs = length gs ->
      (forall g, In g cg -> zlen g = 1) -> NoDup (concat cg ++ concat gs) -> (forall q, In q qs -> nd_sink (nd (w_heap w) q) = []) ->
      exists w' vis' ctl' outs, body w qs = (w', Ok outs) /\ samew w w' /\ ctlw w' ctl' /\ length ctl' = length cg /\ length outs = length gs' /\
        (forall q, In q outs -> nd_sink (nd (w_heap w') q) = []) /\
        grow srcs (w_heap w) vis (combine ctl cg ++ combine qs gs ++ rest) (w_heap w') vis' (combine ctl' cg ++ combine outs gs' ++ rest)
          (when (widths (w_heap w) srcs) (concat cg) (u (widths (w_heap w) srcs))).

  Lemma local_id n qs : local n qs (fun v : Z -> C => v).
  Proof. intros v v' r Hr Hv. apply Hv. apply near_refl; auto. Qed.
  Lemma when_id n cs (v : Z -> C) r : when n cs (fun v => v) v r = v r.
  Proof. unfold when. destruct (forallb _ _); auto. Qed.
  Lemma phase_id gs : phase gs gs (fun w q => (w, Ok q)) (fun _ v => v).
  Proof.
    split; [intros n _ _; apply local_id|]. intros w vis ctl cg qs rest Hw Ci L1 L2 Hcg Hnd Hi. exists w, vis, ctl, qs.
    split; auto. split; [apply samew_refl|]. repeat (split; [assumption|]).
    eapply grow_ext; [apply grow_refl; auto|]. intros v r _. rewrite when_id. auto.
  Qed.
  Lemma phase_body gs gs' b b' u : phase gs gs' b u -> (forall w qs, length qs = length gs -> b' w qs = b w qs) -> phase gs gs' b' u.
  Proof. intros [HL H] E. split; auto. intros. rewrite E by auto. apply H; auto. Qed.
  Lemma phase_ext gs gs' b u u' : phase gs gs' b u ->
    (forall n, 0 <= n -> (forall q, In q (concat gs) -> 0 <= q < n) -> forall v r, 0 <= r < 2 ^ n -> u n v r = u' n v r) -> phase gs gs' b u'.
  Proof.
    intros [HL H] E. split.
    - intros n Hn Hq v v' r Hr Hv. rewrite <- !E by auto. apply HL; auto.
    - intros w vis ctl cg qs rest Hw Ci L1 L2 Hcg Hnd Hi.
      destruct (H w vis ctl cg qs rest Hw Ci L1 L2 Hcg Hnd Hi) as (w' & vis' & ctl' & outs & A1 & A2 & A3 & A4 & A5 & A6 & G).
      exists w', vis', ctl', outs. repeat (split; [assumption|]). eapply grow_ext; [exact G|]. intros v. apply when_ext. intros r Hr. apply E; auto.
      + apply (circ_n _ _ _ _ Ci).
      + apply (wires_of_circ srcs (w_heap w) vis _ gs qs (combine ctl cg ++ rest) Ci); auto. apply Permutation_app_swap_app.
  Qed.
  Lemma phase_seq gs gs1 gs2 b1 b2 u1 u2 : phase gs gs1 b1 u1 -> phase gs1 gs2 b2 u2 -> Permutation (concat gs) (concat gs1) ->
    phase gs gs2 (fun w qs => sbind (b1 w qs) b2) (fun n v => u2 n (u1 n v)).
  Proof.
    intros [HL1 H1] [HL2 H2] P.
    assert (Hi1 : incl (concat gs1) (concat gs)) by (intros x Hx; eapply Permutation_in; [symmetry|]; eauto).
    assert (Hi2 : incl (concat gs) (concat gs1)) by (intros x Hx; eapply Permutation_in; eauto).
    split.
    - intros n Hn Hq. apply (local_comp n (concat gs) (u1 n) (u2 n)); [apply HL1; auto|].
      eapply local_incl; [exact Hi1|]. apply HL2; auto.
    - intros w vis ctl cg qs rest Hw Ci L1 L2 Hcg Hnd Hi.
      destruct (H1 w vis ctl cg qs rest Hw Ci L1 L2 Hcg Hnd Hi) as (w1 & vis1 & ctl1 & o1 & E1 & S1 & W1 & L3 & L4 & I1 & G1).
      pose proof (grow_circ _ _ _ _ _ _ _ _ G1) as C1. pose proof (grow_widths _ _ _ _ _ _ _ _ Ci G1) as EW.
      destruct (H2 w1 vis1 ctl1 cg o1 rest W1 C1 L3 L4 Hcg) as (w2 & vis2 & ctl2 & o2 & E2 & S2 & W2 & L5 & L6 & I2 & G2); auto.
      { eapply Permutation_NoDup; [|exact Hnd]. apply Permutation_app_head. auto. }
      exists w2, vis2, ctl2, o2. rewrite E1. cbn [sbind]. split; auto. split; [eapply samew_trans; eauto|]. repeat (split; [assumption|]).
      rewrite EW in G2. eapply grow_ext; [eapply grow_trans; eauto|]. intros v. cbn beta.
      assert (Hq : forall q, In q (concat gs) -> 0 <= q < widths (w_heap w) srcs).
      { apply (wires_of_circ srcs (w_heap w) vis _ gs qs (combine ctl cg ++ rest) Ci); auto. apply Permutation_app_swap_app. }
      assert (Hc : forall q, In q (concat cg) -> 0 <= q < widths (w_heap w) srcs).
      { apply (wires_of_circ srcs (w_heap w) vis _ cg ctl (combine qs gs ++ rest) Ci); auto. }
      apply NoDup_app_inv in Hnd. destruct Hnd as (_ & _ & N3).
      apply (when_comp (widths (w_heap w) srcs) (concat cg) (concat gs1)).
      + intros q Hin. split; [auto|]. intros H. exact (N3 q Hin (Hi1 _ H)).
      + apply HL2; auto. apply (circ_n _ _ _ _ Ci).
  Qed.
  Lemma phase_loop {I} gs (f : world K -> list nat -> I -> st (world K) (list nat)) u : forall l, (forall i, In i l -> phase gs gs (fun w q => f w q i) (u i)) ->
    phase gs gs (fun w q => sloop f l w q) (fun n v => fold_left (fun v i => u i n v) l v).
  Proof.
    induction l as [|i l IH]; intros H; cbn [sloop fold_left]; [apply phase_id|].
    apply (phase_seq gs gs gs (fun w q => f w q i) (fun w q => sloop f l w q) (u i) (fun n v => fold_left (fun v i => u i n v) l v)); auto.
    - apply H. left; auto.
    - apply IH. intros; apply H; right; auto.
  Qed.

  Lemma at1_phase gs i c o : 0 <= i < zlen gs -> (forall g, In g gs -> g <> []) -> denotes cn c [nth (Z.to_nat i) gs []] o ->
    phase gs gs (fun w q => apply_at1 cn w c q i) (fun n => op_acts n o [nth (Z.to_nat i) gs []]).
  Proof.
    intros Hi Hgs HD. set (p := Z.to_nat i). assert (Hp : (p < length gs)%nat) by (unfold zlen in *; lia). split.
    - intros n Hn Hq. eapply local_incl; [apply (slots_incl gs [p])|]. apply op_acts_local; auto.
      intros q Hqi. apply Hq. eapply (slots_incl gs [p]). exact Hqi.
    - intros w vis ctl cg qs rest Hw Ci L1 L2 Hcg Hnd Hid.
      destruct (step_grow srcs cn w vis ctl cg qs gs rest (c, [p]) (o, [p]) Hw Ci L1 L2) as (w' & vis' & ctl' & outs & E & S & W & L3 & L4 & I1 & G); auto.
      { split; auto. split; [repeat constructor; auto|]. split; [discriminate|]. split; [intros ? [<-|[]]; auto|]. exact HD. }
      cbn [fst snd] in *. destruct outs as [|a [|]]; cbn in L4; try discriminate.
      exists w', vis', ctl', (store qs [p] [a]). cbn [fetch map] in E. unfold apply_at1, lift.
      rewrite (pyget_ok O) by (unfold zlen in *; lia). cbn [sbind]. rewrite znth_nth by lia. fold p. rewrite E. cbn [one_output sbind].
      rewrite pyset_ok by (unfold zlen in *; lia). fold p. split; auto. repeat (split; [assumption|]). split; [rewrite store_len; auto|].
      split; [apply I1; auto|]. exact G.
  Qed.
  Lemma at2_phase gs i j i' j' c o : 0 <= i' < zlen gs -> 0 <= j' < zlen gs -> i' <> j' -> (i = i' \/ i = i' - zlen gs) -> (j = j' \/ j = j' - zlen gs) ->
    (forall g, In g gs -> g <> []) -> denotes cn c [nth (Z.to_nat i') gs []; nth (Z.to_nat j') gs []] o ->
    phase gs gs (fun w q => apply_at2 cn w c q i j) (fun n => op_acts n o [nth (Z.to_nat i') gs []; nth (Z.to_nat j') gs []]).
  Proof.
    intros Hi Hj Hij Ei Ej Hgs HD. set (p := Z.to_nat i') in *. set (p2 := Z.to_nat j') in *.
    assert (Hp : (p < length gs)%nat) by (unfold zlen in *; lia). assert (Hp2 : (p2 < length gs)%nat) by (unfold zlen in *; lia).
    assert (Hpp : p <> p2) by lia.
    assert (Get : forall (qs : list nat) k k', length qs = length gs -> 0 <= k' < zlen gs -> (k = k' \/ k = k' - zlen gs) -> pyget qs k = Ok (nth (Z.to_nat k') qs O)).
    { intros qs k k' L Hk [->| ->].
      - rewrite (pyget_ok O) by (unfold zlen in *; lia). rewrite znth_nth by lia. auto.
      - unfold pyget. destruct (Z.ltb_spec (k' - zlen gs) 0); [|lia].
        replace (k' - zlen gs + zlen qs) with k' by (unfold zlen; lia). destruct (Z.ltb_spec k' 0); [lia|].
        rewrite (nth_error_nth' qs O) by (unfold zlen in *; lia). auto. }
    assert (Set_ : forall (qs : list nat) k k' x, length qs = length gs -> 0 <= k' < zlen gs -> (k = k' \/ k = k' - zlen gs) -> pyset qs k x = Ok (upd qs (Z.to_nat k') x)).
    { intros qs k k' x L Hk [->| ->].
      - rewrite pyset_ok by (unfold zlen in *; lia). auto.
      - rewrite <- (pyset_ok qs k' x) by (unfold zlen in *; lia). unfold pyset.
        rewrite (proj2 (Z.ltb_lt (k' - zlen gs) 0)) by lia. replace (k' - zlen gs + zlen qs) with k' by (unfold zlen; lia).
        rewrite (proj2 (Z.ltb_ge k' 0)) by lia. cbv zeta. rewrite (proj2 (Z.ltb_ge k' 0)) by lia. reflexivity. }
    split.
    - intros n Hn Hq. eapply local_incl; [apply (slots_incl gs [p; p2])|]. apply op_acts_local; auto.
      intros q Hqi. apply Hq. eapply (slots_incl gs [p; p2]). exact Hqi.
    - intros w vis ctl cg qs rest Hw Ci L1 L2 Hcg Hnd Hid.
      destruct (step_grow srcs cn w vis ctl cg qs gs rest (c, [p; p2]) (o, [p; p2]) Hw Ci L1 L2) as (w' & vis' & ctl' & outs & E & S & W & L3 & L4 & I1 & G); auto.
      { split; auto. split; [cbn [snd]; constructor; [intros [->|[]]; auto|repeat constructor; auto]|]. split; [discriminate|].
        split; [intros ? [<-|[<-|[]]]; auto|]. exact HD. }
      cbn [fst snd] in *. destruct outs as [|a [|b [|]]]; cbn in L4; try discriminate.
      exists w', vis', ctl', (store qs [p; p2] [a; b]). cbn [fetch map] in E. unfold apply_at2, lift.
      rewrite (Get qs i i') by auto. cbn [sbind]. rewrite (Get qs j j') by auto. cbn [sbind]. fold p p2. rewrite E. cbn [two_outputs sbind fst snd].
      rewrite (Set_ qs i i') by auto. cbn [sbind]. rewrite (Set_ _ j j') by (rewrite ?upd_len; auto). fold p p2.
      split; auto. repeat (split; [assumption|]). split; [rewrite store_len; auto|].
      split; [apply I1; auto|]. exact G.
  Qed.
End Phase.
