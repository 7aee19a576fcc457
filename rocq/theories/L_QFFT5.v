(** The whole function of qip/qfft.py. *)
From Coq Require Import Sorted.
From Verif Require Import Base S_Bits L_Bits M_Kron S_Kron M_Ops S_Ops L_Ops4 M_Feed S_Feed M_Func S_Func
  M_Measure S_Measure L_Alg M_Graph S_Graph L_Graph1 L_Graph2 L_Graph3 L_Graph5 L_Graph6 L_Graph7 L_Graph8 L_Graph9 L_Graph10 L_Graph11
  M_Context S_Context L_Fourier L_Sinks L_Grow1 L_Grow2 L_Context1 L_Context2 L_Context3 L_Context5 L_QFFT1 L_QFFT2 L_QFFT3 L_QFFT4.

Section QFFT.
  Context {K : Type} {OK : OrdRing K}.
  Notation C := (Cx K).
  Variable srcs : list nat.
  Variable cn : consts K.
  Variable root : Z -> C.
  Hypothesis root1 : root 1 = (- (1))%r.
  Hypothesis root2 : forall m, 1 <= m -> (root (m + 1) * root (m + 1))%r = root m.
  Hypothesis root_rm : forall m, 2 <= m -> c_rm cn m false = root m.

  Definition dft (rev_ : bool) (qs : list Z) (n : Z) : (Z -> C) -> Z -> C :=
    fourier n (root (zlen qs)) (cpow (creal (c_h cn)) (length qs)) qs (if rev_ then qs else rev qs).

  Lemma core_phase rev_ qs : NoDup qs -> phase srcs (sing qs) (sing qs)
    (fun w q => sbind (recQFFT cn (S (length q)) w q 0) (fun w q =>
       if rev_ : bool then sloop (fun w qarr i => apply_at2 cn w (Wrap BSwap no_kw) qarr i (-1 - i)) (zrange 0 (zlen q / 2)) w q else (w, Ok q)))
    (dft rev_ qs).
  Proof.
    intros Hnd.
    assert (Lz : forall l : list nat, length l = length (sing qs) -> zlen l = zlen qs) by (intros l H; rewrite sing_len in H; unfold zlen; lia).
    assert (P1' : phase srcs (sing qs) (sing qs) (fun w q => recQFFT cn (S (length q)) w q 0) (fun n => qft root n (c_h cn) (skipn (Z.to_nat 0) qs))).
    { eapply phase_body; [apply (rec_phase srcs cn root root_rm qs (S (length qs)) 0); [pose proof (zlen_nonneg qs); lia|unfold zlen; lia]|].
      intros w l H. rewrite sing_len in H. rewrite H. reflexivity. }
    destruct rev_.
    - eapply phase_ext; [eapply phase_seq; [exact P1'| |reflexivity]|].
      + eapply phase_body; [apply (swap_phase srcs cn qs)|]. intros w l H. cbn beta. rewrite (Lz l H). reflexivity.
      + intros n Hn Hq v r Hr. rewrite concat_sing in Hq. cbn beta. change (Z.to_nat 0) with O. cbn [skipn].
        rewrite swaps_mirror; [|split; auto|auto|pose proof (zlen_nonneg qs); split; [apply Z.div_pos; lia|lia]|auto].
        rewrite mirror_all by (auto; split; auto). rewrite (qft_fourier root root1 root2 n Hn); [|split; auto|apply setreg_range; auto].
        unfold dft. apply rev_fourier; auto. split; auto.
    - eapply phase_ext; [eapply phase_seq; [exact P1'|apply phase_id|reflexivity]|].
      intros n Hn Hq v r Hr. rewrite concat_sing in Hq. cbn beta. change (Z.to_nat 0) with O. cbn [skipn].
      unfold dft. apply (qft_fourier root root1 root2 n Hn); auto. split; auto.
  Qed.

  Lemma qfft_grows fs rev_ gs : gs <> [] -> (forall g, In g gs -> g <> []) ->
    body_grows srcs fs (qfft_body cn rev_) gs gs (fun n => dft rev_ (concat gs) n).
  Proof.
    intros Hgs Hne w vis ctl cg qs rest Efs Hw Ci L1 L2 Hcg Hnd.
    assert (Hnd2 : NoDup (concat gs)) by (apply NoDup_app_inv in Hnd; tauto).
    assert (PA : Permutation (combine ctl cg ++ combine qs gs ++ rest) (combine (@nil nat) (sing []) ++ combine qs gs ++ combine ctl cg ++ rest)).
    { cbn [combine app]. rewrite !app_assoc. apply Permutation_app_tail, Permutation_app_comm. }
    assert (C0 := circ_perm _ _ _ _ _ PA Ci).
    destruct (split_all srcs (combine ctl cg ++ rest) qs gs w vis [] [] C0 eq_refl L2 Hne Hnd2) as (h1 & vis1 & qarr & E1 & L3 & I1 & G1); [intros q []|].
    cbn [app] in *. unfold qfft_body.
    change (sloop _ qs w []) with (sloop split_step qs w []). rewrite E1. cbn [sbind].
    pose proof (grow_widths _ _ _ _ _ _ _ _ C0 G1) as EW1.
    assert (PB : Permutation (combine qarr (sing (concat gs)) ++ combine ctl cg ++ rest) (combine ctl cg ++ combine qarr (sing (concat gs)) ++ rest)).
    { rewrite !app_assoc. apply Permutation_app_tail, Permutation_app_comm. }
    assert (C1 := circ_perm _ _ _ _ _ PB (grow_circ _ _ _ _ _ _ _ _ G1)).
    destruct (core_phase rev_ (concat gs) Hnd2) as [_ CP].
    destruct (CP (set_heap w h1) vis1 ctl cg qarr rest) as (w2 & vis2 & ctl2 & qarr2 & E2 & S2 & W2 & L4 & L5 & I2 & G2); auto.
    { rewrite sing_len. auto. } { rewrite concat_sing. auto. }
    destruct (recQFFT cn (S (length qarr)) (set_heap w h1) qarr 0) as [wr [qr|er]] eqn:Er; cbn [sbind] in E2 |- *; [|discriminate].
    rewrite E2. cbn [sbind]. cbn [set_heap w_heap] in *. rewrite sing_len in L5.
    assert (GA : grow srcs (w_heap w) vis (combine ctl cg ++ combine qs gs ++ rest) h1 vis1 (combine ctl cg ++ combine qarr (sing (concat gs)) ++ rest) (fun v => v)).
    { eapply grow_perm; [symmetry; exact PA|exact PB|exact G1]. }
    rewrite EW1 in G2.
    assert (GB := grow_trans srcs _ _ _ _ _ _ _ _ _ _ _ Ci GA G2). cbn beta in GB.
    assert (S02 : samew w w2) by (destruct S2 as (A & B & D); split; [|split]; auto).
    assert (Lz1 : zlen qs = zlen gs) by (unfold zlen; lia). assert (Lz2 : zlen qarr2 = zlen (concat gs)) by (unfold zlen; lia).
    rewrite Lz1, Lz2. destruct (Z.ltb_spec (zlen gs) (zlen (concat gs))) as [Hlt|Hge].
    - pose proof (grow_circ _ _ _ _ _ _ _ _ GB) as C2.
      assert (PC : Permutation (combine ctl2 cg ++ combine qarr2 (sing (concat gs)) ++ rest) (combine (@nil nat) (@nil (list Z)) ++ combine qarr2 (sing (concat gs)) ++ combine ctl2 cg ++ rest)).
      { cbn [combine app]. rewrite !app_assoc. apply Permutation_app_tail, Permutation_app_comm. }
      pose proof (built_wf _ _ (c_built _ _ _ _ Ci)) as W.
      destruct (merge_all srcs (combine ctl2 cg ++ rest) qs gs w2 vis2 [] [] qarr2 0 qarr2 eq_refl) as (h3 & vis3 & new & ix & E3 & L6 & G3); auto.
      { lia. }
      { assert (X : ext (w_heap w) (w_heap w2)) by (destruct GB as (_ & X & _); exact X).
        assert (HI : forall i g, In (i, g) (combine qs gs) -> (i < size (w_heap w))%nat /\ zlen g = width (w_heap w) i).
        { intros i g Hi. split.
          - apply (wf_vis _ _ W), (c_incl _ _ _ _ Ci). rewrite !map_app, !in_app_iff. right. left. apply in_map_iff. exists (i, g). auto.
          - apply (circ_len _ _ _ _ Ci). rewrite !in_app_iff. auto. }
        clear - HI X L2. revert gs L2 HI. induction qs as [|i l IH]; intros [|g gs] L HI; cbn in L; try discriminate; constructor.
        - destruct (HI i g (or_introl eq_refl)) as [A B]. split; [destruct X as (X1 & _); lia|]. rewrite B. apply ext_width; auto.
        - apply IH; [lia|]. intros; apply HI. right; auto. }
      { eapply circ_perm; [exact PC|exact C2]. }
      match goal with |- context [sloop ?f qs w2 ([], 0)] => change f with (merge_step (K := K) qarr2) end. rewrite E3. cbn [sbind fst app].
      exists (set_heap w2 h3), vis3, ctl2, new. split; auto. split; [exact S02|]. split; [exact W2|]. split; auto. split; auto.
      cbn [set_heap w_heap app] in *.
      assert (G3' : grow srcs (w_heap w2) vis2 (combine ctl2 cg ++ combine qarr2 (sing (concat gs)) ++ rest) h3 vis3 (combine ctl2 cg ++ combine new gs ++ rest) (fun v => v)).
      { eapply grow_perm; [symmetry; exact PC| |exact G3]. rewrite !app_assoc. apply Permutation_app_tail, Permutation_app_comm. }
      exact (grow_trans srcs _ _ _ _ _ _ _ _ _ _ _ Ci GB G3').
    - assert (Es : gs = sing (concat gs)) by (apply all_single; auto; unfold zlen in Hge; lia).
      exists w2, vis2, ctl2, qarr2. split.
      { destruct qarr2; auto. exfalso. destruct gs as [|g gs]; [congruence|]. specialize (Hne g (or_introl eq_refl)). destruct g; [congruence|]. cbn in L5. lia. }
      split; [exact S02|]. split; [exact W2|]. split; auto. split; [rewrite Es, sing_len; lia|]. rewrite <- Es in GB. exact GB.
  Qed.
End QFFT.
