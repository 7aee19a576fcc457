(** Lemmas about the printed states. *)
From Coq Require Import Sorted.
From Verif Require Import Base S_Bits M_Bits L_Bits M_Prints S_Prints.

Lemma fold_right_add l : fold_right Z.add 0 l = fold_left Z.add l 0.
Proof. induction l as [|x l IH]; cbn; [auto|]. rewrite fold_add_shift, <- IH. lia. Qed.
Lemma sizes_pos sizes : (forall k, In k sizes -> 0 <= k) -> 0 <= fold_right Z.add 0 sizes.
Proof. induction sizes as [|k l IH]; cbn; intros H; [lia|]. assert (0 <= k) by auto. assert (0 <= fold_right Z.add 0 l) by auto. lia. Qed.
Lemma position_range sizes : forall xs, (forall k, In k sizes -> 0 <= k) -> values_ok sizes xs ->
  0 <= position sizes xs < 2 ^ fold_right Z.add 0 sizes.
Proof.
  induction sizes as [|k l IH]; intros xs Hk HV; inversion HV as [|? x ? xs' Hx HV']; subst; cbn [position fold_right]; [cbn; lia|].
  assert (P : 0 <= k) by (apply Hk; cbn; auto). assert (Q : forall j, In j l -> 0 <= j) by (intros; apply Hk; cbn; auto).
  specialize (IH xs' Q HV'). pose proof (sizes_pos l Q). rewrite Z.pow_add_r by lia. nia.
Qed.
Lemma position_inj sizes : forall xs ys, (forall k, In k sizes -> 0 <= k) -> values_ok sizes xs -> values_ok sizes ys ->
  position sizes xs = position sizes ys -> xs = ys.
Proof.
  induction sizes as [|k l IH]; intros xs ys Hk HX HY E; inversion HX as [|? x ? xs' Hx HX']; inversion HY as [|? y ? ys' Hy HY']; subst; auto.
  assert (Q : forall j, In j l -> 0 <= j) by (intros; apply Hk; cbn; auto).
  pose proof (position_range l xs' Q HX'). pose proof (position_range l ys' Q HY'). cbn [position] in E.
  assert (x = y) by nia. subst y. f_equal. apply IH; auto. lia.
Qed.
Lemma regs_position n i : forall sizes start, (forall k, In k sizes -> 0 <= k) ->
  values_ok sizes (map (fun g => reg n g i) (registers start sizes)) /\
  position sizes (map (fun g => reg n g i) (registers start sizes)) = reg n (zrange start (start + fold_right Z.add 0 sizes)) i.
Proof.
  induction sizes as [|k l IH]; intros start Hk; cbn [registers map position fold_right].
  - split; [constructor|]. rewrite Z.add_0_r. replace (zrange start start) with (@nil Z); [reflexivity|].
    symmetry. unfold zrange. rewrite Z.sub_diag. reflexivity.
  - assert (P : 0 <= k) by (apply Hk; cbn; auto). assert (Q : forall j, In j l -> 0 <= j) by (intros; apply Hk; cbn; auto).
    destruct (IH (start + k) Q) as (I1 & I2). pose proof (sizes_pos l Q). split.
    + constructor; auto. pose proof (reg_range n (zrange start (start + k)) i) as R. rewrite zlen_zrange in R by lia.
      replace (start + k - start) with k in R by lia. exact R.
    + rewrite I2. rewrite (zrange_app start (start + k) (start + (k + fold_right Z.add 0 l))) by lia. rewrite reg_app, zlen_zrange by lia.
      replace (start + (k + fold_right Z.add 0 l) - (start + k)) with (fold_right Z.add 0 l) by lia.
      replace (start + (k + fold_right Z.add 0 l)) with (start + k + fold_right Z.add 0 l) by lia. reflexivity.
Qed.

Section Prints.
  Context {K} `{OrdRing K}.
  Definition label (sizes : list Z) (i : Z) : list Z := map (fun g => reg (fold_left Z.add sizes 0) g i) (registers 0 sizes).
  Lemma label_position sizes i : (forall k, In k sizes -> 0 <= k) -> 0 <= i < 2 ^ fold_right Z.add 0 sizes ->
    values_ok sizes (label sizes i) /\ position sizes (label sizes i) = i.
  Proof.
    intros Hk Hi. unfold label. rewrite <- fold_right_add. destruct (regs_position (fold_right Z.add 0 sizes) i sizes 0 Hk) as (H1 & H2).
    split; auto. rewrite H2. rewrite Z.add_0_l. apply reg_full; auto. apply sizes_pos; auto.
  Qed.
  Lemma prints_lines (state : list (Cx K)) sizes : (forall k, In k sizes -> 0 <= k) ->
    gen_qubit_prints state sizes
    = Ok (map (fun i => (label sizes i, znth 0%r state i)) (filter (fun i => negb (cx_is0 (znth 0%r state i))) (zrange 0 (zlen state)))).
  Proof.
    intros Hk. unfold gen_qubit_prints. set (F := fun i : Z => (label sizes i, znth 0%r state i)). set (p := fun i => negb (cx_is0 (znth 0%r state i))).
    assert (G : forall l acc, (forall i, In i l -> 0 <= i < zlen state) ->
      mfold (fun lines i => do x <- pyget state i; if cx_is0 x then Ok lines
        else do idx <- qubit_index_notation i sizes (Some (fold_left Z.add sizes 0)); Ok (lines ++ [(idx, x)])) l acc
      = Ok (acc ++ map F (filter p l))).
    { induction l as [|i l IH]; intros acc Hl; cbn [mfold filter map]; [rewrite app_nil_r; reflexivity|].
      rewrite (pyget_ok 0%r) by (apply Hl; cbn; auto). cbn [bind]. unfold p at 1. destruct (cx_is0 (znth 0%r state i)) eqn:E; cbn [negb bind].
      - apply IH. intros j Hj. apply Hl. cbn; auto.
      - pose proof (qubit_index_notation_spec i sizes Hk) as Q. cbv zeta in Q.
        change (qubit_index_notation i sizes None) with (qubit_index_notation i sizes (Some (fold_left Z.add sizes 0))) in Q.
        rewrite Q. cbn [bind]. rewrite IH by (intros j Hj; apply Hl; cbn; auto). cbn [map]. rewrite <- app_assoc. reflexivity. }
    rewrite G; [reflexivity|]. intros i Hi. apply in_zrange in Hi. auto.
  Qed.
  Lemma prints_state (state : list (Cx K)) sizes : (forall k, In k sizes -> 0 <= k) -> zlen state = 2 ^ fold_right Z.add 0 sizes ->
    exists lines, gen_qubit_prints state sizes = Ok lines /\
      (forall xs a, In (xs, a) lines <-> values_ok sizes xs /\ a = znth 0%r state (position sizes xs) /\ a <> 0%r) /\
      StronglySorted Z.lt (map (fun l => position sizes (fst l)) lines).
  Proof.
    intros Hk Hs. eexists. split; [apply prints_lines; auto|]. split.
    - intros xs a. rewrite in_map_iff. split.
      + intros (i & E & Hi). injection E as <- <-. apply filter_In in Hi. destruct Hi as [Hi Hz]. apply in_zrange in Hi. rewrite Hs in Hi.
        destruct (label_position sizes i Hk Hi) as (H1 & H2). rewrite H2. repeat split; auto.
        intros Z0. apply cx_is0_spec in Z0. rewrite Z0 in Hz. discriminate Hz.
      + intros (HV & -> & HN). pose proof (position_range sizes xs Hk HV) as Hp. exists (position sizes xs).
        destruct (label_position sizes (position sizes xs) Hk Hp) as (H1 & H2). split.
        * f_equal. apply (position_inj sizes); auto.
        * apply filter_In. split; [apply in_zrange; lia|]. destruct (cx_is0 _) eqn:E; [|reflexivity]. apply cx_is0_spec in E. contradiction.
    - rewrite map_map. cbn [fst]. set (p := fun i => negb (cx_is0 (znth 0%r state i))).
      assert (G : forall l, StronglySorted Z.lt l -> (forall i, In i l -> 0 <= i < zlen state) ->
        StronglySorted Z.lt (map (fun i => position sizes (label sizes i)) (filter p l))).
      { induction l as [|i l IH]; intros HS Hl; cbn [filter map]; [constructor|]. inversion HS as [|? ? HS' HF]; subst.
        assert (I : StronglySorted Z.lt (map (fun i => position sizes (label sizes i)) (filter p l))) by (apply IH; auto; intros; apply Hl; cbn; auto).
        destruct (p i); [|exact I]. cbn [map]. constructor; auto. apply Forall_forall. intros y Hy. apply in_map_iff in Hy. destruct Hy as (j & <- & Hj).
        apply filter_In in Hj. destruct Hj as [Hj _]. rewrite Forall_forall in HF. specialize (HF j Hj).
        rewrite (proj2 (label_position sizes i Hk ltac:(rewrite <- Hs; apply Hl; cbn; auto))).
        rewrite (proj2 (label_position sizes j Hk ltac:(rewrite <- Hs; apply Hl; cbn; auto))). exact HF. }
      apply G; [|intros i Hi; apply in_zrange in Hi; exact Hi].
      assert (S : forall k lo hi, hi - lo <= Z.of_nat k -> StronglySorted Z.lt (zrange lo hi)).
      { induction k as [|k IH]; intros lo hi Hh.
        - unfold zrange. replace (Z.to_nat (hi - lo)) with O by lia. constructor.
        - destruct (Z_lt_le_dec lo hi) as [L|L].
          + rewrite zrange_cons by auto. constructor; [apply IH; lia|]. apply Forall_forall. intros x Hx. apply in_zrange in Hx. lia.
          + unfold zrange. replace (Z.to_nat (hi - lo)) with O by lia. constructor. }
      apply (S (Z.to_nat (zlen state)) 0). unfold zlen. lia.
  Qed.
End Prints.
