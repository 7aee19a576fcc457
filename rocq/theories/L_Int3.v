(** The 32-bit kernels agree with the unbounded ones up to 30 qubits: F(f). What happens beyond. *)
From Coq Require Import ZifyBool.
From Verif Require Import Base S_Bits M_Bits L_Bits M_Kron S_Kron L_Kron L_Kron2 L_Kron3 M_Measure M_Func M_Int S_Int L_Int1 L_Int2.

Section LI3.
  Context {K : Type} {OK : OrdRing K}.
  Notation C := (Cx K).

  Lemma scatter32_ok reg n value : 0 <= n <= 31 -> qubits_ok n reg ->
    scatter32 reg n (zlen reg) value (zlen reg) = scatter reg n (zlen reg) value (zlen reg).
  Proof.
    intros Hn HI. pose proof (qubits_len n reg ltac:(lia) HI). unfold scatter32, scatter. apply mfold_ext.
    intros acc j Hj. apply in_zrange in Hj. rewrite (cget_ok 0) by lia. cbn [bind].
    assert (0 <= znth 0 reg j < n) by (apply HI, znth_in; lia).
    rewrite get_bit32_ok by lia. apply bind_ext. intros b _. apply set_bit32_ok. lia.
  Qed.
  Lemma scatter_other32_ok m other n width value count : 0 <= n <= 31 -> (forall q, In q other -> 0 <= q < n) -> width <= 31 ->
    scatter_other32 m other n width value count = scatter_other m other n width value count.
  Proof.
    intros Hn HI HW. unfold scatter_other32, scatter_other. apply mfold_ext.
    intros acc j Hj. apply in_zrange in Hj.
    apply bind_ext. intros q Eq.
    match goal with |- bind ?x _ = bind ?y _ => replace x with y end.
    2:{ destruct (Z.ltb_spec (width - 1 - j) 0); auto. symmetry. apply get_bit32_ok. lia. }
    apply bind_ext. intros b _. destruct (_ || _) eqn:Eb; auto. apply set_bit32_ok.
    destruct (Z.ltb_spec j (zlen other)) as [Hlt|Hge]; [|lia].
    rewrite (cget_ok 0) in Eq by lia. injection Eq as <-.
    assert (0 <= znth 0 other j < n) by (apply HI, znth_in; lia). lia.
  Qed.
  Lemma other_range reg1 reg2 n q : In q (other_indices reg1 reg2 n) -> 0 <= q < n.
  Proof. unfold other_indices. intros H. apply filter_In in H as [H _]. apply in_zrange in H. auto. Qed.
  Lemma other_len reg1 reg2 n : 0 <= n -> zlen (other_indices reg1 reg2 n) <= n.
  Proof.
    intros. apply qubits_len; auto. split; [|intros q; apply other_range].
    apply NoDup_filter, zrange_nodup.
  Qed.

  Lemma func_x32_ok m reg1 reg2 n (vec : list C) x y output : 0 <= n <= 30 -> qubits_ok n reg1 -> qubits_ok n reg2 ->
    func_apply_x32 m reg1 reg2 (other_indices reg1 reg2 n) n vec x y output =
    func_apply_x m reg1 reg2 (other_indices reg1 reg2 n) n vec x y output.
  Proof.
    intros Hn H1 H2. unfold func_apply_x32, func_apply_x.
    pose proof (qubits_len n reg1 ltac:(lia) H1). pose proof (qubits_len n reg2 ltac:(lia) H2).
    pose proof (other_len reg1 reg2 n ltac:(lia)).
    pose proof (zlen_nonneg reg1). pose proof (zlen_nonneg reg2).
    rewrite scatter32_ok by (auto; lia). apply bind_ext. intros z _.
    apply mfold_ext. intros o q Hq. apply in_zrange in Hq.
    pose proof (pow2_30 (zlen reg2) ltac:(lia)). rewrite (w32_ok q) by lia.
    rewrite !scatter32_ok by (auto; lia). apply bind_ext. intros f _. apply bind_ext. intros qo _.
    apply mfold_ext. intros o' r Hr. apply in_zrange in Hr.
    pose proof (pow2_30 (zlen (other_indices reg1 reg2 n)) ltac:(lia)). rewrite (w32_ok r) by lia.
    rewrite scatter_other32_ok; [reflexivity|lia|apply other_range|lia].
  Qed.

  Lemma mmap_ext {A B} (f g : A -> res B) l : (forall a, In a l -> f a = g a) -> mmap f l = mmap g l.
  Proof.
    induction l as [|a l IH]; cbn [mmap]; intros H; auto. rewrite (H a) by (left; auto).
    apply bind_ext. intros b _. rewrite IH by (intros; apply H; right; auto). reflexivity.
  Qed.
  Lemma func32_ok m sched reg1 reg2 func (vec : list C) n output io oo pregen :
    0 <= n <= 30 -> qubits_ok n reg1 -> qubits_ok n reg2 -> - 2 ^ 31 <= io < 2 ^ 31 -> - 2 ^ 31 <= oo < 2 ^ 31 ->
    (forall x y, 0 <= x < 2 ^ zlen reg1 -> func x = Ok y -> - 2 ^ 31 <= y < 2 ^ 31) ->
    (forall x, In x sched -> 0 <= x < 2 ^ zlen reg1) ->
    func_apply32 m sched reg1 reg2 func vec n output io oo pregen = func_apply m sched reg1 reg2 func vec n output io oo pregen.
  Proof.
    intros Hn H1 H2 Hio Hoo Hf Hs. unfold func_apply32, func_apply.
    pose proof (qubits_len n reg1 ltac:(lia) H1). pose proof (pow2_30 (zlen reg1) ltac:(lia)). pose proof (pow2_30 n ltac:(lia)).
    rewrite !int_arg_ok by lia. cbn [bind].
    destruct (negb _ || negb _) eqn:EL; auto. destruct (_ <? _); auto. destruct (_ <? _); auto.
    rewrite orb_false_iff, !negb_false_iff, !Z.eqb_eq in EL. destruct EL as [EL1 EL2].
    rewrite (mfold_writes_all (A := C) 0%r _ (fun _ => 0%r)).
    2:{ intros L r HL Hr. rewrite w32_ok by lia. rewrite cset_ok by lia. reflexivity. }
    2:{ rewrite <- EL1, <- EL2. apply Permutation_refl. }
    cbn [bind].
    replace (map (fun _ : Z => 0%r : C) (zrange 0 (zlen output))) with (map (fun _ : C => 0%r : C) output).
    2:{ apply list_eq_znth with (d := (0%r : C)).
        - rewrite !zlen_map, zlen_zrange by (apply zlen_nonneg). lia.
        - rewrite zlen_map. intros r Hr. rewrite znth_map with (d := (0%r : C)) by lia. rewrite znth_map_zrange by lia. reflexivity. }
    assert (Hfun : forall x, 0 <= x < 2 ^ zlen reg1 -> (do y <- func (w32 x); int_arg y) = func x).
    { intros x Hx. rewrite w32_ok by lia. destruct (func x) as [y|] eqn:Ey; cbn [bind]; auto.
      apply int_arg_ok. eapply Hf; eauto. }
    match goal with |- bind ?x _ = bind ?y _ => replace x with y end.
    2:{ destruct pregen; auto. symmetry. apply mmap_ext. intros x Hx. apply in_zrange in Hx. apply Hfun. lia. }
    apply bind_ext. intros fr _. apply mfold_ext. intros o x Hx. apply Hs in Hx.
    match goal with |- bind ?x _ = bind ?y _ => replace x with y end.
    2:{ destruct pregen; [rewrite w32_ok by lia; reflexivity|]. symmetry. apply Hfun. lia. }
    apply bind_ext. intros y _. rewrite w32_ok by lia. apply func_x32_ok; auto.
  Qed.

  (** ** beyond *)
  (** an array of 2^31 amplitudes: the loop over the output is empty *)
  Lemma kron32_untouched mats vec n out io oo sched :
    n = 31 -> io = 0 -> oo = 0 -> mats_wf n mats -> mats_small mats -> (forall km, In km mats -> shape_ok km) ->
    rectangular (map fst (mats_groups mats)) = true ->
    zlen vec = 2 ^ n -> zlen out = 2 ^ n -> Permutation sched (zrange 0 (w32 (zlen out))) ->
    kronselect_dot32 mats vec n out io oo sched = Ok out.
  Proof.
    intros -> -> -> HW HS Hsh HR Hv Ho HP. unfold kronselect_dot32.
    rewrite !Hv, !Ho. rewrite Z.add_0_r, Z.ltb_irrefl. rewrite norm_mats_ok by (auto; apply HW). cbn [bind].
    assert (sched = []) as ->.
    { rewrite Ho in HP. rewrite w32_neg in HP by lia. rewrite zrange_empty in HP by lia.
      apply Permutation_nil. apply Permutation_sym. exact HP. }
    destruct (structs32_ok 31 (mats_groups mats)) as (ss & _ & E32 & _).
    { apply mats_wf_groups; auto. }
    { apply small_groups; auto. }
    unfold cdot_loop32, rectangular in *.
    destruct (map fst (mats_groups mats)) as [|g0 gs] eqn:Eg; [discriminate|].
    rewrite HR. cbn [negb]. rewrite !int_arg_ok by lia. cbn [bind]. rewrite E32. reflexivity.
  Qed.
  (** slices that start at or after 2^31 *)
  Lemma kron32_offset mats vec n out io oo sched :
    0 <= io -> 0 <= oo -> n < 2 ^ 31 -> mats_wf n mats -> (forall km, In km mats -> shape_ok km) ->
    rectangular (map fst (mats_groups mats)) = true ->
    zlen vec + io <= 2 ^ n -> zlen out + oo <= 2 ^ n -> 2 ^ 31 <= io \/ 2 ^ 31 <= oo -> 0 <= n ->
    kronselect_dot32 mats vec n out io oo sched = Raise OverflowError.
  Proof.
    intros Hio Hoo Hn HW Hsh HR Hv Ho Hbig Hn0. unfold kronselect_dot32.
    destruct (Z.ltb_spec (2 ^ n) (zlen vec + io)); [lia|]. destruct (Z.ltb_spec (2 ^ n) (zlen out + oo)); [lia|].
    rewrite norm_mats_ok by (auto; apply HW). cbn [bind].
    unfold cdot_loop32, rectangular in *.
    destruct (map fst (mats_groups mats)) as [|g0 gs] eqn:Eg; [discriminate|].
    rewrite HR. cbn [negb]. rewrite (int_arg_ok n) by lia. cbn [bind]. unfold int_arg, fits.
    destruct (Z.leb_spec (- 2 ^ 31) io), (Z.ltb_spec io (2 ^ 31)); try lia; cbn [andb bind]; auto.
    destruct (Z.leb_spec (- 2 ^ 31) oo), (Z.ltb_spec oo (2 ^ 31)); try lia; cbn [andb bind]; auto.
  Qed.
  (** a 2^16 x 2^16 array: the position of an entry does not fit *)
  Lemma kron32_dense g d (v : C) vec o oo :
    zlen g = 16 -> qubits_ok 16 g -> zlen vec <= 2 ^ 16 - 1 ->
    zlen d = 2 ^ 16 * 2 ^ 16 -> 0 <= oo < 2 ^ 16 -> 2 ^ 15 <= reg 16 g oo ->
    kronselect_dot32 [(KTuple g, MNum (2 ^ 16) (2 ^ 16) d)] (v :: vec) 16 [o] 0 oo [0] = Raise OOB.
  Proof.
    intros Hg HQ Hvec Hd Hoo Hreg. unfold kronselect_dot32.
    assert (HV : zlen (v :: vec) = 1 + zlen vec) by (unfold zlen; cbn [length]; lia).
    pose proof (zlen_nonneg vec) as HVN. change (zlen [o]) with 1.
    destruct (Z.ltb_spec (2 ^ 16) (zlen (v :: vec) + 0)); [lia|]. destruct (Z.ltb_spec (2 ^ 16) (1 + oo)); [lia|].
    unfold norm_mats. cbn [mfold mat_shape]. rewrite Hg, Z.eqb_refl. cbn [negb orb bind dict_set map fst snd].
    unfold cdot_loop32. cbn [forallb]. rewrite Z.eqb_refl. cbn [andb negb].
    rewrite !int_arg_ok by lia. cbn [bind mmap build_struct32]. rewrite int_arg_ok by lia. cbn [bind mfold combine].
    rewrite ck_ok by lia. cbn [bind concat]. rewrite app_nil_r. rewrite Z.add_0_l.
    set (F := sorted_set g).
    assert (HF : qubits_ok 16 F).
    { split; [apply sorted_set_nodup|]. intros q Hin. apply (proj1 (in_sorted_set q g)) in Hin. apply HQ; auto. }
    unfold c_row32.
    pose proof (qubits_len 16 F ltac:(lia) HF) as HL. pose proof (zlen_nonneg F).
    assert (Hp : 1 <= 2 ^ zlen F <= 2 ^ 30).
    { split; [pose proof (Z.pow_pos_nonneg 2 (zlen F)); lia|apply pow2_30; lia]. }
    rewrite !w32_ok by lia. rewrite (zrange_cons 0 (2 ^ zlen F)) by lia. cbn [mfold].
    assert (HC : mfold (fun colbits j =>
              do indx <- cget F j;
              do b <- get_bit32 0 ((zlen F - 1) - j);
              set_bit32 colbits ((16 - 1) - indx) b) (zrange 0 (zlen F)) oo = Ok 0).
    { transitivity (mfold (fun colbits j =>
              do indx <- cget F j;
              do b <- cget_bit 0 ((zlen F - 1) - j);
              cset_bit colbits ((16 - 1) - indx) b) (zrange 0 (zlen F)) oo).
      - apply mfold_ext. intros c j Hj. apply in_zrange in Hj. rewrite (cget_ok 0) by lia. cbn [bind].
        assert (0 <= znth 0 F j < 16) by (apply HF, znth_in; lia).
        rewrite get_bit32_ok by lia. apply bind_ext. intros b _. apply set_bit32_ok. lia.
      - rewrite (c_set_columns 16 F oo oo 0); auto; try lia.
        2:{ apply agree_off_spec. auto. }
        f_equal. apply (qbit_ext 16); [lia|apply setreg_range; lia|lia|].
        intros q Hq. unfold setreg. rewrite qbit_mkstate by auto.
        assert (Hin : In q F).
        { apply in_sorted_set. assert (Hincl : incl (zrange 0 16) g).
          { apply NoDup_length_incl; [apply HQ| |intros x Hx; apply in_zrange; apply HQ; auto].
            unfold zlen in Hg. change (length (zrange 0 16)) with 16%nat. lia. }
          apply Hincl. apply in_zrange. auto. }
        destruct (idx q F) as [k|] eqn:Ek.
        + unfold qbit. rewrite !Z.bits_0. reflexivity.
        + apply idx_none in Ek. tauto. }
    rewrite HC. cbn [bind]. rewrite ck_ok by lia. cbn [bind].
    destruct (Z.ltb_spec (0 - 0) 0); [lia|]. destruct (Z.leb_spec (zlen (v :: vec)) (0 - 0)); [lia|]. cbn [orb].
    cbn [c_prod32]. rewrite c_submat32_ok by (try lia; apply HQ). rewrite c_submat_ok by apply HQ. cbn [bind fst snd calc_mat_entry32].
    unfold ck at 1. assert (Hbig : fits (reg 16 g oo * 2 ^ 16) = false).
    { unfold fits. change (2 ^ 31) with (2 ^ 15 * 2 ^ 16). destruct (Z.ltb_spec (reg 16 g oo * 2 ^ 16) (2 ^ 15 * 2 ^ 16)); [|apply andb_false_r]. nia. }
    rewrite Hbig. reflexivity.
  Qed.
  (** measuring a state of 2^31 amplitudes leaves the output array as it was *)
  Lemma measure32_untouched rsqrt rand acc0 indices n (vec out : list C) measured mp r out' :
    n = 31 -> zlen vec = 2 ^ n \/ zlen out = 2 ^ n ->
    measure32 rsqrt rand acc0 indices n vec out 0 0 measured mp = Ok (r, out') -> out' = out.
  Proof.
    intros -> Hvo. unfold measure32. rewrite !int_arg_ok by lia. cbn [bind].
    destruct (bad_measured _ _); [discriminate|]. destruct (bad_prob _); [discriminate|].
    destruct (choose32 _ _ _ _ _ _ _ _) as [mp'|]; cbn [bind]; [|discriminate].
    destruct (mult _ _); cbn [bind]; [|discriminate].
    destruct (make_row_mask32 _ _); cbn [bind]; [|discriminate].
    destruct (entwine_bit32 _ _ _ _ _); cbn [bind]; [|discriminate].
    rewrite !Z.add_0_l. pose proof (w32_neg (2 ^ 31) ltac:(lia)) as W. cbn [mfold bind].
    rewrite zrange_empty by (destruct Hvo as [-> | ->]; lia). cbn [mfold bind].
    intros E. injection E as _ <-. reflexivity.
  Qed.
  (** a function value that is no int *)
  Lemma func32_overflow m sched reg1 reg2 func (vec : list C) n output x y :
    0 <= n <= 30 -> qubits_ok n reg1 -> zlen vec = 2 ^ n -> zlen output = 2 ^ n ->
    0 <= x < 2 ^ zlen reg1 -> (forall x', 0 <= x' < x -> exists y', func x' = Ok y' /\ - 2 ^ 31 <= y' < 2 ^ 31) ->
    func x = Ok y -> 2 ^ 31 <= y ->
    func_apply32 m sched reg1 reg2 func vec n output 0 0 true = Raise OverflowError.
  Proof.
    intros Hn H1 Hv Ho Hx Hb Hy Hbig. unfold func_apply32.
    pose proof (qubits_len n reg1 ltac:(lia) H1). pose proof (pow2_30 (zlen reg1) ltac:(lia)). pose proof (pow2_30 n ltac:(lia)).
    rewrite !int_arg_ok by lia. cbn [bind]. rewrite Hv, Ho, !Z.eqb_refl. cbn [negb orb].
    rewrite Z.add_0_r, Z.ltb_irrefl.
    rewrite (mfold_writes_all (A := C) 0%r _ (fun _ => 0%r)).
    2:{ intros L r HL Hr. rewrite w32_ok by lia. rewrite cset_ok by lia. reflexivity. }
    2:{ rewrite <- Ho. apply Permutation_refl. }
    cbn [bind].
    match goal with |- bind ?e _ = _ => enough (e = Raise OverflowError) as -> by reflexivity end.
    rewrite (zrange_app 0 x) by lia. rewrite (zrange_cons x) by lia.
    assert (G : forall l rest, (forall x', In x' l -> 0 <= x' < x) ->
      mmap (fun x0 => do y0 <- func (w32 x0); int_arg y0) (l ++ x :: rest) = Raise OverflowError).
    { induction l as [|x' l IH]; intros rest Hl; cbn [app mmap].
      - rewrite w32_ok by lia. rewrite Hy. cbn [bind]. unfold int_arg, fits.
        destruct (Z.ltb_spec y (2 ^ 31)); [lia|]. rewrite andb_false_r. reflexivity.
      - pose proof (Hl x' (or_introl eq_refl)) as Hx'. destruct (Hb x' Hx') as (y' & Ey & Hy').
        rewrite w32_ok by lia. rewrite Ey. cbn [bind]. rewrite int_arg_ok by lia. cbn [bind].
        rewrite IH by (intros; apply Hl; right; auto). reflexivity. }
    apply G. intros x' Hin. apply in_zrange in Hin. lia.
  Qed.
End LI3.
