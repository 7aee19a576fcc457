(** Lemmas about the wire format. *)
From Verif Require Import Base S_Bits M_Bits M_Kron S_Kron M_Ops S_Ops L_Kron L_Kron2 L_Kron3 L_Ops1 L_Ops2 L_Ops3 L_Ops4 M_Feed M_Proto S_Proto.

Section ProtoLemmas.
  Context {K : Type} {OK : OrdRing K}.
  Notation C := (Cx K).
  Add Ring KRing_lproto : (@rth K _).

  Lemma int32_ok i : is_int32 i -> int32 i = Ok i.
  Proof. intros H. unfold int32. rewrite (proj2 (Z.leb_le _ _)), (proj2 (Z.ltb_lt _ _)) by apply H. reflexivity. Qed.
  Lemma int64_ok i : is_int64 i -> int64 i = Ok i.
  Proof. intros H. unfold int64. rewrite (proj2 (Z.leb_le _ _)), (proj2 (Z.ltb_lt _ _)) by apply H. reflexivity. Qed.
  Lemma indices_ok l : (forall i, In i l -> is_int32 i) -> indices_to_pbindices l = Ok l.
  Proof.
    unfold indices_to_pbindices. induction l as [|i l IH]; intros H; cbn [mmap]; auto.
    rewrite int32_ok by (apply H; left; auto). cbn [bind]. rewrite IH by (intros; apply H; right; auto). reflexivity.
  Qed.
  Lemma vec_ok (v : list C) : pbvec_to_vec (vec_to_pbvec v) = Ok v.
  Proof.
    unfold pbvec_to_vec, vec_to_pbvec. cbn [pv_real pv_imag]. unfold zlen. rewrite !map_length, Z.eqb_refl. f_equal.
    induction v as [|[a b] v IH]; auto. cbn [map combine]. rewrite IH. f_equal.
    unfold creal, cxi. apply (f_equal2 pair); cbn; unfold rmul; cbn; ring.
  Qed.
  Lemma matop_ok : forall (m : mat K) indices, (forall i, In i indices -> is_int32 i) -> wire_mat (zlen indices) m ->
    exists o, matop_to_pbmatop indices m = Ok o /\ pbmatop_to_matop o = Ok (indices, m).
  Proof.
    induction m as [r c d|m IH|n|r c g]; intros indices Hi Hm; cbn [matop_to_pbmatop]; rewrite indices_ok by auto; cbn [bind wire_mat] in *.
    - destruct Hm as (Hr & Hc & Hd). unfold mat_to_pbmat. cbn [mmap]. rewrite !int32_ok by auto. cbn [bind].
      eexists. split; [reflexivity|]. cbn [pbmatop_to_matop]. unfold pbmat_to_mat. cbn [pm_data pm_shape]. rewrite vec_ok. cbn [bind].
      rewrite Hd, Z.eqb_refl. reflexivity.
    - destruct Hm as [H1 Hm]. destruct indices as [|i indices]; [exfalso; vm_compute in H1; apply H1; reflexivity|]. cbn [tl].
      destruct (IH indices) as (o & E & D); [intros; apply Hi; right; auto|rewrite zlen_cons in Hm; replace (zlen indices) with (zlen indices + 1 - 1) by lia; auto|].
      rewrite E. cbn [bind]. eexists. split; [reflexivity|]. cbn [pbmatop_to_matop]. rewrite D. reflexivity.
    - eexists. split; [reflexivity|]. cbn [pbmatop_to_matop]. unfold pbindices_to_indices. cbv zeta. rewrite Hm. rewrite Z.mul_comm, Z.div_mul by lia. reflexivity.
    - destruct Hm.
  Qed.
  Lemma kronprod_ok (mats : mats_arg K) :
    (forall k m, In (k, m) mats -> exists l, k = KTuple l /\ (forall i, In i l -> is_int32 i) /\ wire_mat (zlen l) m) -> NoDup (map fst mats) ->
    exists msg, encode_kronprod mats = Ok msg /\ decode_kronprod msg = Ok mats.
  Proof.
    intros H N. unfold encode_kronprod, decode_kronprod.
    assert (G : forall (mats : mats_arg K) acc, (forall k m, In (k, m) mats -> exists l, k = KTuple l /\ (forall i, In i l -> is_int32 i) /\ wire_mat (zlen l) m) -> NoDup (map fst (acc ++ mats)) ->
      exists msg, mmap (fun '(indices, m) => match indices with KTuple l => matop_to_pbmatop l m | KInt _ | KOther => Raise TypeError end) mats = Ok msg /\
        mfold (fun (mats : mats_arg K) o => do im <- pbmatop_to_matop o; Ok (kdict_set mats (KTuple (fst im)) (snd im))) msg acc = Ok (acc ++ mats)).
    { clear. induction mats as [|[k m] mats IH]; intros acc H N; cbn [mmap].
      - exists []. split; auto. rewrite app_nil_r. reflexivity.
      - destruct (H k m (or_introl eq_refl)) as (l & -> & Hi & Hm). destruct (matop_ok m l Hi Hm) as (o & E & D). rewrite E. cbn [bind].
        destruct (IH (acc ++ [(KTuple l, m)])) as (msg & E' & D'); [intros; apply H; right; auto|rewrite <- app_assoc; auto|].
        rewrite E'. cbn [bind]. eexists. split; [reflexivity|]. cbn [mfold]. rewrite D. cbn [bind fst snd]. rewrite kdict_set_new.
        + rewrite D'. rewrite <- app_assoc. reflexivity.
        + intros k' m' Hin. destruct (key_eqb k' (KTuple l)) eqn:Ek; auto. exfalso. rewrite map_app in N. cbn [map fst] in N. apply NoDup_remove_2 in N. apply N. apply in_app_iff. left.
          apply in_map_iff. exists (k', m'). split; auto. destruct k'; cbn in Ek; try discriminate. apply zlist_eqb_eq in Ek. cbn. congruence. }
    destruct (G mats [] H N) as (msg & E & D). exists msg. auto.
  Qed.
  Lemma kronprod_int (mats : mats_arg K) : (exists i m mats', mats = (KInt i, m) :: mats') -> encode_kronprod mats = Raise TypeError.
  Proof. intros (i & m & mats' & ->). reflexivity. Qed.

  (** ** the dictionaries of ops *)
  Lemma ops_wire (o : op K) : forall n groups mats, 0 <= n -> op_fits o groups -> qubits_ok n (concat groups) -> makemats o groups = Ok mats ->
    keys_ok mats /\ (forall k m, In (k, m) mats -> wire_mat (zlen (key_group k)) m /\ incl (key_group k) (concat groups)) /\
    (gate_of o = None -> forall k m, In (k, m) mats -> exists l, k = KTuple l).
  Proof.
    assert (B : forall o n groups mats, 0 <= n -> op_fits o groups -> qubits_ok n (concat groups) -> makemats o groups = Ok mats -> keys_ok mats).
    { intros o' n groups mats Hn HF HQ E. destruct (op_mats_ok n o' groups Hn HF HQ) as (mats' & E' & Hwf & _). rewrite E in E'. inversion E'; subst. apply Hwf. }
    assert (G : forall (m : mat K) groups k m', NoDup (concat groups) -> wire_mat 1 m -> In (k, m') (per_index m groups) -> wire_mat (zlen (key_group k)) m' /\ incl (key_group k) (concat groups)).
    { intros m groups k m' Hd Hw Hin. rewrite per_index_nodup in Hin by auto. apply in_map_iff in Hin as (i & E & Hi). inversion E; subst. split; [exact Hw|]. intros x [<-|[]]. auto. }
    assert (W : forall a b c d : C, wire_mat 1 (MNum 2 2 [a; b; c; d])) by (intros; cbn [wire_mat]; split; [split; vm_compute; congruence|split; [split; vm_compute; congruence|reflexivity]]).
    induction o as [| | |h|e|s|o IH]; intros n groups mats Hn HF HQ E.
    1-5: (split; [eapply B; eauto|]; split; [|discriminate]; inversion E; subst; intros k m Hin; eapply G; [apply HQ| |exact Hin]; apply W).
    - split; [eapply B; eauto|]. destruct HF as (a & b & -> & Ha & Hb). cbn in E. inversion E; subst. split.
      + intros k m [Hin|[]]. inversion Hin; subst. cbn [key_group wire_mat]. rewrite zlen_app. split; [lia|]. cbn. rewrite app_nil_r. apply incl_refl.
      + intros _ k m [Hin|[]]. inversion Hin; subst. eauto.
    - pose proof (B _ _ _ _ Hn HF HQ E) as Hk. split; [exact Hk|]. destruct HF as (c & gs & -> & HF).
      destruct (makemats_C_inv o c gs mats E) as (opm & E'). cbn [concat app] in HQ.
      assert (HQ' : qubits_ok n (concat gs)) by (destruct HQ as [Q1 Q2]; split; [inversion Q1; auto|intros; apply Q2; right; auto]).
      destruct (IH n gs opm Hn HF HQ' E') as (Hk' & Hw & _). rewrite (makemats_C o c gs opm E' Hk') in E. inversion E; subst. split.
      + intros k m Hin. apply in_map_iff in Hin as ([k' m'] & Ek & Hin). inversion Ek; subst. destruct (Hw k' m' Hin) as [W1 W2]. cbn [key_group fst snd wire_mat concat app].
        rewrite zlen_cons. pose proof (zlen_nonneg (key_group k')). replace (zlen (key_group k') + 1 - 1) with (zlen (key_group k')) by lia. split; [split; auto; lia|]. intros x [<-|Hx]; [left; auto|right; auto].
      + intros _ k m Hin. apply in_map_iff in Hin as ([k' m'] & Ek & Hin). inversion Ek; subst. eauto.
  Qed.
  Lemma conj_wire (m : mat K) : forall k m', wire_mat k m -> mat_conj m = Ok m' -> wire_mat k m'.
  Proof.
    induction m as [r c d|m IH|n|r c g]; intros k m' Hw E; cbn [mat_conj] in E; try discriminate.
    - inversion E; subst. destruct Hw as (H1 & H2 & H3). do 2 (split; [assumption|]). rewrite zlen_map. auto.
    - destruct (mat_conj m) as [m1|]; [|discriminate]. inversion E; subst. destruct Hw. split; auto.
  Qed.
  Lemma T_wire (m : mat K) : forall k m', wire_mat k m -> mat_T m = Ok m' -> wire_mat k m'.
  Proof.
    induction m as [r c d|m IH|n|r c g]; intros k m' Hw E; cbn [mat_T] in E; try discriminate.
    - inversion E; subst. destruct Hw as (H1 & H2 & H3). do 2 (split; [assumption|]). pose proof (zlen_nonneg d). rewrite zlen_map, zlen_zrange; lia.
    - destruct (mat_T m) as [m1|]; [|discriminate]. inversion E; subst. destruct Hw. split; auto.
  Qed.
  Lemma ms_entries (o : op K) dagger groups mats : op_ms o dagger groups = Ok mats ->
    exists ms, makemats o groups = Ok ms /\ map fst mats = map fst ms /\
      forall k m, In (k, m) mats -> exists m0, In (k, m0) ms /\ forall j, wire_mat j m0 -> wire_mat j m.
  Proof.
    unfold op_ms. destruct (makemats o groups) as [ms|]; [|discriminate]. cbn [bind]. destruct dagger; intros E; exists ms; split; auto.
    2:{ inversion E; subst. split; auto. intros k m Hin. exists m. auto. }
    revert mats E. induction ms as [|[k m] ms IH]; intros mats E; cbn [mmap] in E; [inversion E; split; auto; intros k m []|].
    destruct (mat_conj m) as [m1|] eqn:E1; [|discriminate]. cbn [bind] in E. destruct (mat_T m1) as [m2|] eqn:E2; [|discriminate]. cbn [bind] in E.
    match type of E with bind ?x _ = _ => destruct x as [rest|] eqn:Er; [|discriminate] end. cbn [bind] in E. inversion E; subst.
    destruct (IH rest eq_refl) as [H1 H2]. split; [cbn [map fst]; congruence|]. intros k' m' [Hin|Hin].
    - inversion Hin; subst. exists m. split; [left; auto|]. intros j Hj. eapply T_wire; [eapply conj_wire; eauto|eauto].
    - destruct (H2 k' m' Hin) as (m0 & H3 & H4). exists m0. split; [right; auto|auto].
  Qed.
  Lemma ops_on_wire n (o : op K) dagger groups mats : 0 <= n < 2 ^ 31 -> op_fits o groups -> qubits_ok n (concat groups) -> gate_of o = None ->
    op_ms o dagger groups = Ok mats -> exists msg, encode_kronprod mats = Ok msg /\ decode_kronprod msg = Ok mats.
  Proof.
    intros Hn HF HQ Hg E. destruct (ms_entries o dagger groups mats E) as (ms & E0 & Ek & Hm).
    destruct (ops_wire o n groups ms ltac:(lia) HF HQ E0) as ([Hk1 Hk2] & Hw & Ht). apply kronprod_ok.
    - intros k m Hin. destruct (Hm k m Hin) as (m0 & Hin0 & Hmm). destruct (Ht Hg k m0 Hin0) as (l & ->). exists l. split; auto.
      destruct (Hw _ _ Hin0) as [W1 W2]. split; [|apply Hmm; exact W1]. intros i Hi. apply W2 in Hi. destruct HQ as [_ HQ]. apply HQ in Hi. unfold is_int32. lia.
    - rewrite Ek. rewrite <- (map_map fst key_group) in Hk2. apply NoDup_map_inv in Hk2. exact Hk2.
  Qed.
  Lemma gates_not_on_wire n (o : op K) g dagger groups (v out : list C) i : 0 <= n -> op_fits o groups -> qubits_ok n (concat groups) -> gate_of o = Some g ->
    zlen v = 2 ^ n -> zlen out = 2 ^ n -> impl_sched_ok i (zlen out) ->
    (forall mats, op_ms o dagger groups = Ok mats -> encode_kronprod mats = Raise TypeError) /\
    (exists mats W, op_ms o false groups = Ok mats /\ kronselect_dot mats v n out 0 0 i = Ok W).
  Proof.
    intros Hn HF HQ Hg Hv Ho Hi. split.
    - intros mats E. destruct (ms_entries o dagger groups mats E) as (ms & E0 & Ek & _).
      rewrite (gate_mats o g groups Hg) in E0. inversion E0; subst ms. rewrite per_index_nodup in Ek by apply HQ.
      assert (HF' : concat groups <> []) by (destruct o; cbn in HF; auto; discriminate).
      destruct (concat groups) as [|q qs]; [congruence|]. destruct mats as [|[k m] mats]; [discriminate|]. cbn [map fst] in Ek. inversion Ek; subst. reflexivity.
    - apply op_accepted; auto.
  Qed.

  (** ** states *)
  Lemma states_ok : forall index_groups (feed_list : list (feed_t K)), length index_groups = length feed_list ->
    (forall g i, In g index_groups -> In i g -> is_int32 i) -> (forall f, In f feed_list -> wire_feed f) ->
    exists msg, encode_states index_groups feed_list = Ok msg /\ decode_states msg = Ok (index_groups, feed_list).
  Proof.
    unfold encode_states, decode_states. induction index_groups as [|g gs IH]; intros [|f fs] El Hg Hf; try discriminate; cbn [combine mmap].
    - exists []. split; reflexivity.
    - destruct (IH fs) as (msg & E & D); [cbn in El; lia|intros; eapply Hg; [right|]; eauto|intros; apply Hf; right; auto|].
      rewrite indices_ok by (intros; eapply Hg; [left|]; eauto). cbn [bind].
      match type of D with bind ?x _ = _ => destruct x as [feeds|] eqn:Ef; [|discriminate] end. cbn [bind] in D. inversion D; subst.
      destruct f as [a|i]; [|rewrite int64_ok by (apply (Hf (FInt i)); left; auto); cbn [bind]]; rewrite E; cbn [bind]; eexists; (split; [reflexivity|]); cbn [mmap ps_value].
      + rewrite vec_ok. cbn [bind]. rewrite Ef. cbn [bind map ps_indices]. reflexivity.
      + cbn [bind]. rewrite Ef. cbn [bind map ps_indices]. reflexivity.
  Qed.
End ProtoLemmas.
