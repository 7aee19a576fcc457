(** Execution of single nodes. *)
From Coq Require Import Sorted.
From Verif Require Import Base S_Bits L_Bits M_Kron S_Kron M_Ops S_Ops L_Ops2 L_Ops3 L_Ops4 M_Feed S_Feed M_Func S_Func L_Func L_Func2
  M_Measure S_Measure L_Measure6 L_Alg M_Graph S_Graph L_Graph1 L_Graph2 L_Graph3.

Section NodeSem.
  Context {K : Type} {OK : OrdRing K}.
  Notation C := (Cx K).
  Add Ring KRing4 : (@rth K _).
  Add Ring CRing4 : (@rth (Cx K) _).

  (** ** ops act as in the textbook *)
  Lemma op_acts_ok n (o : op K) : forall groups mats v W, 0 <= n -> op_fits o groups -> qubits_ok n (concat groups) ->
    op_ms o false groups = Ok mats -> applied n mats v W ->
    forall r, 0 <= r < 2 ^ n -> amp W r = op_acts n o groups (amp v) r.
  Proof.
    induction o as [| | |h|e|k|o IH]; intros groups mats v W Hn Hf Hq Hm Ha r Hr;
      try (cbn [op_acts]; eapply gate_action; eauto; reflexivity).
    - destruct Hf as (a & b & -> & Ea & Eb). cbn [concat] in Hq. rewrite app_nil_r in Hq. cbn [op_acts hd tl].
      apply (swap_action n a b k mats v W Hn Ea Eb Hq Hm Ha); auto.
      + apply setreg_range; auto.
      + apply swapped_sym. apply sw_swapped; auto. congruence.
    - destruct Hf as (c & gs & -> & Hf). cbn [concat app] in Hq.
      assert (Hq2 : qubits_ok n (concat gs)).
      { destruct Hq as [Hd Hi]. inversion Hd; subst. split; auto. intros q H; apply Hi; right; auto. }
      destruct Ha as (Hv & out & i & Hout & Hi & Ek).
      destruct (op_accepted n o gs v out i Hn Hf Hq2 Hv Hout Hi) as (m & W0 & Em & E0).
      assert (A0 : applied n m v W0) by (split; auto; exists out, i; auto).
      assert (A1 : applied n mats v W) by (split; auto; exists out, i; auto).
      rewrite (controlled_action n [c] o gs m mats v W W0 Hn Hf Hq Em Hm A0 A1 r Hr).
      cbn [op_acts hd tl]. destruct (forallb (qbit n r) [c]); auto. eapply IH; eauto.
  Qed.

  (** ** the matrices of the adjoint op *)
  Lemma kdict_set_map (f : mat K -> mat K) (d : mats_arg K) k m :
    map (fun km => (fst km, f (snd km))) (kdict_set d k m) = kdict_set (map (fun km => (fst km, f (snd km))) d) k (f m).
  Proof. induction d as [|[k' m'] d IH]; cbn; auto. destruct (key_eqb k' k); cbn; [reflexivity|]. rewrite IH. reflexivity. Qed.
  Fixpoint madj (m : mat K) : mat K :=
    match m with
    | MNum r c d => MNum c r (map (fun x => znth 0%r (map cconj d) ((x mod r) * c + x / r)) (zrange 0 (c * r)))
    | MC m => MC (madj m)
    | m => m
    end.
  Lemma madj_ok m : no_swap m = true -> (do m1 <- mat_conj m; mat_T m1) = Ok (madj m).
  Proof.
    induction m as [r c d|m IH|k|]; cbn [no_swap madj mat_conj]; intros H; try discriminate; [reflexivity|].
    specialize (IH H). destruct (mat_conj m) as [m1|]; cbn [bind] in *; [|discriminate]. cbn [mat_T]. rewrite IH. reflexivity.
  Qed.
  Lemma adj_ms_ok (ms : mats_arg K) : (forall km, In km ms -> no_swap (snd km) = true) ->
    adj_ms ms = Ok (map (fun km => (fst km, madj (snd km))) ms).
  Proof.
    intros H. unfold adj_ms. apply mmap_ok. intros [k m] Hin. cbn [fst snd]. pose proof (madj_ok m (H _ Hin)) as E.
    destruct (mat_conj m) as [m1|]; cbn [bind] in *; [|discriminate]. rewrite E. reflexivity.
  Qed.
  Lemma cconj_cxi : (cconj (cxi : C) = - cxi)%r.
  Proof. change (cconj (cxi : C) = cxopp cxi). unfold cconj, cxopp, cxi. cbn [fst snd]. f_equal. ring. Qed.
  Lemma cconj_opp (a : C) : (cconj (- a) = - cconj a)%r.
  Proof. change (cconj (cxopp a) = cxopp (cconj a)). destruct a. reflexivity. Qed.
  Lemma cconj_creal (a : K) : cconj (creal a) = creal a.
  Proof. unfold cconj, creal. cbn [fst snd]. f_equal. ring. Qed.
  Lemma madj_mat2 (a b c d : C) : madj (MNum 2 2 [a; b; c; d]) = MNum 2 2 [cconj a; cconj c; cconj b; cconj d].
  Proof. reflexivity. Qed.
  Lemma madj_gate (o : op K) g : gate_of o = Some g -> exists g', gate_of (op_adj o) = Some g' /\ madj (mat2 g) = mat2 g'.
  Proof.
    destruct o as [| | |h|e|k|o]; cbn [gate_of op_adj]; intros E; inversion E; subst; eexists; (split; [reflexivity|]);
      unfold mat2, gate_X, gate_Y, gate_Z, gate_H, gate_R; rewrite madj_mat2; f_equal;
      rewrite ?cconj_0, ?cconj_1, ?cconj_opp, ?cconj_cxi, ?cconj_creal, ?cconj_1; try reflexivity.
    repeat f_equal; ring.
  Qed.
  Lemma per_index_map (f : mat K -> mat K) (m : mat K) groups : map (fun km => (fst km, f (snd km))) (per_index m groups) = per_index (f m) groups.
  Proof.
    unfold per_index. change (@nil (key * mat K)) with (map (fun km : key * mat K => (fst km, f (snd km))) []) at 2.
    generalize (@nil (key * mat K)). induction (concat groups) as [|i l IH]; intros d; cbn [fold_left]; auto.
    rewrite IH, kdict_set_map. reflexivity.
  Qed.
  Lemma makemats_adj (o : op K) : forall groups ms, has_swap o = false -> makemats o groups = Ok ms ->
    makemats (op_adj o) groups = Ok (map (fun km => (fst km, madj (snd km))) ms).
  Proof.
    induction o as [| | |h|e|k|o IH]; intros groups ms Hs E; try discriminate;
      try (match type of E with makemats ?oo _ = _ => destruct (gate_of oo) as [g|] eqn:Eg; [|discriminate];
             destruct (madj_gate oo g Eg) as (g' & Eg' & Em);
             rewrite (gate_mats oo g groups Eg) in E; inversion E; subst;
             rewrite (gate_mats _ g' groups Eg'), per_index_map, Em; reflexivity end).
    cbn [has_swap] in Hs. cbn [makemats op_adj] in *. destruct (makemats o (tl groups)) as [opm|] eqn:Eo; [|discriminate].
    rewrite (IH _ _ Hs Eo). cbn [bind] in *. revert E. 
    change (@nil (key * mat K)) with (map (fun km : key * mat K => (fst km, madj (snd km))) []) at 2.
    generalize (@nil (key * mat K)). clear. induction opm as [|[k m] opm IH]; intros d E; cbn [mfold map fst snd] in *.
    - inversion E. reflexivity.
    - destruct (pyget groups 0) as [c|]; cbn [bind] in *; [|discriminate].
      destruct (key_flat k) as [ix|]; cbn [bind] in *; [|discriminate].
      change (MC (madj m)) with (madj (MC m)). rewrite <- kdict_set_map. apply IH. exact E.
  Qed.
  Lemma op_adj_fits (o : op K) : forall groups, op_fits o groups -> op_fits (op_adj o) groups.
  Proof.
    induction o; cbn [op_fits op_adj]; auto. intros groups (c & gs & -> & H). exists c, gs. auto.
  Qed.
  Lemma no_swap_mats (o : op K) groups ms : op_fits o groups -> NoDup (concat groups) -> has_swap o = false -> makemats o groups = Ok ms ->
    forall km, In km ms -> no_swap (snd km) = true.
  Proof.
    intros Hf Hd Hs E [k m] Hin. destruct (op_no_swap o groups ms Hf Hd E) as [_ H]. cbn [snd]. rewrite (H k m Hin), Hs. reflexivity.
  Qed.
End NodeSem.
