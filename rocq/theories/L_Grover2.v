(** Grover's search: the circuit and its runs. *)
From Coq Require Import Sorted.
From Verif Require Import Base S_Bits L_Bits M_Kron S_Kron M_Ops S_Ops L_Ops4 M_Feed S_Feed L_Feed M_Func S_Func L_Func2
  M_Measure S_Measure L_Alg M_Graph S_Graph L_Graph1 L_Graph2 L_Graph3 L_Graph5 L_Graph6 L_Graph7 L_Graph8 L_Graph9 L_Graph10 L_Graph11
  M_Context S_Context L_Sinks L_Grow1 L_Grow2 L_Context1 L_Context2 L_Context3 L_Context4 L_Context6 L_Context7 M_Examples S_Examples L_Resume L_Example1 L_Example2 L_Tail L_Grover1.

Section Program.
  Context {K : Type} {OK : OrdRing K}.
  Notation C := (Cx K).
  Add Ring CRg : (@rth C _).
  Variable cn : consts K.
  Variables (k x0 : Z) (u a : K).
  Hypothesis Hk : 0 < k.
  Let n := k + 1.
  Let Q := zrange 0 (0 + k).
  Let A := zrange (0 + k) (0 + k + 1).
  Let s := c_h cn.
  Local Notation iter0 v := (fun r => apply_each n (gate_H s) (concat [Q]) (fun x => apply_each n (gate_H s) (concat [Q]) (fun y => v (fxor n Q A (indicator x0) y)) (fxor n Q A (indicator 0) x)) r).

  Lemma A_eq : A = [k].
  Proof. unfold A. rewrite Z.add_0_l. rewrite (zrange_app k (k + 1) (k + 1)) by lia. unfold zrange. replace (Z.to_nat (k + 1 - k)) with 1%nat by lia. replace (Z.to_nat (k + 1 - (k + 1))) with O by lia. cbn. f_equal. lia. Qed.
  Lemma QA : Q ++ A = zrange 0 n.
  Proof. unfold Q, A, n. rewrite <- zrange_app by lia. f_equal; lia. Qed.
  Lemma QA_ok : qubits_ok n (Q ++ A).
  Proof. rewrite QA. split; [apply zrange_nodup|]. intros q Hq. apply in_zrange in Hq. auto. Qed.
  Lemma QA_all q : 0 <= q < n -> In q (Q ++ A).
  Proof. intros Hq. rewrite QA. apply in_zrange. auto. Qed.
  Lemma len_Q : zlen Q = k.
  Proof. unfold Q. rewrite zlen_zrange; lia. Qed.
  Lemma QA_others : others n Q A = [].
  Proof.
    unfold others. rewrite QA. apply filter_none || idtac.
    destruct (filter _ (zrange 0 n)) as [|q l] eqn:E; auto. assert (Hq : In q (q :: l)) by (left; auto). rewrite <- E in Hq. apply filter_In in Hq. destruct Hq as [H1 H2].
    apply negb_true_iff in H2. assert (existsb (Z.eqb q) (zrange 0 n) = true) by (apply existsb_exists; exists q; split; auto; apply Z.eqb_refl). congruence.
  Qed.
  (** the amplitudes of the defaults *)
  Lemma fed_defaults r : 0 <= r < 2 ^ n ->
    fed_amp n [(Q, map (fun _ => creal u) (zrange 0 (2 ^ k))); (A, [creal a; (- creal a)%r])] r = kicked n Q k (creal a) (fun _ => creal u) r.
  Proof.
    intros Hr. unfold fed_amp. replace (forallb _ _) with true.
    - cbn [prod fst snd map fold_right]. unfold kicked. pose proof (reg_range n Q r) as R. rewrite len_Q in R.
      rewrite znth_map_zrange by lia. rewrite A_eq, reg1. destruct (qbit n r k).
      + change (znth 0%r [creal a; (- creal a)%r] (Z.b2z true)) with (- creal a)%r. ring.
      + change (znth 0%r [creal a; (- creal a)%r] (Z.b2z false)) with (creal a). ring.
    - symmetry. apply forallb_forall. intros q Hq. apply orb_true_iff. left. apply existsb_exists. exists q. split; [|apply Z.eqb_refl].
      cbn [map fst concat]. rewrite app_nil_r, QA. auto.
  Qed.

  Definition probs_of (v : Z -> C) : list K := map (marginal n (rev Q) v) (zrange 0 (2 ^ k)).

  Lemma grover_built : exists w vis sm_ds sm_da, grover cn k x0 u a = (w, Ok (sm_ds, sm_da)) /\
    let h := w_heap w in let args := [sm_ds; sm_da] in
    session h vis cache0 [] /\ incl args vis /\ same_qubits h args args /\
    (exists srcs, wf h vis /\ splits_in_range h vis /\ sources h args srcs /\ widths h srcs = n) /\
    forall c l ev state w0, session h vis c l -> (forall x, In x l -> x = args) -> enum_ok ev -> scheds_ok ev h n ->
    (state = SNone /\ w0 = (fun _ => creal u) \/ exists st0, state = SList st0 /\ zlen st0 = 2 ^ n /\
       forall r, 0 <= r < 2 ^ n -> amp st0 r = kicked n Q k (creal a) w0 r) ->
    exists c' st_ cm, run ev c h args [] false state = (c', Ok (st_, cm)) /\ zlen st_ = 2 ^ n /\ session h vis c' (args :: l) /\
      (forall r, 0 <= r < 2 ^ n -> amp st_ r = iter0 (kicked n Q k (creal a) w0) r) /\
      lookup sm_ds cm = Ok (CProbs (inl (probs_of (amp st_)))).
  Proof.
    set (dq := map (fun _ : Z => creal u) (zrange 0 (2 ^ k))). set (da := [creal a; (- creal a)%r]).
    destruct (fresh_add empty_heap [] k (Some (DArray dq)) fresh_empty Hk I) as (h1 & E1 & F1 & X1 & W1 & D1 & Z1).
    destruct (fresh_add h1 _ 1 (Some (DList da)) F1 ltac:(lia) eq_refl) as (h2 & E2 & F2 & X2 & W2 & D2 & Z2).
    change (size (K := K) empty_heap) with O in *. rewrite Z1 in *. cbn [app] in *. clear F1.
    assert (V1 : width h2 0 = k) by (rewrite (ext_width h1); auto; lia).
    assert (V2 : nd_default (nd h2 0) = Some (DArray dq)).
    { destruct (ext_fields _ _ 0%nat X2 ltac:(lia)) as (_ & _ & _ & _ & T & _). rewrite T. auto. }
    set (srcs := [0; 1]%nat) in *. set (w0 := set_heap (K := K) start h2).
    assert (Ew : widths h2 srcs = n). { unfold widths, srcs. cbn. unfold n. lia. }
    assert (El : layout h2 srcs = combine srcs [Q; A]). { unfold layout. cbn [map srcs]. rewrite V1, W2. reflexivity. }
    pose proof (fresh_circ _ _ F2) as C0. rewrite El in C0. cbn [combine srcs] in C0.
    pose proof QA_ok as RO. pose proof len_Q as LQ.
    assert (NA : A <> []) by (rewrite A_eq; discriminate).
    assert (NQ : Q <> []) by (intros H; rewrite H in LQ; unfold zlen in LQ; cbn in LQ; lia).
    assert (P0 : plain w0) by (split; reflexivity).
    assert (NDQ : NoDup Q) by apply zrange_nodup. assert (NDA : NoDup A) by apply zrange_nodup.
    destruct (f_grow srcs cn w0 srcs 0%nat 1%nat Q A (fun x => Ok (indicator x0 x)) (indicator x0) []) as (w1 & vis1 & o1 & o1' & K1 & P1 & G1); auto.
    { apply RO. } { change (w_heap w0) with h2. rewrite Ew. right. apply QA_others. }
    pose proof (grow_circ _ _ _ _ _ _ _ _ G1) as C1. pose proof (grow_widths _ _ _ _ _ _ _ _ C0 G1) as Ew1.
    destruct (call_plain srcs cn w1 vis1 H_ [o1] [Q] (OH s) [(o1', A)]) as (w2 & vis2 & o2 & K2 & P2 & L2 & _ & G2); auto.
    { constructor. } { discriminate. } { intros g [<-|[]]; auto. } { cbn [concat]. rewrite app_nil_r. auto. }
    destruct o2 as [|o2 [|? ?]]; try discriminate. cbn [combine app map] in *.
    pose proof (grow_circ _ _ _ _ _ _ _ _ G2) as C2. pose proof (grow_widths _ _ _ _ _ _ _ _ C1 G2) as Ew2.
    destruct (f_grow srcs cn w2 vis2 o2 o1' Q A (fun x => Ok (indicator 0 x)) (indicator 0) []) as (w3 & vis3 & o3 & o3' & K3 & P3 & G3); auto.
    { apply RO. } { rewrite Ew2, Ew1. change (w_heap w0) with h2. rewrite Ew. right. apply QA_others. }
    pose proof (grow_circ _ _ _ _ _ _ _ _ G3) as C3. pose proof (grow_widths _ _ _ _ _ _ _ _ C2 G3) as Ew3.
    destruct (call_plain srcs cn w3 vis3 H_ [o3] [Q] (OH s) [(o3', A)]) as (w4 & vis4 & o4 & K4 & P4 & L4 & _ & G4); auto.
    { constructor. } { discriminate. } { intros g [<-|[]]; auto. } { cbn [concat]. rewrite app_nil_r. auto. }
    destruct o4 as [|o4 [|? ?]]; try discriminate. cbn [combine app map] in *.
    pose proof (grow_circ _ _ _ _ _ _ _ _ G4) as C4. pose proof (grow_widths _ _ _ _ _ _ _ _ C3 G4) as Ew4.
    pose proof (grow_trans _ _ _ _ _ _ _ _ _ _ _ _ C0 (grow_trans _ _ _ _ _ _ _ _ _ _ _ _ C0 (grow_trans _ _ _ _ _ _ _ _ _ _ _ _ C0 G1 G2) G3) G4) as G.
    change (w_heap w0) with h2 in *. rewrite Ew in *. rewrite Ew1 in *. rewrite Ew2 in *. rewrite Ew3 in *.
    destruct (measure_tail srcs (w_heap w4) vis4 o4 Q [(o3', A)] (KStoch 0)) as (h5 & sm & M5 & Km & Im & T5); auto.
    pose proof (proj1 T5) as C5.
    assert (C5' : circ srcs h5 (vis4 ++ [sm]) [(o3', A); (sm, Q)]) by (eapply circ_perm; [apply perm_swap|exact C5]).
    destruct (measure_tail srcs h5 (vis4 ++ [sm]) o3' A [(sm, Q)] (KStoch 0)) as (h6 & sa & M6 & Ka & Ia & T6); auto.
    assert (T : tailed srcs (w_heap w4) vis4 [(o4, Q); (o3', A)] h6 ((vis4 ++ [sm]) ++ [sa]) [(sm, Q); (sa, A)] ([sm] ++ [sa])).
    { eapply tailed_trans; [exact T5|]. eapply tailed_perm; [apply perm_swap|apply perm_swap|exact T6]. }
    set (vis6 := (vis4 ++ [sm]) ++ [sa]) in *. cbn [app] in T.
    assert (X6 : ext h5 h6) by apply T6.
    assert (Hsm5 : (sm < size h5)%nat).
    { apply (wf_vis _ _ (built_wf _ _ (c_built _ _ _ _ C5))). apply in_app_iff; right; left; auto. }
    exists (set_heap (set_heap w4 h5) h6), vis6, sm, sa. split.
    { unfold grover, new_qubit, Us, Uw. fold dq da. change (w_heap start) with (empty_heap (K := K)). rewrite E1. cbn [on_heap fst snd sbind]. change (w_heap (set_heap start h1)) with h1.
      rewrite E2. cbn [on_heap fst snd sbind]. change (set_heap (set_heap start h1) h2) with w0.
      change (fun x : Z => Ok (if x =? x0 then 1 else 0)) with (fun x => Ok (indicator x0 x)). rewrite K1. cbn [two_outputs sbind].
      change (AQ o1 :: nil) with (map (@AQ K) [o1]). cbn [map]. rewrite K2. cbn [one_output sbind].
      change (fun x : Z => Ok (if x =? 0 then 1 else 0)) with (fun x => Ok (indicator 0 x)). rewrite K3. cbn [two_outputs sbind]. rewrite K4. cbn [one_output sbind].
      rewrite M5. cbn [on_heap fst snd sbind]. change (w_heap (set_heap w4 h5)) with h5. rewrite M6. reflexivity. }
    cbv zeta. change (w_heap (set_heap (set_heap w4 h5) h6)) with h6. set (args := [sm; sa]).
    pose proof (proj1 T) as C6. pose proof (circ_circuit _ _ _ _ C6) as (B6 & In6 & Sp6 & Sw6 & Sr6 & Ok6). cbn [map fst] in In6, Sr6, Ok6. fold args in In6, Sr6, Ok6.
    pose proof (built_wf _ _ B6) as WF6.
    assert (S6 : session h6 vis6 cache0 []). { apply T. apply G. apply F2. }
    assert (Same : same_qubits h6 args args) by (apply (same_qubits_refl h6 vis6); auto).
    assert (X4 : ext (w_heap w4) h6) by apply T. assert (XG : ext h2 (w_heap w4)) by apply G.
    assert (X26 : ext h2 h6) by (eapply ext_trans; eauto).
    assert (EW6 : widths h6 srcs = n).
    { rewrite <- Ew. apply ext_widths; auto. intros i Hi. apply (f_size _ _ F2); auto. }
    split; auto. split; auto. split; auto. split; [exists srcs; auto|].
    assert (El' : layout h6 srcs = combine srcs [Q; A]).
    { rewrite <- El. unfold layout. f_equal. f_equal. apply map_ext_in. intros i Hi. apply (ext_fields _ _ i X26). apply (f_size _ _ F2); auto. }
    assert (HW : forall q g, In (q, g) (combine srcs [Q; A]) -> wires h6 srcs q g).
    { intros q g Hq. rewrite <- El' in Hq. apply (layout_wires h6 srcs srcs [] 0); auto. }
    intros c l ev state wf0 Hses Hl He Hsc Hst.
    assert (Hinit : exists init, initial h6 srcs n [] state init /\ forall r, 0 <= r < 2 ^ n -> fed_amp n init r = kicked n Q k (creal a) wf0 r).
    { destruct Hst as [[-> ->]|(st0 & -> & Hz & Hst)].
      - exists [(Q, dq); (A, da)]. split; [|apply fed_defaults]. apply initial_feed. split; [constructor|]. split; [intros x []|].
        exists [], [(Q, dq); (A, da)]. split; [constructor|]. split; [|split; [reflexivity|]].
        + assert (Dd : forall i d, In i srcs -> nd_default (nd h2 i) = Some d -> nd_default (nd h6 i) = Some d).
          { intros i d Hi Hd. destruct (ext_fields _ _ i X26 (f_size _ _ F2 i Hi)) as (_ & _ & _ & _ & T' & _). rewrite T'. auto. }
          apply dr_use; [intros []|unfold default_amps; rewrite (Dd 0%nat _ ltac:(left; auto) V2); auto|apply HW; left; auto|].
          apply dr_use; [intros []|unfold default_amps; rewrite (Dd 1%nat _ ltac:(right; left; auto) D2); auto|apply HW; right; left; auto|]. constructor.
        + split; [cbn [map fst concat]; rewrite app_nil_r; auto|]. intros g x [H|[H|[]]]; injection H as <- <-.
          * unfold dq. rewrite zlen_map, zlen_zrange, LQ by lia. lia.
          * rewrite A_eq. reflexivity.
      - exists [(zrange 0 n, st0)]. split; [apply initial_state; auto; [constructor|intros x []]|]. intros r Hr. rewrite fed_whole by (auto; unfold n; lia). auto. }
    destruct Hinit as (init & HI & Hfed).
    destruct (tail_runs srcs h2 (w_heap w4) vis4 _ _ h6 vis6 _ _ args F2 ltac:(rewrite El; exact G) T) with (c := c) (l := l) (ev := ev) (feed := @nil (fkey * feed_t K)) (strict := false) (state := state) (init := init) as [R1 R2]; rewrite ?Ew; auto.
    { split; [apply incl_refl|]. intros d Hd. left; auto. }
    { intros x Hx. rewrite (Hl x Hx). auto. }
    destruct R2 as (c' & [st_ cm] & R).
    { intros i [<-|[<-|[]]]; [rewrite (ext_kind h5 h6), Km by auto|rewrite Ka]; discriminate. } { discriminate. }
    destruct (R1 _ _ _ R) as (Hz & So & v1 & cmt & Hv1 & Hf & Hinc & Ev). rewrite Ew in *.
    exists c', st_, cm. split; auto. split; auto. split.
    { eapply session_run; eauto. }
    assert (Hcmt : exists cv1 cv2, cmt = [(sm, cv1); (sa, cv2)]).
    { destruct cmt as [|[? ?] [|[? ?] [|? ?]]]; cbn in Hf; try discriminate. inversion Hf; subst. eauto. }
    destruct Hcmt as (cv1 & cv2 & ->).
    inversion Ev as [|? ? ? gs1 ? va ? Hg1 Hs1 Ev1]; subst. inversion Ev1 as [|? ? ? gs2 ? vb ? Hg2 Hs2 Ev2]; subst.
    inversion Ev2 as [? ? Hlast|]; subst. rewrite (ext_kind h5 h6), Km in Hs1 by auto. rewrite Ka in Hs2.
    assert (Eg1 : concat gs1 = Q).
    { apply (circ_fun _ _ _ _ C6 sm); [apply anc_arg; left; auto| |apply (c_wires _ _ _ _ C6); left; auto]. apply wires_keep; auto.
      - rewrite (ext_kind h5 h6), Km by auto. discriminate.
      - rewrite (ext_inputs h5 h6), Im by auto. discriminate. }
    inversion Hs1 as [| | | | | |ps Hva Hps|]; subst; [|exfalso; match goal with H : 2 ^ _ <= 0 |- _ => pose proof (Z.pow_pos_nonneg 2 (zlen (concat gs1)) ltac:(lia) (zlen_nonneg _)); lia end].
    assert (Hvb : forall r, 0 <= r < 2 ^ n -> vb r = va r) by (inversion Hs2; subst; auto).
    assert (Hst_ : forall r, 0 <= r < 2 ^ n -> amp st_ r = v1 r) by (intros r Hr; rewrite Hlast, Hvb, Hva; auto).
    split.
    - intros r Hr. rewrite Hst_, Hv1 by auto. cbv beta. cbn [op_acts].
      assert (OQ : forall q, In q (concat [Q]) -> 0 <= q < n).
      { cbn [concat]. rewrite app_nil_r. intros q Hq. apply RO, in_app_iff; auto. }
      assert (Hn : 0 <= n) by (unfold n; lia).
      apply apply_each_ext; auto. intros x Hx. apply apply_each_ext; auto; [|apply fxor_range; auto]. intros y Hy. apply Hfed. apply fxor_range; auto.
    - assert (Hin : In (sm, CProbs (inl (map (marginal n (rev (concat gs1)) v1) (zrange 0 (2 ^ zlen (concat gs1)))))) cm) by (apply Hinc; left; auto).
      assert (Elk : forall cm0 (cv : cval K), StronglySorted lt (map fst cm0) -> In (sm, cv) cm0 -> lookup sm cm0 = Ok cv).
      { clear. induction cm0 as [|[j cv0] cm0 IH]; intros cv Hs Hin; [destruct Hin|]. cbn [lookup map fst] in *. inversion Hs as [|? ? Hs' HF]; subst. destruct Hin as [Hin|Hin].
        - inversion Hin; subst. rewrite Nat.eqb_refl. auto.
        - destruct (Nat.eqb_spec sm j) as [->|]; auto. rewrite Forall_forall in HF. exfalso. apply (Nat.lt_irrefl j). apply HF. apply in_map_iff. exists (j, cv); auto. }
      rewrite (Elk cm _ So Hin). rewrite Eg1, LQ. unfold probs_of. do 3 f_equal. apply map_ext. intros m. apply marginal_ext. intros r Hr. symmetry; auto.
  Qed.
End Program.
