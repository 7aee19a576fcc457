(** Sinks that QFFT and F leave alone. *)
From Coq Require Import Sorted.
From Verif Require Import Base M_Kron M_Ops M_Feed M_Graph S_Graph L_Graph1 L_Grow1 L_Sinks M_Context S_Context L_Context1 L_Context2 L_Context5.

Lemma upd_other {A} : forall (l : list A) i v a, NoDup l -> nth_error l i = Some a ->
  forall x, In x (upd l i v) -> x = v \/ In x l /\ x <> a.
Proof.
  induction l as [|y l IH]; intros [|i] v a Hd E x Hx; cbn in *; try discriminate; inversion Hd as [|? ? Hn Hd']; subst.
  - injection E as ->. destruct Hx as [<-|Hx]; auto. right. split; auto. intros ->. auto.
  - destruct Hx as [<-|Hx].
    + right. split; auto. intros ->. apply Hn. eapply nth_error_In; eauto.
    + destruct (IH i v a Hd' E x Hx) as [->|[H1 H2]]; auto.
Qed.
Lemma upd_In {A} : forall (l : list A) i v x, In x (upd l i v) -> x = v \/ In x l.
Proof. induction l as [|y l IH]; intros [|i] v x Hx; cbn in *; auto; destruct Hx as [<-|Hx]; auto. destruct (IH _ _ _ Hx); auto. Qed.
Lemma upd_nodup {A} : forall (l : list A) i v, NoDup l -> ~ In v l -> NoDup (upd l i v).
Proof.
  induction l as [|y l IH]; intros [|i] v Hd Hv; cbn; auto; inversion Hd; subst; constructor; auto.
  - intros H. apply Hv. right; auto.
  - intros H. apply upd_In in H. destruct H as [->|H]; auto. apply Hv. left; auto.
  - apply IH; auto. intros H. apply Hv. right; auto.
Qed.
Lemma upd_at {A} : forall (l : list A) i v a, nth_error l i = Some a -> nth_error (upd l i v) i = Some v.
Proof. induction l as [|y l IH]; intros [|i] v a E; cbn in *; try discriminate; eauto. Qed.
Lemma upd_off {A} : forall (l : list A) i j v, i <> j -> nth_error (upd l i v) j = nth_error l j.
Proof. induction l as [|y l IH]; intros [|i] [|j] v E; cbn; auto; congruence. Qed.
Lemma pyget_some {A} (l : list A) i a : pyget l i = Ok a -> nth_error l (Z.to_nat (if (i <? 0) then i + zlen l else i)) = Some a.
Proof. unfold pyget. set (j := if (i <? 0) then i + zlen l else i). destruct (j <? 0); [discriminate|]. destruct (nth_error l (Z.to_nat j)); congruence. Qed.
Lemma pyset_some {A} (l : list A) i v l' : pyset l i v = Ok l' -> l' = upd l (Z.to_nat (if (i <? 0) then i + zlen l else i)) v.
Proof. unfold pyset. destruct (_ || _)%bool; congruence. Qed.

Section Moves.
  Context {K : Type} {OK : OrdRing K}.
  Implicit Types h : heap K.

  Lemma new_gate_size g : forall h inputs qid nosink dg h' q, new_gate h g inputs qid nosink dg = (h', Ok q) -> (size h <= q < size h')%nat.
  Proof.
    induction g as [| | | | | |g IHg ins]; intros h inputs qid nosink dg h' q E; cbn [new_gate] in E;
      try (apply new_node_size in E; lia).
    - destruct (new_node _ _ _ _ _ _ _) as [h1 [u|x]] eqn:E1; cbn [sbind] in E; [|discriminate]. apply new_node_size in E1.
      destruct inputs as [|? [|? [|]]]; try discriminate. destruct (_ =? _); inversion E; subst; lia.
    - destruct (_ <? 2); [discriminate|]. destruct inputs as [|c rest]; [discriminate|].
      destruct (negb _); [discriminate|]. destruct (repeated _); [discriminate|].
      destruct (new_gate h g rest None ins dg) as [h1 [i|x]] eqn:E1; cbn [sbind] in E; [|discriminate].
      apply IHg in E1. destruct (nd_kind (nd h1 i)); try discriminate. apply new_node_size in E. lia.
  Qed.
  Lemma as_qubits_only : forall (l : list (arg K)) r, as_qubits l = Some r -> only_qubits l = r.
  Proof.
    induction l as [|[i| | |] l IH]; intros r E; cbn in *; try discriminate; [inversion E; auto|].
    destruct (as_qubits l); [|discriminate]. inversion E; subst. f_equal. auto.
  Qed.
  Lemma construct_touch cn h b (args : list (arg K)) kw h' q : construct cn h b args kw = (h', Ok q) ->
    (size h <= q < size h')%nat /\ forall j, ~ In j (only_qubits args) -> nd_sink (nd h' j) = nd_sink (nd h j).
  Proof.
    assert (M : forall g (l : list (arg K)) h' q, match as_qubits l with
                        | Some l => new_gate h g l None (flag (kw_nosink kw)) (flag (kw_dagger kw))
                        | None => (h, Raise AttributeError)
                        end = (h', Ok q) -> (size h <= q < size h')%nat /\ forall j, ~ In j (only_qubits l) -> nd_sink (nd h' j) = nd_sink (nd h j)).
    { intros g l h1 q1 E. destruct (as_qubits l) as [r|] eqn:Er; [|discriminate]. rewrite (as_qubits_only _ _ Er). split; [eapply new_gate_size; eauto|].
      intros j Hj. eapply new_gate_touch; eauto. }
    unfold construct. intros E. destruct b; try (eapply M; exact E).
    - destruct args as [|[i|e|m|f] rest]; try discriminate.
      all: try (match type of E with sbind ?X _ = _ => destruct X as [h1 [u|x]] end; cbn [sbind] in E; discriminate).
      eapply (M _ rest); exact E.
    - destruct args as [|[i|e|m|f] rest]; try discriminate. eapply (M _ rest); exact E.
    - destruct args as [|[i|e|m|f] [|[a| | |] [|[b| | |] [|]]]]; try discriminate. unfold new_f in E. split; [apply new_node_size in E; lia|].
      intros j Hj. eapply new_node_touch; eauto.
  Qed.
  Lemma build_touch cn c : forall h (args : list (arg K)) given h' q, build cn h c args given = (h', Ok q) ->
    (size h <= q < size h')%nat /\ forall j, ~ In j (only_qubits args) -> nd_sink (nd h' j) = nd_sink (nd h j).
  Proof.
    induction c as [b kw|c IH kw|m]; intros h args given h' q E; cbn [build] in E.
    - eapply construct_touch; eauto.
    - destruct (_ <? 2); [discriminate|]. destruct args as [|[i| | |] rest]; try discriminate. destruct (negb _); [discriminate|].
      destruct (repeated_args _); [discriminate|]. destruct (build cn h c rest _) as [h1 [u|x]] eqn:E1; cbn [sbind] in E; [|discriminate].
      apply IH in E1. destruct E1 as [S1 T1]. destruct (nd_kind (nd h1 u)); try discriminate. destruct (as_qubits _) as [l|] eqn:El; [|discriminate].
      pose proof (new_node_size _ _ _ _ _ _ _ _ _ E) as [-> S2]. split; [lia|]. rewrite (as_qubits_only _ _ El). intros j Hj. apply as_qubits_only in El. subst l.
      rewrite (new_node_touch _ _ _ _ _ _ _ _ _ E) by auto. apply T1. intros H. apply Hj. right; auto.
    - apply construct_touch in E. exact E.
  Qed.
  Lemma split_loop_bound self : forall bounds h qid qs h' ids, split_loop h self bounds qid qs = (h', Ok ids) ->
    (size h <= size h')%nat /\ forall i, In i ids -> In i qs \/ (i < size h')%nat.
  Proof.
    induction bounds as [|s [|e rest] IH]; intros h qid qs h' ids E; cbn [split_loop] in E; try (inversion E; subst; auto; fail).
    unfold new_split in E. destruct (new_node _ _ _ _ _ _ _) as [h1 [sq|x]] eqn:E1; cbn [sbind] in E; [|discriminate].
    apply new_node_size in E1. destruct E1 as [-> Sz]. apply IH in E. destruct E as [S1 Hi]. split; [lia|].
    intros i Hin. destruct (Hi i Hin) as [H|H]; auto. apply in_app_iff in H. destruct H as [H|[<-|[]]]; auto. right; lia.
  Qed.
  (** the pieces of a split *)
  Lemma split_new self h idx h' ids : split h self idx = (h', Ok ids) ->
    (size h <= size h')%nat /\ NoDup ids /\ ((h' = h /\ ids = [self]) \/ forall i, In i ids -> (size h <= i < size h')%nat /\ (self < size h -> nd_sink (nd h' i) = [])%nat).
  Proof.
    intros E. pose proof (split_touch _ _ _ _ _ E) as T. unfold split in E. destruct (split_bounds h self idx) as [bd|].
    - pose proof (split_loop_sorted _ _ _ _ _ _ _ E) as (new & -> & Hs & Hn). pose proof (split_loop_bound _ _ _ _ _ _ _ E) as [Sz Hb]. cbn [app] in *.
      split; auto. split.
      { clear - Hs. induction Hs as [|a l H IH HF]; constructor; auto. intros Hi. rewrite Forall_forall in HF. specialize (HF a Hi). lia. }
      right. intros i Hi. specialize (Hn i Hi). split; [destruct (Hb i Hi) as [[]|H]; lia|]. intros Hsf. rewrite T by lia. apply nd_beyond; auto.
    - inversion E; subst. split; auto. split; [constructor; auto; constructor|]. auto.
  Qed.

  (** ** a call with no context *)
  Lemma call_sinks cn (w : world K) c args given w' outs : ctlw w [] -> call_op cn w c args given = (w', Ok outs) ->
    (forall i, In i (only_qubits args) -> (i < size (w_heap w))%nat) ->
    ctlw w' [] /\ (size (w_heap w) <= size (w_heap w'))%nat /\
    (forall j, ~ In j (only_qubits args) -> (j < size (w_heap w))%nat -> nd_sink (nd (w_heap w') j) = nd_sink (nd (w_heap w) j)) /\
    (forall o, In o outs -> (size (w_heap w) <= o < size (w_heap w'))%nat /\ nd_sink (nd (w_heap w') o) = []) /\ NoDup outs.
  Proof.
    intros Hw E Hs.
    assert (M : forall h1 q h2 ids, build cn (w_heap w) c args no_kw = (h1, Ok q) -> split h1 q None = (h2, Ok ids) ->
      (size (w_heap w) <= size h2)%nat /\ (forall j, ~ In j (only_qubits args) -> (j < size (w_heap w))%nat -> nd_sink (nd h2 j) = nd_sink (nd (w_heap w) j)) /\
      (forall o, In o ids -> (size (w_heap w) <= o < size h2)%nat /\ nd_sink (nd h2 o) = []) /\ NoDup ids).
    { intros h1 q h2 ids E1 E2. pose proof (build_touch _ _ _ _ _ _ _ E1) as [S1 T1]. pose proof (split_touch _ _ _ _ _ E2) as T2.
      pose proof (split_new _ _ _ _ _ E2) as (S2 & Nd & Hi). split; [lia|]. split; [|split; auto].
      - intros j Hj Hl. rewrite T2 by lia. auto.
      - intros o Ho. destruct Hi as [[-> ->]|Hi].
        + destruct Ho as [<-|[]]. split; [lia|]. rewrite T1; [apply nd_beyond; lia|]. intros H. apply Hs in H. lia.
        + destruct (Hi o Ho) as [A B]. split; [lia|]. apply B. lia. }
    unfold call_op, apply_in_context in E. destruct Hw as [Hc Ht]. cbn [map] in Hc. rewrite Hc in E.
    destruct (match w_stack w with [] => false | _ => true end) eqn:Ea; cbn [put_in_order wrap_all rev fold_left] in E; unfold on_heap in E.
    all: destruct (build cn (w_heap w) c args no_kw) as [h1 [q|e]] eqn:E1; cbn [fst snd sbind] in E; [|discriminate].
    all: cbn [set_heap w_heap] in E; destruct (split h1 q None) as [h2 [ids|e]] eqn:E2; cbn [fst snd sbind] in E; [|discriminate].
    all: cbn [split_context] in E; destruct (M _ _ _ _ eq_refl E2) as (M1 & M2 & M3 & M4).
    - destruct (set_qubits_ctl (set_heap (set_heap w h1) h2) [] []) as (w1 & Eq & Eh & Hw1 & _); [split; auto|auto|]. rewrite Eq in E. cbn [sbind] in E.
      destruct ids as [|x ids]; [discriminate|]. injection E as <- <-. rewrite Eh. cbn [set_heap w_heap]. auto.
    - destruct ids as [|x ids]; [discriminate|]. injection E as <- <-. cbn [set_heap w_heap]. split; [split; auto|]. auto.
  Qed.

  (** ** the loops of QFFT *)
  Variables (h0 : heap K) (q0 : nat).
  Definition idle (w : world K) (qarr : list nat) : Prop :=
    ctlw w [] /\ (size h0 <= size (w_heap w))%nat /\
    (forall j, (j < size h0)%nat -> j <> q0 -> nd_sink (nd (w_heap w) j) = nd_sink (nd h0 j) /\ ~ In j qarr) /\
    NoDup qarr /\ forall x, In x qarr -> (x < size (w_heap w))%nat /\ nd_sink (nd (w_heap w) x) = [].
  Lemma at1_idle cn w c qarr i w' qarr' : idle w qarr -> apply_at1 cn w c qarr i = (w', Ok qarr') -> idle w' qarr'.
  Proof.
    intros (Hw & Sz & Hr & Nd & Hq) E. unfold apply_at1, lift, one_output in E. destruct (pyget qarr i) as [a|e] eqn:Ea; cbn [sbind] in E; [|discriminate].
    destruct (call_op cn w c [AQ a] no_kw) as [w1 [outs|e]] eqn:E1; cbn [sbind] in E; [|discriminate].
    destruct outs as [|a' [|? ?]]; cbn [sbind] in E; try discriminate.
    apply pyget_some in Ea. pose proof (nth_error_In _ _ Ea) as Ha.
    destruct (call_sinks cn w c [AQ a] no_kw w1 [a'] Hw E1) as (W1 & S1 & T1 & N1 & _); [intros x [<-|[]]; apply Hq; auto|].
    injection E as <- E. apply pyset_some in E. subst qarr'. destruct (N1 a' (or_introl eq_refl)) as [Hb Hsk].
    split; auto. split; [lia|]. split; [|split].
    - intros j Hj Hne. destruct (Hr j Hj Hne) as [A B]. split.
      + rewrite T1; auto; [|lia]. intros [->|[]]. auto.
      + intros H. apply upd_In in H. destruct H as [->|H]; auto. lia.
    - apply upd_nodup; auto. intros H. apply Hq in H. lia.
    - intros x Hx. apply (upd_other _ _ _ _ Nd Ea) in Hx. destruct Hx as [->|[H1 H2]]; [split; auto; lia|].
      destruct (Hq x H1) as [A B]. split; [lia|]. rewrite T1; auto. intros [->|[]]; auto.
  Qed.
  Lemma at2_idle cn w c qarr i j w' qarr' : idle w qarr -> apply_at2 cn w c qarr i j = (w', Ok qarr') -> idle w' qarr'.
  Proof.
    intros (Hw & Sz & Hr & Nd & Hq) E. unfold apply_at2, lift, two_outputs in E. destruct (pyget qarr i) as [a|e] eqn:Ea; cbn [sbind] in E; [|discriminate].
    destruct (pyget qarr j) as [b|e] eqn:Eb; cbn [sbind] in E; [|discriminate].
    destruct (call_op cn w c [AQ a; AQ b] no_kw) as [w1 [outs|e]] eqn:E1; cbn [sbind] in E; [|discriminate].
    destruct outs as [|a' [|b' [|? ?]]]; cbn [sbind fst snd] in E; try discriminate.
    destruct (pyset qarr i a') as [q1|e] eqn:E2; cbn [sbind] in E; [|discriminate]. injection E as <- E.
    apply pyset_some in E2, E. apply pyget_some in Ea, Eb. pose proof (nth_error_In _ _ Ea) as Ha. pose proof (nth_error_In _ _ Eb) as Hb.
    destruct (call_sinks cn w c [AQ a; AQ b] no_kw w1 [a'; b'] Hw E1) as (W1 & S1 & T1 & N1 & N2); [intros x [<-|[<-|[]]]; apply Hq; auto|]. cbn [only_qubits] in T1.
    destruct (N1 a' (or_introl eq_refl)) as [Ba Sa]. destruct (N1 b' (or_intror (or_introl eq_refl))) as [Bb Sb].
    assert (Nab : a' <> b') by (inversion N2; subst; intros ->; match goal with H : ~ In _ _ |- _ => apply H; left; auto end).
    assert (Na : ~ In a' qarr) by (intros H; apply Hq in H; lia). assert (Nb : ~ In b' qarr) by (intros H; apply Hq in H; lia).
    assert (Nd1 : NoDup q1) by (subst q1; apply upd_nodup; auto).
    assert (Nb1 : ~ In b' q1) by (subst q1; intros H; apply upd_In in H; destruct H as [->|H]; auto).
    assert (HO : forall x, In x qarr' -> x = a' \/ x = b' \/ In x qarr /\ x <> a /\ x <> b).
    { intros x Hx. assert (Lz : zlen q1 = zlen qarr) by (subst q1; unfold zlen; rewrite upd_length; auto). rewrite Lz in E.
      set (i' := Z.to_nat (if i <? 0 then i + zlen qarr else i)) in *. set (j' := Z.to_nat (if j <? 0 then j + zlen qarr else j)) in *.
      destruct (Nat.eq_dec i' j') as [Eij|Nij].
      - assert (b = a) as -> by congruence. assert (E1' : nth_error q1 j' = Some a').
        { subst q1. rewrite <- Eij. eapply upd_at; eauto. }
        subst qarr'. apply (upd_other _ _ _ _ Nd1 E1') in Hx. destruct Hx as [->|[Hx _]]; auto. subst q1. apply (upd_other _ _ _ _ Nd Ea) in Hx. tauto.
      - assert (E1' : nth_error q1 j' = Some b).
        { subst q1. rewrite <- Eb. apply upd_off; auto. }
        subst qarr'. apply (upd_other _ _ _ _ Nd1 E1') in Hx. destruct Hx as [->|[Hx Hnb]]; auto. subst q1. apply (upd_other _ _ _ _ Nd Ea) in Hx. tauto. }
    split; auto. split; [lia|]. split; [|split].
    - intros x Hx Hne. destruct (Hr x Hx Hne) as [A B]. split.
      + rewrite T1; auto; [|lia]. intros [->|[->|[]]]; auto.
      + intros H. apply HO in H. destruct H as [->|[->|[H _]]]; auto; lia.
    - subst qarr'. apply upd_nodup; auto.
    - intros x Hx. apply HO in Hx. destruct Hx as [->|[->|(H1 & H2 & H3)]]; try (split; auto; lia).
      destruct (Hq x H1) as [A B]. split; [lia|]. rewrite T1; auto. intros [->|[->|[]]]; auto.
  Qed.
  Lemma sloop_idle {I} (f : world K -> list nat -> I -> st (world K) (list nat)) :
    (forall w qarr i w' qarr', idle w qarr -> f w qarr i = (w', Ok qarr') -> idle w' qarr') ->
    forall l w qarr w' qarr', idle w qarr -> sloop f l w qarr = (w', Ok qarr') -> idle w' qarr'.
  Proof.
    intros Hf. induction l as [|i l IH]; intros w qarr w' qarr' H E; cbn [sloop] in E; [inversion E; subst; auto|].
    destruct (f w qarr i) as [w1 [q1|e]] eqn:E1; cbn [sbind] in E; [|discriminate]. eauto.
  Qed.
  Lemma rec_idle cn : forall fuel w qarr offset w' qarr', idle w qarr -> recQFFT cn fuel w qarr offset = (w', Ok qarr') -> idle w' qarr'.
  Proof.
    induction fuel as [|fuel IH]; intros w qarr offset w' qarr' H E; cbn [recQFFT] in E.
    - destruct (_ <? _); [discriminate|]. inversion E; subst; auto.
    - destruct (_ <? _); [|inversion E; subst; auto].
      destruct (apply_at1 _ _ _ _ _) as [w1 [q1|e]] eqn:E1; cbn [sbind] in E; [|discriminate]. pose proof (at1_idle _ _ _ _ _ _ _ H E1) as I1.
      destruct (sloop _ _ w1 q1) as [w2 [q2|e]] eqn:E2; cbn [sbind] in E; [|discriminate].
      eapply IH; [|exact E]. eapply (sloop_idle _); [|exact I1|exact E2]. intros ? ? ? ? ? Hi Ei. cbv beta in Ei. eapply at2_idle; eauto.
  Qed.
  Hypothesis q0_size : (q0 < size h0)%nat.
  Hypothesis q0_idle : nd_sink (nd h0 q0) = [].
  Lemma qfft_body_idle cn rev_ w w' outs : ctlw w [] -> w_heap w = h0 -> qfft_body cn rev_ w [q0] = (w', Ok outs) ->
    ctlw w' [] /\ (size h0 <= size (w_heap w'))%nat /\ (forall j, (j < size h0)%nat -> j <> q0 -> nd_sink (nd (w_heap w') j) = nd_sink (nd h0 j)) /\
    forall x, In x outs -> nd_sink (nd (w_heap w') x) = [].
  Proof.
    intros Hw Eh E. unfold qfft_body in E. cbn [sloop] in E. rewrite Eh in E. unfold on_heap in E.
    destruct (split h0 q0 _) as [h1 [l|e]] eqn:E1; cbn [fst snd sbind app] in E; [|discriminate].
    assert (I1 : idle (set_heap w h1) l).
    { pose proof (split_touch _ _ _ _ _ E1) as T. pose proof (split_new _ _ _ _ _ E1) as (Sz & Nd & Hi).
      split; [exact Hw|]. cbn [set_heap w_heap]. split; auto. split; [|split; auto].
      - intros j Hj Hne. split; auto. destruct Hi as [[-> ->]|Hi]; [intros [H|[]]; auto|]. intros H. apply Hi in H. lia.
      - intros x Hx. destruct Hi as [[-> ->]|Hi]; [destruct Hx as [<-|[]]; auto|]. destruct (Hi x Hx). split; [lia|auto]. }
    destruct (recQFFT _ _ _ _ _) as [w2 [l2|e]] eqn:E2; cbn [sbind] in E; [|discriminate]. pose proof (rec_idle _ _ _ _ _ _ _ I1 E2) as I2.
    match type of E with sbind ?X _ = _ => destruct X as [w3 [l3|e]] eqn:E3 end; cbn [sbind] in E; [|discriminate].
    assert (I3 : idle w3 l3).
    { destruct rev_; [|injection E3 as <- <-; exact I2]. eapply sloop_idle; [|exact I2|exact E3]. intros ? ? ? ? ? Hi Ei. cbv beta in Ei. eapply at2_idle; eauto. }
    destruct I3 as (Hw3 & S3 & Hr & Nd & Hq).
    destruct (_ <? zlen l3).
    - set (n := nd_n (nd (w_heap w3) q0)) in *. destruct (new_node (w_heap w3) KQubit _ None None false None) as [h4 [o|e]] eqn:E4; cbn [fst snd sbind] in E; [|discriminate].
      cbn [app fst] in E. injection E as <- <-. cbn [set_heap w_heap]. pose proof (new_node_size _ _ _ _ _ _ _ _ _ E4) as [-> S4]. pose proof (new_node_touch _ _ _ _ _ _ _ _ _ E4) as T4.
      assert (Hin : forall x, In x (firstn (Z.to_nat n) (skipn (Z.to_nat 0) l3)) -> In x l3) by (intros x Hx; cbn [skipn Z.to_nat] in Hx; rewrite <- (firstn_skipn (Z.to_nat n) l3); apply in_app_iff; auto).
      split; [exact Hw3|]. split; [lia|]. split.
      + intros j Hj Hne. destruct (Hr j Hj Hne) as [A B]. rewrite T4; auto.
      + intros x [<-|[]]. rewrite T4; [apply nd_beyond; lia|]. intros H. apply Hin, Hq in H. lia.
    - destruct l3 as [|x l3]; [discriminate|]. injection E as <- <-. split; auto. split; auto. split; [intros j Hj Hne; apply Hr; auto|]. intros y Hy. apply Hq; auto.
  Qed.
End Moves.

Section Top.
  Context {K : Type} {OK : OrdRing K}.
  Lemma qfft_sinks cn (w : world K) f rev_ q w' outs : w_stack w = [] -> w_total w = 0 -> wrappers_of w f = [] ->
    (q < size (w_heap w))%nat -> nd_sink (nd (w_heap w) q) = [] -> QFFT cn w f rev_ [q] = (w', Ok outs) ->
    moves (w_heap w) (w_heap w') [q] outs.
  Proof.
    intros Es Et Ef Hq Hi E. unfold QFFT, call_func in E. rewrite Ef in E. cbn [consume] in E. unfold with_context in E. cbn [context_size fold_right] in E.
    destruct (qfft_body cn rev_ (enter w [] 0) [q]) as [w1 [o|e]] eqn:E1; cbn [sbind fst snd] in E; [|discriminate].
    injection E as <- E.
    destruct (qfft_body_idle (w_heap w) q Hq Hi cn rev_ (enter w [] 0) _ _ ltac:(split; [cbn [enter w_stack]; rewrite Es; reflexivity|cbn [enter w_total]; rewrite Et; reflexivity]) eq_refl E1) as ([Hc _] & S1 & A & B).
    cbn [leave w_heap]. split.
    - intros j Hj Hn. apply A; auto. intros ->. apply Hn. left; auto.
    - intros j Hj. apply B. assert (last (w_stack w1) [] = []) as X; [|rewrite X in E; cbn in E; congruence].
      cbn [map] in Hc. clear - Hc. induction (w_stack w1) as [|a [|b l] IH]; auto; cbn [concat] in Hc; apply app_eq_nil in Hc; destruct Hc; auto.
  Qed.
End Top.
