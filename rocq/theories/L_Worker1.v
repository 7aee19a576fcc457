(** One state transfer between two workers. *)
From Verif Require Import Base M_Bits M_Kron M_Feed M_Measure M_Net S_Net L_Net M_Worker S_Worker.

Lemma range_eqb_ok a b : range_eqb a b = true <-> a = b.
Proof. destruct a, b. unfold range_eqb. cbn. rewrite andb_true_iff, !Z.eqb_eq. split; [intros [-> ->]; reflexivity|intros E; injection E as -> ->; auto]. Qed.
Lemma wid_eqb_ok a b : wid_eqb a b = true <-> a = b.
Proof. destruct a, b. unfold wid_eqb. cbn. rewrite andb_true_iff, !range_eqb_ok. split; [intros [-> ->]; reflexivity|intros E; injection E as -> ->; auto]. Qed.
Lemma pid_eqb_ok a b : pid_eqb a b = true <-> a = b.
Proof. destruct a, b; cbn; try (split; [discriminate|discriminate]); [split; reflexivity|]. rewrite wid_eqb_ok. split; [intros ->; reflexivity|intros E; injection E as ->; reflexivity]. Qed.

Section Transfer.
  Context {K : Type} {OK : OrdRing K}.
  Notation C := (Cx K).
  Notation msg := (msg K).
  Variable cap : pid -> pid -> option nat.
  Notation go := (go pid_eqb cap).

  Definition zip_with (f : C -> C -> C) (l l' : list C) : list C := map (fun '(a, b) => f a b) (combine l l').
  Lemma zip_length f l l' : length (zip_with f l l') = Nat.min (length l) (length l').
  Proof. unfold zip_with. rewrite map_length. apply combine_length. Qed.
  Lemma combine_firstn_r {A B} (l : list A) : forall (l' : list B) k, combine l (firstn k l') = combine (firstn k l) (firstn k l').
  Proof. induction l as [|a l IH]; intros [|b l'] [|k]; cbn; try reflexivity. rewrite IH. reflexivity. Qed.
  Lemma combine_app' {A B} (l1 l2 : list A) (l1' l2' : list B) : length l1 = length l1' -> combine (l1 ++ l2) (l1' ++ l2') = combine l1 l1' ++ combine l2 l2'.
  Proof. revert l1'. induction l1 as [|a l1 IH]; intros [|b l1'] E; try discriminate; cbn; [reflexivity|]. injection E as E. rewrite IH by exact E. reflexivity. Qed.
  Lemma firstn_skipn_add {A} (l : list A) a k : firstn (a + k) l = firstn a l ++ firstn k (skipn a l).
  Proof. revert l. induction a as [|a IH]; intros l; cbn; [reflexivity|]. destruct l; cbn; [rewrite firstn_nil; reflexivity|]. rewrite IH. reflexivity. Qed.
  Lemma skipn_skipn' {A} (l : list A) a k : skipn k (skipn a l) = skipn (a + k) l.
  Proof. revert l. induction a as [|a IH]; intros l; cbn; [reflexivity|]. destruct l; cbn; [rewrite skipn_nil; reflexivity|apply IH]. Qed.

  (** the receiver's state when the first l amplitudes have arrived *)
  Definition mix f (vr vs : list C) (l : nat) : list C := zip_with f (firstn l vr) (firstn l vs) ++ skipn l vr.
  Lemma mix_0 f vr vs : mix f vr vs 0 = vr. Proof. reflexivity. Qed.
  Lemma mix_all f vr vs : length vr = length vs -> mix f vr vs (length vs) = zip_with f vr vs.
  Proof. intros E. unfold mix. rewrite firstn_all, <- E, firstn_all, skipn_all, app_nil_r. reflexivity. Qed.
  Lemma mix_length f vr vs l : length vr = length vs -> length (mix f vr vs l) = length vr.
  Proof. intros E. unfold mix. rewrite app_length, zip_length, !firstn_length, skipn_length. lia. Qed.
  Lemma mix_update f vr vs l e : zlen vr = zlen vs -> 0 <= l <= e -> e <= zlen vs ->
    np_update f (mix f vr vs (Z.to_nat l)) l (pyslice vs l e) = Ok (mix f vr vs (Z.to_nat e)).
  Proof.
    unfold zlen. intros E Hl He. apply Nat2Z.inj in E.
    set (a := Z.to_nat l). set (k := (Z.to_nat (e - l))%nat). assert (Ea : Z.to_nat e = (a + k)%nat) by lia.
    assert (Hlen : length (pyslice vs l e) = k) by (unfold pyslice; rewrite firstn_length, skipn_length; fold a k; lia).
    unfold np_update, np_slice_len. unfold zlen. rewrite (mix_length f vr vs a E), Hlen.
    destruct (_ =? _) eqn:Eb; [|apply Z.eqb_neq in Eb; lia]. f_equal. rewrite Ea.
    assert (H1 : length (zip_with f (firstn a vr) (firstn a vs)) = a) by (rewrite zip_length, !firstn_length; lia).
    replace (Z.to_nat (l + Z.of_nat k)) with (a + k)%nat by lia. replace (Z.to_nat l) with a by reflexivity. unfold mix.
    rewrite firstn_app, H1, Nat.sub_diag, firstn_O, app_nil_r, firstn_all2 by lia.
    rewrite (skipn_app a), H1, Nat.sub_diag, skipn_O, skipn_all2 by lia. cbn [app].
    rewrite skipn_app, H1, (skipn_all2 (n := a + k)) by lia. cbn [app]. replace (a + k - a)%nat with k by lia. rewrite skipn_skipn'.
    rewrite !firstn_skipn_add. unfold zip_with. rewrite combine_app' by (rewrite !firstn_length; lia). rewrite map_app, <- app_assoc. do 2 f_equal.
    unfold pyslice. fold a. fold k. rewrite combine_firstn_r. reflexivity.
  Qed.

  Definition upd_fn (ow : bool) : C -> C -> C := if ow then (fun _ b => b) else (fun a b => (a + b)%r).
  Lemma recv_update (ow : bool) vr vs l e : zlen vr = zlen vs -> 0 <= l <= e -> e <= zlen vs ->
    (if ow then overwrite_relative_range (mix (upd_fn ow) vr vs (Z.to_nat l)) l (pyslice vs l e) else addto_relative_range (mix (upd_fn ow) vr vs (Z.to_nat l)) l (pyslice vs l e))
    = Ok (mix (upd_fn ow) vr vs (Z.to_nat e)).
  Proof. intros. destruct ow; apply mix_update; assumption. Qed.

  Lemma fits_room c n (l : list msg) : fits c n -> (length l < n)%nat -> has_room c l = true.
  Proof. destruct c as [c|]; [|reflexivity]. cbn [fits]. unfold has_room. rewrite Nat.ltb_lt. lia. Qed.

  Section One.
    Context {R : Type} (s : net pid msg R) (i j : pid) (job : Z) (vs vr : list C) (ow : bool) (cc ww : Z).
    Context (k1 : unit -> proc pid msg R) (k2 : list C -> proc pid msg R).
    Hypothesis Hij : i <> j.
    Hypothesis Hlen : zlen vr = zlen vs.
    Hypothesis Hcc : 1 <= cc. Hypothesis Hww : 1 <= ww.
    Hypothesis Hdata : fits (cap i j) 1.
    Let total := zlen vs.
    Let acc : msg := MAccept job cc ww.
    (** the receiver when l amplitudes have arrived, with rf iterations left *)
    Definition receiver (rf : nat) (l : Z) : proc pid msg R :=
      if l =? total then k2 (mix (upd_fn ow) vr vs (Z.to_nat l))
      else pbind (receive_loop rf job (mix (upd_fn ow) vr vs (Z.to_nat l)) i ow cc ww) k2.

    (** the sender sends one chunk, the receiver takes it and confirms *)
    Lemma one_chunk pi rf l e Q : 0 <= l < e -> e <= total -> fits (cap j i) (S (length Q)) ->
      go (pair_net pid_eqb s i j (Send j (MState job l (pyslice vs l e) (e =? total)) pi) (receiver (S rf) l) [] Q)
         (pair_net pid_eqb s i j pi (receiver rf e) [] (Q ++ [acc])).
    Proof.
      intros Hl He Hfit. unfold receiver. destruct (Z.eqb_spec l total) as [E|_]; [lia|]. cbn [receive_loop pbind].
      eapply go_trans; [apply (pair_send_i pid_eqb pid_eqb_ok); [exact Hij|apply fits_room with 1%nat; [exact Hdata|cbn; lia]]|]. cbn [app].
      eapply go_trans; [apply (pair_recv_j pid_eqb pid_eqb_ok); exact Hij|]. cbn beta iota. rewrite recv_update by (unfold total in *; lia). cbn [lift pbind].
      eapply go_trans; [apply (pair_send_j pid_eqb pid_eqb_ok); [exact Hij|apply fits_room with (S (length Q)); [exact Hfit|lia]]|].
      apply go_refl. destruct (e =? total) eqn:E; cbn [pbind]; apply eqv_refl.
    Qed.

    Lemma inner_go c w (K0 : Z -> Z -> proc pid msg unit) : 1 <= c -> forall fuel rf infl last Q,
      0 <= last <= total -> total - last < Z.of_nat fuel -> total - last < Z.of_nat rf -> fits (cap j i) (length Q + Z.to_nat (total - last)) ->
      exists infl' last' rf' m,
        go (pair_net pid_eqb s i j (pbind (send_inner fuel job vs j c w infl last K0) k1) (receiver rf last) [] Q)
           (pair_net pid_eqb s i j (pbind (K0 infl' last') k1) (receiver rf' last') [] (Q ++ repeat acc m)) /\
        last <= last' <= total /\ infl' = infl + Z.of_nat m /\ Z.of_nat m <= last' - last /\ (w <= infl' \/ last' = total) /\ (infl < w -> last < total -> (1 <= m)%nat) /\ total - last' < Z.of_nat rf'.
    Proof.
      intros Hc. induction fuel as [|fuel IH]; intros rf infl last Q Hl Hf Hrf Hfit; [lia|]. cbn [send_inner]. fold total.
      destruct ((infl <? w) && (last <? total)) eqn:Eb.
      - apply andb_prop in Eb. destruct Eb as [E1 E2]. apply Z.ltb_lt in E1, E2. set (e := last + Z.min (total - last) c).
        destruct rf as [|rf]; [lia|]. destruct (IH rf (infl + 1) e (Q ++ [acc])) as (infl' & last' & rf' & m & G & H1 & H2 & H3 & H4 & H5 & H6); try (unfold e; lia).
        { rewrite app_length. cbn [length]. destruct (cap j i) as [c0|]; [|exact I]. cbn [fits] in *. unfold e. lia. }
        exists infl', last', rf', (S m). split; [|repeat split; try lia; unfold e in *; lia].
        eapply go_trans; [|eapply go_eqv_r; [exact G|cbn [repeat]; rewrite <- app_assoc; apply eqv_refl]].
        cbn [pbind]. apply one_chunk; [unfold e; lia|unfold e; lia|]. destruct (cap j i) as [c0|]; [|exact I]. cbn [fits] in *. lia.
      - exists infl, last, rf, 0%nat. cbn [repeat]. rewrite app_nil_r. split; [apply go_refl, eqv_refl|]. apply andb_false_iff in Eb. rewrite !Z.ltb_ge in Eb. repeat split; try lia.
    Qed.

    Lemma outer_go : forall fuel c w rf infl last Q, 1 <= c -> 1 <= w -> Forall (accept_ok job) Q -> 0 <= infl <= Z.of_nat (length Q) -> 0 <= last <= total ->
      total + 1 - last + infl <= Z.of_nat fuel -> total - last < Z.of_nat rf -> fits (cap j i) (length Q + Z.to_nat (total - last)) ->
      exists Q', Forall (accept_ok job) Q' /\ Z.of_nat (length Q') <= Z.of_nat (length Q) + (total - last) /\
        go (pair_net pid_eqb s i j (pbind (send_outer fuel job vs j c w infl last) k1) (receiver rf last) [] Q)
           (pair_net pid_eqb s i j (k1 tt) (k2 (mix (upd_fn ow) vr vs (Z.to_nat total))) [] Q').
    Proof.
      induction fuel as [|fuel IH]; intros c w rf infl last Q Hc Hw HQ Hinfl Hl Hf Hrf Hfit; [lia|]. cbn [send_outer]; fold total.
      destruct (last <? total) eqn:E.
      - apply Z.ltb_lt in E.
        match goal with |- context [send_inner (S (length vs)) job vs j c w infl last ?k] => destruct (inner_go c w k Hc (S (length vs)) rf infl last Q Hl) as (infl' & last' & rf' & m & G & H1 & H2 & H3 & H4 & H5 & H6) end.
        { unfold total, zlen in *. lia. } { lia. } { exact Hfit. }
        assert (Hm : 1 <= infl') by (destruct (Z.lt_ge_cases infl w) as [Hiw|Hiw]; [specialize (H5 Hiw E)|]; lia).
        assert (HQ' : Forall (accept_ok job) (Q ++ repeat acc m)).
        { apply Forall_app. split; [exact HQ|]. apply Forall_forall. intros x Hx. apply repeat_spec in Hx. subst x. exists cc, ww. auto. }
        assert (Hlq : length (Q ++ repeat acc m) = (length Q + m)%nat) by (rewrite app_length, repeat_length; reflexivity).
        destruct (Q ++ repeat acc m) as [|a Q1] eqn:EQ; [cbn in Hlq; lia|]. apply Forall_cons_iff in HQ'; destruct HQ' as [Ha HQ1]. cbn [length] in Hlq.
        destruct Ha as (c' & w' & -> & Hc' & Hw').
        destruct (IH c' w' rf' (infl' - 1) last' Q1 Hc' Hw' HQ1) as (Q' & HQ2 & Hlq2 & G2); try lia.
        { destruct (cap j i) as [c0|]; [|exact I]. cbn [fits] in *. lia. }
        exists Q'. split; [exact HQ2|]. split; [lia|]. eapply go_trans; [exact G|]. cbn [pbind].
        eapply go_trans; [apply (pair_recv_i pid_eqb pid_eqb_ok); exact Hij|]. cbn beta iota. rewrite Z.eqb_refl. cbn [negb]. exact G2.
      - apply Z.ltb_ge in E. exists Q. split; [exact HQ|]. split; [lia|]. cbn [pbind].
        apply go_refl. unfold receiver. replace last with total by lia. rewrite Z.eqb_refl. apply eqv_refl.
    Qed.

    (** the whole transfer *)
    Lemma transfer_pair stale : 0 < total -> Forall (accept_ok job) stale -> fits (cap j i) (length stale + Z.to_nat total + 1) ->
      exists Q', Forall (accept_ok job) Q' /\ (length Q' <= length stale + Z.to_nat total)%nat /\
        go (pair_net pid_eqb s i j (pbind (send_state job vs j) k1) (pbind (receive_state job vr i ow cc ww) k2) [] stale)
           (pair_net pid_eqb s i j (k1 tt) (k2 (zip_with (upd_fn ow) vr vs)) [] Q').
    Proof.
      intros Ht HQ Hfit. unfold send_state, receive_state. cbn [pbind].
      assert (HQ' : Forall (accept_ok job) (stale ++ [acc])) by (apply Forall_app; split; [exact HQ|constructor; [exists cc, ww; auto|constructor]]).
      assert (Hl : length (stale ++ [acc]) = S (length stale)) by (rewrite app_length; cbn; lia).
      destruct (stale ++ [acc]) as [|a Q1] eqn:EQ; [discriminate|]. apply Forall_cons_iff in HQ'; destruct HQ' as [Ha HQ1]. cbn [length] in Hl. destruct Ha as (c' & w' & -> & Hc' & Hw').
      destruct (outer_go (S (length vs)) c' w' (S (length vr)) 0 0 Q1 Hc' Hw' HQ1) as (Q' & HQ2 & Hlq2 & G2).
      { lia. } { unfold total in *; lia. } { unfold total, zlen in *. lia. } { unfold total, zlen in *. lia. }
      { destruct (cap j i) as [c0|]; [|exact I]. cbn [fits] in *. lia. }
      exists Q'. split; [exact HQ2|]. split; [lia|].
      eapply go_trans; [apply (pair_send_j pid_eqb pid_eqb_ok); [exact Hij|apply fits_room with (S (length stale)); [|lia]]|].
      { destruct (cap j i) as [c0|]; [|exact I]. cbn [fits] in *. lia. }
      fold acc. rewrite EQ. eapply go_trans; [apply (pair_recv_i pid_eqb pid_eqb_ok); exact Hij|]. cbn beta iota. rewrite Z.eqb_refl. cbn [negb].
      assert (Em : mix (upd_fn ow) vr vs (Z.to_nat total) = zip_with (upd_fn ow) vr vs).
      { unfold total, zlen in *. rewrite Nat2Z.id. apply mix_all. lia. }
      rewrite Em in G2. unfold receiver in G2 at 1. destruct (Z.eqb_spec 0 total) as [E0|_]; [lia|]. exact G2.
    Qed.
  End One.

  Lemma zip_overwrite vr vs : zlen vr = zlen vs -> zip_with (upd_fn true) vr vs = vs.
  Proof.
    unfold zlen. intros E. apply Nat2Z.inj in E. revert vs E. induction vr as [|a vr IH]; intros [|b vs] E; try discriminate; [reflexivity|].
    unfold zip_with in *. cbn. rewrite IH by (injection E as E; exact E). reflexivity.
  Qed.

  (** in any surroundings *)
  Lemma transfer {R} (s t : net pid msg R) i j job vs vr ow cc ww k1 k2 stale :
    i <> j -> zlen vr = zlen vs -> 1 <= cc -> 1 <= ww -> fits (cap i j) 1 -> 0 < zlen vs -> Forall (accept_ok job) stale -> fits (cap j i) (length stale + length vs + 1) ->
    procs s i = pbind (send_state job vs j) k1 -> procs s j = pbind (receive_state job vr i ow cc ww) k2 -> chans s i j = [] -> chans s j i = stale ->
    exists Q', Forall (accept_ok job) Q' /\ (length Q' <= length stale + length vs)%nat /\
    (procs t i = k1 tt -> procs t j = k2 (zip_with (upd_fn ow) vr vs) -> (forall x, x <> i -> x <> j -> procs t x = procs s x) ->
     chans t i j = [] -> chans t j i = Q' -> (forall x y, (x, y) <> (i, j) -> (x, y) <> (j, i) -> chans t x y = chans s x y) -> go s t).
  Proof.
    intros Hij Hl Hc Hw Hd Ht HQ Hfit H1 H2 H3 H4. destruct (transfer_pair s i j job vs vr ow cc ww k1 k2 Hij Hl Hc Hw Hd stale Ht HQ) as (Q' & HQ' & Hlq & G).
    { unfold zlen. rewrite Nat2Z.id. exact Hfit. }
    exists Q'. split; [exact HQ'|]. split; [unfold zlen in Hlq; lia|]. intros T1 T2 T3 T4 T5 T6.
    eapply go_eqv_l; [apply (pair_in pid_eqb pid_eqb_ok); [exact Hij|exact H1|exact H2|exact H3|exact H4]|].
    eapply go_eqv_r; [exact G|]. apply (pair_out pid_eqb pid_eqb_ok); assumption.
  Qed.
End Transfer.
