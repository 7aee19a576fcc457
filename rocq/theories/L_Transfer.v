(** Several transfers over one connection: C44, C45. *)
From Verif Require Import Base M_Bits M_Kron M_Feed M_Measure M_Net S_Net L_Net M_Worker S_Worker L_Worker1 L_Worker2.

Section Transfers.
  Context {K : Type} {OK : OrdRing K}.
  Notation C := (Cx K).
  Notation msg := (msg K).
  Variable cap : pid -> pid -> option nat.
  Notation go := (go pid_eqb cap).

  Lemma received_zip (ow : bool) (old new : list C) : length old = length new -> received ow old new = zip_with (upd_fn ow) old new.
  Proof. intros E. destruct ow; [symmetry; apply zip_overwrite; unfold zlen; f_equal; exact E|reflexivity]. Qed.
  Lemma received_length (ow : bool) (old new : list C) : length old = length new -> length (received ow old new) = length new.
  Proof. intros E. rewrite received_zip by exact E. rewrite zip_length. rewrite <- E. apply Nat.min_id. Qed.

  Section Conn.
    Context (job : Z) (i j : pid) (size : nat).
    Hypothesis Hij : i <> j.
    Hypothesis Hsize : (0 < size)%nat.
    Hypothesis Hdata : fits (cap i j) 1.
    Definition good_transfer (t : transfer_op K) : Prop := length (t_data t) = size /\ 1 <= t_chunk t /\ 1 <= t_window t.

    Lemma transfers_go ts : forall (s : net pid msg (option (list C))) vec stale k1 k2, Forall good_transfer ts -> length vec = size -> Forall (accept_ok job) stale ->
      fits (cap j i) (length stale + length ts * size + 1) ->
      procs s i = pbind (pfold (fun _ t => send_state job (t_data t) j) ts tt) k1 ->
      procs s j = pbind (pfold (fun vec t => receive_state job vec i (t_overwrite t) (t_chunk t) (t_window t)) ts vec) k2 ->
      chans s i j = [] -> chans s j i = stale ->
      exists t, go s t /\ procs t i = k1 tt /\ procs t j = k2 (fold_left (fun v t => received (t_overwrite t) v (t_data t)) ts vec) /\
        (forall x, x <> i -> x <> j -> procs t x = procs s x) /\ chans t i j = [].
    Proof.
      induction ts as [|t0 ts IH]; intros s vec stale k1 k2 Hts Hvec Hst Hf Hpi Hpj Hc1 Hc2.
      - exists s. split; [apply go_refl, eqv_refl|]. cbn [pfold pbind fold_left] in *. auto.
      - apply Forall_cons_iff in Hts. destruct Hts as [(Hl & Hcc & Hww) Hts]. cbn [pfold length] in *.
        destruct (recast pid_eqb pid_eqb_ok cap s i (pbind (send_state job (t_data t0) j) (fun u => pbind (pfold (fun _ t => send_state job (t_data t) j) ts u) k1))) as (s1 & G1 & P1 & P1' & C1).
        { rewrite Hpi. apply bind_assoc. }
        destruct (recast pid_eqb pid_eqb_ok cap s1 j (pbind (receive_state job vec i (t_overwrite t0) (t_chunk t0) (t_window t0)) (fun v => pbind (pfold (fun vec t => receive_state job vec i (t_overwrite t) (t_chunk t) (t_window t)) ts v) k2))) as (s2 & G2 & P2 & P2' & C2).
        { rewrite P1' by congruence. rewrite Hpj. apply bind_assoc. }
        destruct (do_transfer cap s2 i j job (t_data t0) vec (t_overwrite t0) (t_chunk t0) (t_window t0) (fun u => pbind (pfold (fun _ t => send_state job (t_data t) j) ts u) k1)
          (fun v => pbind (pfold (fun vec t => receive_state job vec i (t_overwrite t) (t_chunk t) (t_window t)) ts v) k2) stale Hij) as (s3 & G3 & P3 & P4 & P5 & C3 & [C4 C4'] & C5);
          [unfold zlen; lia|exact Hcc|exact Hww|exact Hdata|unfold zlen; lia|exact Hst|eapply fits_le; [exact Hf|lia]|rewrite P2' by exact Hij; exact P1|exact P2|rewrite C2, C1; exact Hc1|rewrite C2, C1; exact Hc2|].
        rewrite <- received_zip in P4 by lia.
        destruct (IH s3 (received (t_overwrite t0) vec (t_data t0)) _ k1 k2 Hts ltac:(rewrite received_length; lia) C4) as (t & G & Q1 & Q2 & Q3 & Q4); [eapply fits_le; [exact Hf|lia]|exact P3|exact P4|exact C3|reflexivity|].
        exists t. split; [eapply go_trans; [exact G1|]; eapply go_trans; [exact G2|]; eapply go_trans; eassumption|]. split; [exact Q1|]. split; [exact Q2|]. split; [|exact Q4].
        intros x Hx1 Hx2. rewrite Q3, P5, P2', P1' by assumption. reflexivity.
    Qed.

    Lemma transfers_end ts vec stale : Forall good_transfer ts -> length vec = size -> Forall (accept_ok job) stale -> fits (cap j i) (length stale + length ts * size + 1) ->
      always_ends pid_eqb cap (transfers_net job i j vec ts stale) (fun s' =>
        procs s' i = Ret None /\ procs s' j = Ret (Some (fold_left (fun v t => received (t_overwrite t) v (t_data t)) ts vec))).
    Proof.
      intros Hts Hvec Hst Hf. set (s := transfers_net job i j vec ts stale).
      assert (Hji : j <> i) by congruence.
      destruct (transfers_go ts s vec stale (fun _ => Ret None) (fun v => Ret (Some v)) Hts Hvec Hst Hf) as (t & G & P1 & P2 & P3 & C1).
      { cbn [s transfers_net procs]. rewrite (peqb_refl pid_eqb pid_eqb_ok). reflexivity. }
      { cbn [s transfers_net procs]. rewrite (peqb_neq pid_eqb pid_eqb_ok j i Hji), (peqb_refl pid_eqb pid_eqb_ok). reflexivity. }
      { cbn [s transfers_net chans]. rewrite (peqb_neq pid_eqb pid_eqb_ok i j Hij). reflexivity. }
      { cbn [s transfers_net chans]. rewrite !(peqb_refl pid_eqb pid_eqb_ok). reflexivity. }
      destruct G as [l G]. apply (confluence pid_eqb pid_eqb_ok cap s l t _ G).
      - intros x. unfold exec. destruct (pid_dec x i) as [->|Hi]; [rewrite P1; reflexivity|]. destruct (pid_dec x j) as [->|Hj]; [rewrite P2; reflexivity|].
        rewrite P3 by assumption. cbn [s transfers_net procs]. rewrite !(peqb_neq pid_eqb pid_eqb_ok) by assumption. reflexivity.
      - intros t' [He _]. assert (H1 := He i). assert (H2 := He j). rewrite P1 in H1. rewrite P2 in H2. inversion H1; inversion H2; auto.
    Qed.
  End Conn.
End Transfers.

(** The number of acknowledgements that a transfer leaves in the connection, when nothing ever blocks. *)
Section Exact.
  Context {K : Type} {OK : OrdRing K}.
  Notation C := (Cx K).
  Notation msg := (msg K).
  Let cap : pid -> pid -> option nat := fun _ _ => None.
  Notation go := (go pid_eqb cap).

  (** number of chunks of size c for l amplitudes *)
  Definition chunks (c l : Z) : Z := (l + c - 1) / c.
  Lemma chunks_0 c : 1 <= c -> chunks c 0 = 0.
  Proof. intros H. unfold chunks. apply Z.div_small. lia. Qed.
  Lemma chunks_pos c l : 1 <= c -> 0 < l -> 1 <= chunks c l.
  Proof. intros H Hl. unfold chunks. apply Z.div_le_lower_bound; lia. Qed.
  Lemma chunks_step c l : 1 <= c -> 0 < l -> chunks c (l - Z.min l c) = chunks c l - 1.
  Proof.
    intros H Hl. destruct (Z.le_gt_cases l c) as [Hc|Hc].
    - rewrite Z.min_l by lia. rewrite Z.sub_diag, chunks_0 by lia. unfold chunks. assert ((l + c - 1) / c = 1); [|lia]. symmetry. apply Z.div_unique with (l - 1); lia.
    - rewrite Z.min_r by lia. unfold chunks. replace (l + c - 1) with ((l - c + c - 1) + 1 * c) by ring. rewrite Z.div_add by lia. lia.
  Qed.
  Lemma chunks_nonneg c l : 1 <= c -> 0 <= l -> 0 <= chunks c l.
  Proof. intros H Hl. unfold chunks. apply Z.div_pos; lia. Qed.

  Section One.
    Context {R : Type} (s : net pid msg R) (i j : pid) (job : Z) (vs vr : list C) (ow : bool) (cc ww : Z).
    Context (k1 : unit -> proc pid msg R) (k2 : list C -> proc pid msg R).
    Hypothesis Hij : i <> j.
    Hypothesis Hlen : zlen vr = zlen vs.
    Hypothesis Hcc : 1 <= cc. Hypothesis Hww : 1 <= ww.
    Let total := zlen vs.
    Let acc : msg := MAccept job cc ww.
    Notation receiver := (receiver i job vs vr ow cc ww k2).

    Lemma repeat_snoc {A} (x : A) n : repeat x n ++ [x] = repeat x (S n).
    Proof. induction n; cbn; [reflexivity|]. rewrite IHn. reflexivity. Qed.

    Lemma inner_exact (K0 : Z -> Z -> proc pid msg unit) : forall fuel rf infl last q,
      0 <= last <= total -> total - last < Z.of_nat fuel -> total - last < Z.of_nat rf ->
      let m := Z.max 0 (Z.min (ww - infl) (chunks cc (total - last))) in
      exists last' rf',
        go (pair_net pid_eqb s i j (pbind (send_inner fuel job vs j cc ww infl last K0) k1) (receiver rf last) [] (repeat acc q))
           (pair_net pid_eqb s i j (pbind (K0 (infl + m) last') k1) (receiver rf' last') [] (repeat acc (q + Z.to_nat m))) /\
        last <= last' <= total /\ chunks cc (total - last') = chunks cc (total - last) - m /\ total - last' < Z.of_nat rf' /\ m <= last' - last.
    Proof.
      induction fuel as [|fuel IH]; intros rf infl last q Hl Hf Hrf m; [lia|]. cbn [send_inner]. fold total.
      destruct ((infl <? ww) && (last <? total)) eqn:Eb.
      - apply andb_prop in Eb. destruct Eb as [E1 E2]. apply Z.ltb_lt in E1, E2. set (e := last + Z.min (total - last) cc).
        destruct rf as [|rf]; [lia|]. destruct (IH rf (infl + 1) e (S q)) as (last' & rf' & G & H1 & H2 & H3 & H4); try (unfold e; lia).
        assert (Hst : chunks cc (total - e) = chunks cc (total - last) - 1) by (unfold e; rewrite <- chunks_step by lia; f_equal; lia).
        assert (Hp := chunks_pos cc (total - last) Hcc ltac:(lia)).
        rewrite Hst in *. assert (Em : m = 1 + Z.max 0 (Z.min (ww - (infl + 1)) (chunks cc (total - last) - 1))) by (unfold m; lia).
        exists last', rf'. split; [|split; [unfold e in *; lia|]; split; [lia|]; split; [lia|unfold e in *; lia]].
        eapply go_trans; [cbn [pbind]; apply one_chunk; [exact Hij|exact Hlen|exact I|unfold e; lia|unfold e, total; lia|exact I]|].
        fold acc. rewrite repeat_snoc. rewrite Em. replace (infl + (1 + _)) with (infl + 1 + Z.max 0 (Z.min (ww - (infl + 1)) (chunks cc (total - last) - 1))) by ring.
        replace (q + Z.to_nat (1 + _))%nat with (S q + Z.to_nat (Z.max 0 (Z.min (ww - (infl + 1)) (chunks cc (total - last) - 1))))%nat by lia. exact G.
      - assert (Em : m = 0).
        { unfold m. apply andb_false_iff in Eb. rewrite !Z.ltb_ge in Eb. destruct Eb as [E|E]; [lia|]. replace (total - last) with 0 by lia. rewrite chunks_0 by lia. lia. }
        exists last, rf. rewrite Em, Z.add_0_r, Nat.add_0_r. split; [apply go_refl, eqv_refl|]. repeat split; lia.
    Qed.

    Lemma outer_exact : forall fuel rf infl last q, 0 <= infl < ww -> infl <= Z.of_nat q -> 0 <= last <= total ->
      total + 1 - last + infl <= Z.of_nat fuel -> total - last < Z.of_nat rf ->
      go (pair_net pid_eqb s i j (pbind (send_outer fuel job vs j cc ww infl last) k1) (receiver rf last) [] (repeat acc q))
         (pair_net pid_eqb s i j (k1 tt) (k2 (mix (upd_fn ow) vr vs (Z.to_nat total))) []
            (repeat acc (if last <? total then q + Z.to_nat (Z.min (chunks cc (total - last)) (ww - infl)) - 1 else q))).
    Proof.
      induction fuel as [|fuel IH]; intros rf infl last q Hinfl Hq Hl Hf Hrf; [lia|]. cbn [send_outer]; fold total.
      destruct (last <? total) eqn:E.
      - apply Z.ltb_lt in E.
        match goal with |- context [send_inner (S (length vs)) job vs j cc ww infl last ?k] => destruct (inner_exact k (S (length vs)) rf infl last q Hl) as (last' & rf' & G & H1 & H2 & H3 & H4) end.
        { unfold total, zlen in *. lia. } { lia. }
        assert (Hp := chunks_pos cc (total - last) Hcc ltac:(lia)).
        set (m := Z.max 0 (Z.min (ww - infl) (chunks cc (total - last)))) in *.
        assert (Em : m = Z.min (ww - infl) (chunks cc (total - last))) by (unfold m; lia).
        assert (Eq : (q + Z.to_nat m)%nat = S (q + Z.to_nat m - 1)) by lia.
        eapply go_trans; [exact G|]. cbn [pbind]. rewrite Eq. cbn [repeat].
        eapply go_trans; [apply (pair_recv_i pid_eqb pid_eqb_ok); exact Hij|]. unfold acc at 1. cbn beta iota. rewrite Z.eqb_refl. cbn [negb].
        assert (HN : 0 < total - last' -> 1 <= chunks cc (total - last')) by (intros; apply chunks_pos; lia).
        assert (H0 : total - last' = 0 -> chunks cc (total - last') = 0) by (intros ->; apply chunks_0; lia).
        eapply go_eqv_r; [apply IH; try lia|].
        replace (if last' <? total then _ else _) with (q + Z.to_nat (Z.min (chunks cc (total - last)) (ww - infl)) - 1)%nat; [apply eqv_refl|].
        destruct (Z.ltb_spec last' total) as [E'|E']; lia.
      - apply Z.ltb_ge in E. cbn [pbind]. apply go_refl. unfold L_Worker1.receiver. fold total. replace last with total by lia. rewrite Z.eqb_refl. apply eqv_refl.
    Qed.

    Lemma transfer_exact q : 0 < total ->
      go (pair_net pid_eqb s i j (pbind (send_state job vs j) k1) (pbind (receive_state job vr i ow cc ww) k2) [] (repeat acc q))
         (pair_net pid_eqb s i j (k1 tt) (k2 (zip_with (upd_fn ow) vr vs)) [] (repeat acc (q + Z.to_nat (Z.min (chunks cc total) ww) - 1))).
    Proof.
      intros Ht. unfold send_state, receive_state. cbn [pbind].
      eapply go_trans; [apply (pair_send_j pid_eqb pid_eqb_ok); [exact Hij|reflexivity]|]. fold acc. rewrite repeat_snoc. cbn [repeat].
      eapply go_trans; [apply (pair_recv_i pid_eqb pid_eqb_ok); exact Hij|]. unfold acc at 1. cbn beta iota. rewrite Z.eqb_refl. cbn [negb].
      assert (G := outer_exact (S (length vs)) (S (length vr)) 0 0 q ltac:(lia) ltac:(lia) ltac:(lia)). unfold total, zlen in G. fold total in G.
      assert (Em : mix (upd_fn ow) vr vs (Z.to_nat total) = zip_with (upd_fn ow) vr vs).
      { unfold total, zlen in *. rewrite Nat2Z.id. apply mix_all. lia. }
      unfold zlen in Hlen. specialize (G ltac:(lia) ltac:(lia)). fold (zlen vs) in G. fold total in G.
      rewrite Em in G. unfold L_Worker1.receiver in G at 1. fold total in G. destruct (Z.eqb_spec 0 total) as [E0|_]; [lia|].
      rewrite Z.sub_0_r, Z.sub_0_r in G. destruct (Z.ltb_spec 0 total) as [_|E]; [|lia]. exact G.
    Qed.
  End One.
End Exact.

(** Bounded connections. *)
Section Bounded.
  Context {K : Type} {OK : OrdRing K}.
  Notation C := (Cx K).
  Notation msg := (msg K).
  Let free : pid -> pid -> option nat := fun _ _ => None.

  Lemma exec_free {R} cap (s : net pid msg R) x s' : exec pid_eqb cap s x = Some s' -> exec pid_eqb free s x = Some s'.
  Proof. unfold exec. destruct (procs s x); try discriminate; auto. destruct (has_room _ _); [|discriminate]. auto. Qed.
  Lemma runs_free {R} cap l : forall (s : net pid msg R) s', runs pid_eqb cap s l = Some s' -> runs pid_eqb free s l = Some s'.
  Proof.
    induction l as [|x l IH]; intros s s' H; cbn [runs] in *; [exact H|]. destruct (exec pid_eqb cap s x) as [s1|] eqn:E; [|discriminate].
    rewrite (exec_free _ _ _ _ E). apply IH. exact H.
  Qed.
  Lemma exec_bounded {R} cap c (i j : pid) (s : net pid msg R) x s' : cap i j = Some c -> (length (chans s i j) <= c)%nat -> exec pid_eqb cap s x = Some s' -> (length (chans s' i j) <= c)%nat.
  Proof.
    intros Hc Hl. unfold exec. destruct (procs s x) as [|?|to m k|from k]; try discriminate.
    - destruct (has_room (cap x to) (chans s x to)) eqn:E; [|discriminate]. intros H. injection H as <-. cbn [chans].
      destruct (pid_dec x i) as [->|Hx]; [destruct (pid_dec to j) as [->|Ht]|]; try (rewrite (set2_ne pid_eqb pid_eqb_ok) by congruence; exact Hl).
      rewrite (set2_eq pid_eqb pid_eqb_ok), app_length. rewrite Hc in E. unfold has_room in E. apply Nat.ltb_lt in E. cbn [length]. lia.
    - destruct (chans s from x) as [|m l] eqn:E; [discriminate|]. intros H. injection H as <-. cbn [chans].
      destruct (pid_dec from i) as [->|Hx]; [destruct (pid_dec x j) as [->|Ht]|]; try (rewrite (set2_ne pid_eqb pid_eqb_ok) by congruence; exact Hl).
      rewrite (set2_eq pid_eqb pid_eqb_ok). rewrite E in Hl. cbn [length] in Hl. lia.
  Qed.
  Lemma runs_bounded {R} cap c (i j : pid) l : cap i j = Some c -> forall (s : net pid msg R) s', (length (chans s i j) <= c)%nat -> runs pid_eqb cap s l = Some s' -> (length (chans s' i j) <= c)%nat.
  Proof.
    intros Hc. induction l as [|x l IH]; intros s s' Hl H; cbn [runs] in *; [injection H as <-; exact Hl|]. destruct (exec pid_eqb cap s x) as [s1|] eqn:E; [|discriminate].
    eapply IH; [|exact H]. eapply exec_bounded; eassumption.
  Qed.

  Section Conn.
    Context (job : Z) (i j : pid) (size : nat) (cc ww : Z).
    Hypothesis Hij : i <> j.
    Hypothesis Hsize : (0 < size)%nat.
    Hypothesis Hcc : 1 <= cc. Hypothesis Hww : 1 <= ww.
    Let left_over := (Z.to_nat (Z.min (chunks cc (Z.of_nat size)) ww) - 1)%nat.

    Lemma transfers_exact ts : forall (s : net pid msg (option (list C))) vec q k1 k2,
      Forall (fun t => length (t_data t) = size /\ t_chunk t = cc /\ t_window t = ww) ts -> length vec = size ->
      procs s i = pbind (pfold (fun _ t => send_state job (t_data t) j) ts tt) k1 ->
      procs s j = pbind (pfold (fun vec t => receive_state job vec i (t_overwrite t) (t_chunk t) (t_window t)) ts vec) k2 ->
      chans s i j = [] -> chans s j i = repeat (MAccept job cc ww) q ->
      exists t, go pid_eqb free s t /\ procs t i = k1 tt /\ procs t j = k2 (fold_left (fun v t => received (t_overwrite t) v (t_data t)) ts vec) /\
        (forall x, x <> i -> x <> j -> procs t x = procs s x) /\ chans t j i = repeat (MAccept job cc ww) (q + length ts * left_over) /\ chans t i j = [].
    Proof.
      assert (Hji : j <> i) by congruence.
      induction ts as [|t0 ts IH]; intros s vec q k1 k2 Hts Hvec Hpi Hpj Hc1 Hc2.
      - exists s. split; [apply go_refl, eqv_refl|]. cbn [pfold pbind fold_left length] in *. rewrite Nat.mul_0_l, Nat.add_0_r. auto.
      - apply Forall_cons_iff in Hts. destruct Hts as [(Hl & E1 & E2) Hts]. cbn [pfold length] in *. rewrite E1, E2 in Hpj.
        destruct (recast pid_eqb pid_eqb_ok free s i (pbind (send_state job (t_data t0) j) (fun u => pbind (pfold (fun _ t => send_state job (t_data t) j) ts u) k1))) as (s1 & G1 & P1 & P1' & C1).
        { rewrite Hpi. apply bind_assoc. }
        destruct (recast pid_eqb pid_eqb_ok free s1 j (pbind (receive_state job vec i (t_overwrite t0) cc ww) (fun v => pbind (pfold (fun vec t => receive_state job vec i (t_overwrite t) (t_chunk t) (t_window t)) ts v) k2))) as (s2 & G2 & P2 & P2' & C2).
        { rewrite P1' by congruence. rewrite Hpj. apply bind_assoc. }
        assert (Hz : zlen vec = zlen (t_data t0)) by (unfold zlen; rewrite Hvec, Hl; reflexivity).
        assert (Hz0 : 0 < zlen (t_data t0)) by (unfold zlen; lia).
        assert (G3 := transfer_exact s2 i j job (t_data t0) vec (t_overwrite t0) cc ww (fun u => pbind (pfold (fun _ t => send_state job (t_data t) j) ts u) k1)
          (fun v => pbind (pfold (fun vec t => receive_state job vec i (t_overwrite t) (t_chunk t) (t_window t)) ts v) k2) Hij Hz Hcc Hww q Hz0).
        rewrite <- received_zip in G3 by lia.
        set (s3 := pair_net pid_eqb s2 i j _ _ [] (repeat (MAccept job cc ww) (q + _ - 1))) in G3.
        assert (Hnp : 1 <= chunks cc (Z.of_nat size)) by (apply chunks_pos; lia).
        destruct (IH s3 (received (t_overwrite t0) vec (t_data t0)) (q + left_over)%nat k1 k2 Hts ltac:(rewrite received_length; lia)) as (t & G & Q1 & Q2 & Q3 & Q4 & Q5).
        { cbn [s3 pair_net procs]. rewrite (set1_ne pid_eqb pid_eqb_ok) by exact Hij. rewrite (set1_eq pid_eqb pid_eqb_ok). reflexivity. }
        { cbn [s3 pair_net procs]. rewrite (set1_eq pid_eqb pid_eqb_ok). reflexivity. }
        { cbn [s3 pair_net chans]. rewrite (set2_ne pid_eqb pid_eqb_ok) by congruence. rewrite (set2_eq pid_eqb pid_eqb_ok). reflexivity. }
        { cbn [s3 pair_net chans]. rewrite (set2_eq pid_eqb pid_eqb_ok). f_equal. unfold left_over, zlen. rewrite Hl. lia. }
        exists t. split; [|split; [exact Q1|]; split; [exact Q2|]; split; [|split; [|exact Q5]]].
        + eapply go_trans; [exact G1|]. eapply go_trans; [exact G2|]. eapply go_trans; [|exact G]. eapply go_eqv_l; [|exact G3].
          apply (pair_in pid_eqb pid_eqb_ok); [exact Hij|rewrite P2' by exact Hij; exact P1|exact P2|rewrite C2, C1; exact Hc1|rewrite C2, C1; exact Hc2].
        + intros x Hx1 Hx2. rewrite Q3 by assumption. cbn [s3 pair_net procs]. rewrite !(set1_ne pid_eqb pid_eqb_ok) by assumption. rewrite P2', P1' by assumption. reflexivity.
        + rewrite Q4. f_equal. lia.
    Qed.

    Lemma transfers_stuck cap c ts vec : cap j i = Some c -> Forall (fun t => length (t_data t) = size /\ t_chunk t = cc /\ t_window t = ww) ts -> length vec = size ->
      (c < length ts * left_over)%nat -> forall sched s', runs pid_eqb cap (transfers_net job i j vec ts []) sched = Some s' ->
      ~ ((exists r, procs s' i = Ret r) /\ (exists r, procs s' j = Ret r)).
    Proof.
      intros Hc Hts Hvec Hbig sched s' Hr [[r1 E1] [r2 E2]]. assert (Hji : j <> i) by congruence. set (s := transfers_net job i j vec ts []) in *.
      destruct (transfers_exact ts s vec 0 (fun _ => Ret None) (fun v => Ret (Some v)) Hts Hvec) as (t & [l G] & P1 & P2 & P3 & C1 & _).
      { cbn [s transfers_net procs]. rewrite (peqb_refl pid_eqb pid_eqb_ok). reflexivity. }
      { cbn [s transfers_net procs]. rewrite (peqb_neq pid_eqb pid_eqb_ok j i Hji), (peqb_refl pid_eqb pid_eqb_ok). reflexivity. }
      { cbn [s transfers_net chans]. rewrite (peqb_neq pid_eqb pid_eqb_ok i j Hij). reflexivity. }
      { cbn [s transfers_net chans repeat]. destruct (_ && _); reflexivity. }
      assert (Ht : terminal pid_eqb free t).
      { intros x. unfold exec. destruct (pid_dec x i) as [->|Hi]; [rewrite P1; reflexivity|]. destruct (pid_dec x j) as [->|Hj]; [rewrite P2; reflexivity|].
        rewrite P3 by assumption. cbn [s transfers_net procs]. rewrite !(peqb_neq pid_eqb pid_eqb_ok) by assumption. reflexivity. }
      destruct (runs_towards pid_eqb pid_eqb_ok free sched s l t s' G Ht (runs_free cap sched s s' Hr)) as (l2 & H2 & _).
      assert (Hc0 : (length (chans s' j i) <= c)%nat).
      { eapply (runs_bounded cap c j i sched Hc s s'); [|exact Hr]. cbn [s transfers_net chans]. destruct (_ && _); cbn; lia. }
      destruct l2 as [|x l2]; cbn [steps] in H2.
      - destruct H2 as [_ H2]. rewrite H2, C1, repeat_length in Hc0. lia.
      - destruct H2 as (s1 & Ex & H2).
        assert (Hx : x <> i /\ x <> j) by (split; intros ->; unfold exec in Ex; [rewrite E1 in Ex|rewrite E2 in Ex]; discriminate).
        assert (Hid : forall l (s s' : net pid msg (option (list C))), runs pid_eqb cap s l = Some s' -> forall x, x <> i -> x <> j -> (forall y, y <> i -> y <> j -> exists r, procs s y = Ret r) -> exists r, procs s' x = Ret r).
        { clear. induction l as [|y l IH]; intros s s' H x Hx1 Hx2 Hs; cbn [runs] in H; [injection H as <-; auto|]. destruct (exec pid_eqb cap s y) as [s1|] eqn:E; [|discriminate].
          eapply (IH s1 s' H x Hx1 Hx2). intros z Hz1 Hz2. destruct (Hs z Hz1 Hz2) as [r Hr].
          destruct (pid_dec z y) as [->|Hzy]; [unfold exec in E; rewrite Hr in E; discriminate|]. exists r. rewrite <- Hr.
          unfold exec in E. destruct (procs s y); try discriminate; [destruct (has_room _ _); [|discriminate]|destruct (chans s _ y); [discriminate|]]; injection E as <-; cbn [procs]; apply (set1_ne pid_eqb pid_eqb_ok); exact Hzy. }
        destruct (Hid sched s s' Hr x (proj1 Hx) (proj2 Hx)) as [r Er].
        { intros y Hy1 Hy2. cbn [s transfers_net procs]. rewrite !(peqb_neq pid_eqb pid_eqb_ok) by assumption. eauto. }
        unfold exec in Ex. rewrite Er in Ex. discriminate.
    Qed.
  End Conn.
End Bounded.

(** Chunks in transit: bounded in the first transfer, unbounded later. *)
Section Window.
  Context {K : Type} {OK : OrdRing K}.
  Notation C := (Cx K).
  Notation msg := (msg K).

  (** p sends at most n messages more than it receives *)
  Fixpoint ahead {R} (n : Z) (p : proc pid msg R) : Prop :=
    match p with
    | Send _ _ k => 0 < n /\ ahead (n - 1) k
    | Recv _ k => forall m, ahead (n + 1) (k m)
    | _ => True
    end.
  (** p talks to q only *)
  Fixpoint talks_to {R} (q : pid) (p : proc pid msg R) : Prop :=
    match p with
    | Send to _ k => to = q /\ talks_to q k
    | Recv from k => from = q /\ forall m, talks_to q (k m)
    | _ => True
    end.
  (** the answers of p are acknowledgements with chunk size cc and window ww *)
  Fixpoint accepts {R} (a : msg) (p : proc pid msg R) : Prop :=
    match p with
    | Send _ m k => m = a /\ accepts a k
    | Recv _ k => forall m, accepts a (k m)
    | _ => True
    end.
  (** the same, as long as only the message a arrives *)
  Fixpoint ahead_if {R} (a : msg) (n : Z) (p : proc pid msg R) : Prop :=
    match p with
    | Send _ _ k => 0 < n /\ ahead_if a (n - 1) k
    | Recv _ k => ahead_if a (n + 1) (k a)
    | _ => True
    end.

  Lemma bind_ahead_if {A R} a (p : proc pid msg A) (f : A -> proc pid msg R) : forall n, ahead_if a n p -> (forall x n, ahead_if a n (f x)) -> ahead_if a n (pbind p f).
  Proof. induction p; intros n Hp Hf; cbn [pbind ahead_if] in *; auto. destruct Hp; auto. Qed.
  Lemma bind_talks {A R} q (p : proc pid msg A) (f : A -> proc pid msg R) : talks_to q p -> (forall x, talks_to q (f x)) -> talks_to q (pbind p f).
  Proof. induction p; intros Hp Hf; cbn [pbind talks_to] in *; auto; destruct Hp; auto. Qed.
  Lemma bind_accepts {A R} a (p : proc pid msg A) (f : A -> proc pid msg R) : accepts a p -> (forall x, accepts a (f x)) -> accepts a (pbind p f).
  Proof. induction p; intros Hp Hf; cbn [pbind accepts] in *; auto. destruct Hp; auto. Qed.
  Lemma bind_ahead {A R} (p : proc pid msg A) (f : A -> proc pid msg R) : forall n, ahead n p -> (forall x n, ahead n (f x)) -> ahead n (pbind p f).
  Proof. induction p; intros n Hp Hf; cbn [pbind ahead] in *; auto. destruct Hp; auto. Qed.

  Section One.
    Context (job : Z) (vec : list C) (peer : pid) (cc ww : Z).
    Let a : msg := MAccept job cc ww.
    Lemma inner_ahead {A} (k : Z -> Z -> proc pid msg A) : (forall infl last, infl <= ww -> ahead_if a (ww - infl) (k infl last)) -> forall fuel infl last, infl <= ww ->
      ahead_if a (ww - infl) (send_inner fuel job vec peer cc ww infl last k).
    Proof.
      intros Hk. induction fuel as [|fuel IH]; intros infl last Hi; cbn [send_inner]; destruct ((infl <? ww) && _) eqn:E; try exact I; try (apply Hk; exact Hi).
      apply andb_prop in E. destruct E as [E _]. apply Z.ltb_lt in E. cbn [ahead_if]. split; [lia|]. replace (ww - infl - 1) with (ww - (infl + 1)) by ring. apply IH. lia.
    Qed.
    Lemma outer_ahead : forall fuel infl last, infl <= ww -> ahead_if a (ww - infl) (send_outer fuel job vec peer cc ww infl last).
    Proof.
      induction fuel as [|fuel IH]; intros infl last Hi; cbn [send_outer]; destruct (last <? zlen vec); try exact I.
      apply inner_ahead; [|exact Hi]. intros infl' last' Hi'. cbn [ahead_if]. unfold a. rewrite Z.eqb_refl. cbn [negb]. fold a. replace (ww - infl' + 1) with (ww - (infl' - 1)) by ring. apply IH. lia.
    Qed.
    Lemma inner_talks {A} (k : Z -> Z -> proc pid msg A) : (forall infl last, talks_to peer (k infl last)) -> forall fuel c w infl last, talks_to peer (send_inner fuel job vec peer c w infl last k).
    Proof. intros Hk. induction fuel as [|fuel IH]; intros; cbn [send_inner]; destruct (_ && _); cbn [talks_to]; auto. Qed.
    Lemma outer_talks : forall fuel c w infl last, talks_to peer (send_outer fuel job vec peer c w infl last).
    Proof.
      induction fuel as [|fuel IH]; intros; cbn [send_outer]; destruct (_ <? _); cbn [talks_to]; auto.
      apply inner_talks. intros. cbn [talks_to]. split; [reflexivity|]. intros [| |j ? ?|]; cbn; auto. destruct (negb _); cbn; auto.
    Qed.
    Lemma receive_talks (ow : bool) : forall fuel v, talks_to peer (receive_loop fuel job v peer ow cc ww).
    Proof.
      induction fuel as [|fuel IH]; intros v; cbn [receive_loop talks_to]; auto. split; [reflexivity|]. intros [| | |j rel data done]; cbn; auto.
      match goal with |- context [lift ?r] => destruct r end; cbn [lift pbind talks_to]; auto. split; [reflexivity|]. destruct done; cbn; auto.
    Qed.
    Lemma receive_accepts (ow : bool) : forall fuel v, accepts a (receive_loop fuel job v peer ow cc ww).
    Proof.
      induction fuel as [|fuel IH]; intros v; cbn [receive_loop accepts]; auto. intros [| | |j rel data done]; cbn; auto.
      match goal with |- context [lift ?r] => destruct r end; cbn [lift pbind accepts]; auto. split; [reflexivity|]. destruct done; cbn; auto.
    Qed.
    Lemma receive_ahead (ow : bool) : forall fuel v, ahead 0 (receive_loop fuel job v peer ow cc ww).
    Proof.
      induction fuel as [|fuel IH]; intros v; cbn [receive_loop ahead]; auto. intros [| | |j rel data done]; cbn; auto.
      match goal with |- context [lift ?r] => destruct r end; cbn [lift pbind ahead]; auto. split; [lia|]. destruct done; cbn; auto.
    Qed.
  End One.

  Lemma some_inj {A} (x y : A) : Some x = Some y -> x = y.
  Proof. intros H. injection H. auto. Qed.
  Lemma runs_inv {R} cap (I : net pid msg R -> Prop) : (forall s x s', I s -> exec pid_eqb cap s x = Some s' -> I s') -> forall l s s', I s -> runs pid_eqb cap s l = Some s' -> I s'.
  Proof. intros H. induction l as [|x l IH]; intros s s' Hs E; cbn [runs] in E; [injection E as <-; exact Hs|]. destruct (exec pid_eqb cap s x) eqn:Ex; [|discriminate]. eauto. Qed.

  Section First.
    Context (cap : pid -> pid -> option nat) (job : Z) (i j : pid) (vec vr : list C) (ow : bool) (cc ww : Z).
    Hypothesis Hij : i <> j.
    Hypothesis Hww : 1 <= ww.
    Let a : msg := MAccept job cc ww.
    Notation net := (net pid msg (option (list C))).
    Let start := transfers_net job i j vr [mkTransfer vec ow cc ww] [].
    Definition under_way (s : net) : Prop :=
      talks_to j (procs s i) /\ talks_to i (procs s j) /\ accepts a (procs s j) /\ Forall (eq a) (chans s j i) /\
      (forall x, x <> i -> x <> j -> exists r, procs s x = Ret r) /\
      exists cs cr, 0 <= cs /\ 0 <= cr /\ ahead_if a cs (procs s i) /\ ahead cr (procs s j) /\ cs + zlen (chans s i j) + zlen (chans s j i) + cr <= ww.
    Definition not_yet (s : net) : Prop :=
      procs s i = procs start i /\ chans s i j = [] /\ (forall x, x <> i -> x <> j -> exists r, procs s x = Ret r) /\
      ((procs s j = procs start j /\ chans s j i = []) \/
       (chans s j i = [a] /\ talks_to i (procs s j) /\ accepts a (procs s j) /\ ahead 0 (procs s j))).

    Lemma zlen_snoc {A} (l : list A) x : zlen (l ++ [x]) = zlen l + 1.
    Proof. unfold zlen. rewrite app_length. cbn [length]. lia. Qed.
    Lemma zlen_cons' {A} (l : list A) x : zlen (x :: l) = zlen l + 1.
    Proof. unfold zlen. cbn [length]. lia. Qed.
    Let Hji : j <> i. Proof. congruence. Qed.
    Let e1 {A} (f : pid -> A) p v := set1_eq pid_eqb pid_eqb_ok f p v.
    Let n1 {A} (f : pid -> A) p v q := set1_ne pid_eqb pid_eqb_ok f p v q.

    Lemma under_way_step s x s' : under_way s -> exec pid_eqb cap s x = Some s' -> under_way s'.
    Proof.
      intros (T1 & T2 & A2 & F & I & cs & cr & H1 & H2 & B1 & B2 & B) E. unfold exec in E.
      destruct (pid_dec x i) as [->|Hi]; [|destruct (pid_dec x j) as [->|Hj]].
      - destruct (procs s i) as [|?|to m k|from k] eqn:Ep; try discriminate; cbn [talks_to ahead_if] in T1, B1; destruct T1 as [-> T1].
        + destruct (has_room _ _); [|discriminate]. injection E as <-. destruct B1 as [B1 B1']. unfold under_way. cbn [procs chans].
          rewrite (set1_eq pid_eqb pid_eqb_ok), (set1_ne pid_eqb pid_eqb_ok) by exact Hji. rewrite (set2_eq pid_eqb pid_eqb_ok), (set2_ne pid_eqb pid_eqb_ok) by congruence.
          do 4 (split; [assumption|]). split; [intros y Hy1 Hy2; rewrite (set1_ne pid_eqb pid_eqb_ok) by exact Hy1; auto|].
          exists (cs - 1), cr. rewrite zlen_snoc. repeat split; try assumption; lia.
        + destruct (chans s j i) as [|m l] eqn:Ec; [discriminate|]. injection E as <-. apply Forall_cons_iff in F. destruct F as [<- F]. unfold under_way. cbn [procs chans].
          rewrite (set1_eq pid_eqb pid_eqb_ok), (set1_ne pid_eqb pid_eqb_ok) by exact Hji. rewrite (set2_eq pid_eqb pid_eqb_ok), (set2_ne pid_eqb pid_eqb_ok) by congruence.
          split; [apply T1|]. do 3 (split; [assumption|]). split; [intros y Hy1 Hy2; rewrite (set1_ne pid_eqb pid_eqb_ok) by exact Hy1; auto|].
          exists (cs + 1), cr. rewrite zlen_cons' in B. repeat split; try assumption; lia.
      - destruct (procs s j) as [|?|to m k|from k] eqn:Ep; try discriminate; cbn [talks_to ahead accepts] in T2, B2, A2; destruct T2 as [-> T2].
        + destruct (has_room _ _); [|discriminate]. injection E as <-. destruct B2 as [B2 B2']. destruct A2 as [-> A2]. unfold under_way. cbn [procs chans].
          rewrite (set1_eq pid_eqb pid_eqb_ok), (set1_ne pid_eqb pid_eqb_ok) by exact Hij. rewrite (set2_eq pid_eqb pid_eqb_ok), (set2_ne pid_eqb pid_eqb_ok) by congruence.
          do 3 (split; [assumption|]). split; [apply Forall_app; split; [exact F|constructor; [reflexivity|constructor]]|].
          split; [intros y Hy1 Hy2; rewrite (set1_ne pid_eqb pid_eqb_ok) by exact Hy2; auto|].
          exists cs, (cr - 1). rewrite zlen_snoc. repeat split; try assumption; lia.
        + destruct (chans s i j) as [|m l] eqn:Ec; [discriminate|]. apply some_inj in E; subst s'. unfold under_way. cbn [procs chans].
          rewrite (set1_eq pid_eqb pid_eqb_ok), (set1_ne pid_eqb pid_eqb_ok) by exact Hij. rewrite (set2_eq pid_eqb pid_eqb_ok), (set2_ne pid_eqb pid_eqb_ok) by congruence.
          split; [assumption|]. split; [apply T2|]. split; [apply A2|]. split; [exact F|].
          split; [intros y Hy1 Hy2; rewrite (set1_ne pid_eqb pid_eqb_ok) by exact Hy2; auto|].
          exists cs, (cr + 1). rewrite zlen_cons' in B. repeat split; try assumption; try lia. apply B2.
      - destruct (I x Hi Hj) as [r Er]. rewrite Er in E. discriminate.
    Qed.
    Lemma start_i : procs start i = pbind (pfold (fun _ t => send_state job (t_data t) j) [mkTransfer vec ow cc ww] tt) (fun _ => Ret None).
    Proof. cbn [start transfers_net procs]. rewrite (peqb_refl pid_eqb pid_eqb_ok). reflexivity. Qed.
    Lemma start_j : procs start j = pbind (pfold (fun vec t => receive_state job vec i (t_overwrite t) (t_chunk t) (t_window t)) [mkTransfer vec ow cc ww] vr) (fun v => Ret (Some v)).
    Proof. cbn [start transfers_net procs]. rewrite (peqb_neq pid_eqb pid_eqb_ok j i Hji), (peqb_refl pid_eqb pid_eqb_ok). reflexivity. Qed.
    Lemma not_yet_step s x s' : not_yet s -> exec pid_eqb cap s x = Some s' -> not_yet s' \/ under_way s'.
    Proof.
      intros (Pi & Cij & I & Hj') E. unfold exec in E.
      destruct (pid_dec x i) as [->|Hi]; [|destruct (pid_dec x j) as [->|Hj]].
      - right. rewrite Pi, start_i in E. unfold send_state in E. cbn [pfold pbind t_data] in E.
        destruct Hj' as [[_ Hc]|(Hc & T2 & A2 & B2)]; rewrite Hc in E; [discriminate|]. apply some_inj in E; subst s'. unfold under_way. cbn [procs chans].
        rewrite (set1_eq pid_eqb pid_eqb_ok), (set1_ne pid_eqb pid_eqb_ok) by exact Hji. rewrite (set2_eq pid_eqb pid_eqb_ok), (set2_ne pid_eqb pid_eqb_ok) by congruence.
        unfold a. rewrite Z.eqb_refl. cbn [negb]. fold a.
        split; [apply bind_talks; [apply bind_talks; [apply outer_talks|intros; solve [cbn; auto]]|intros; solve [cbn; auto]]|]. do 2 (split; [assumption|]). split; [constructor|].
        split; [intros y Hy1 Hy2; rewrite (set1_ne pid_eqb pid_eqb_ok) by exact Hy1; auto|].
        exists ww, 0. split; [lia|]. split; [lia|]. split; [|split; [exact B2|unfold zlen; rewrite Cij; cbn [length]; lia]].
        apply bind_ahead_if; [apply bind_ahead_if|intros; solve [cbn; auto]]; [|intros; solve [cbn; auto]]. assert (Ho := outer_ahead job vec j cc ww (S (length vec)) 0 0 ltac:(lia)). rewrite Z.sub_0_r in Ho. exact Ho.
      - left. destruct Hj' as [[Pj Hc]|(Hc & T2 & A2 & B2)].
        + rewrite Pj, start_j in E. unfold receive_state in E. cbn [pfold pbind t_overwrite t_chunk t_window] in E. destruct (has_room _ _); [|discriminate]. apply some_inj in E; subst s'. unfold not_yet. cbn [procs chans].
          rewrite (set1_eq pid_eqb pid_eqb_ok), (set1_ne pid_eqb pid_eqb_ok) by exact Hij. rewrite (set2_eq pid_eqb pid_eqb_ok), (set2_ne pid_eqb pid_eqb_ok) by congruence.
          split; [exact Pi|]. split; [exact Cij|]. split; [intros y Hy1 Hy2; rewrite (set1_ne pid_eqb pid_eqb_ok) by exact Hy2; auto|]. right.
          rewrite Hc. split; [reflexivity|]. split; [|split].
          * apply bind_talks; [apply bind_talks; [apply receive_talks|intros; solve [cbn; auto]]|intros; solve [cbn; auto]].
          * apply bind_accepts; [apply bind_accepts; [apply receive_accepts|intros; solve [cbn; auto]]|intros; solve [cbn; auto]].
          * apply bind_ahead; [apply bind_ahead; [apply receive_ahead|intros; solve [cbn; auto]]|intros; solve [cbn; auto]].
        + destruct (procs s j) as [|?|to m k|from k] eqn:Ep; try discriminate; cbn [talks_to ahead accepts] in T2, B2, A2; destruct T2 as [-> T2]; [lia|].
          rewrite Cij in E. discriminate.
      - destruct (I x Hi Hj) as [r Er]. rewrite Er in E. discriminate.
    Qed.

    Lemma window_first sched s' : runs pid_eqb cap start sched = Some s' -> zlen (chans s' i j) + zlen (chans s' j i) <= ww.
    Proof.
      intros H. assert (Inv : not_yet s' \/ under_way s').
      { apply (runs_inv cap (fun s => not_yet s \/ under_way s)) with sched start; [|left|exact H].
        - intros s x s2 [Hs|Hs] E; [eapply not_yet_step; eassumption|right; eapply under_way_step; eassumption].
        - unfold not_yet. split; [reflexivity|]. split; [|split; [|left; split; [reflexivity|]]].
          + cbn [start transfers_net chans]. destruct (_ && _); reflexivity.
          + intros x H1 H2. cbn [start transfers_net procs]. rewrite !(peqb_neq pid_eqb pid_eqb_ok) by assumption. eauto.
          + cbn [start transfers_net chans]. destruct (_ && _); reflexivity. }
      destruct Inv as [(_ & Hc & _ & [[_ Hc2]|[Hc2 _]])|(_ & _ & _ & _ & _ & cs & cr & H1 & H2 & _ & _ & B)].
      - unfold zlen. rewrite Hc, Hc2. cbn [length]. lia.
      - unfold zlen. rewrite Hc, Hc2. cbn [length]. lia.
      - lia.
    Qed.
  End First.
End Window.

(** With q old acknowledgements in the connection the sender sends q chunks more than the window. *)
Section Burst.
  Context {K : Type} {OK : OrdRing K}.
  Notation C := (Cx K).
  Notation msg := (msg K).
  Let free : pid -> pid -> option nat := fun _ _ => None.
  Notation go := (go pid_eqb free).

  Section One.
    Context {R : Type} (s : net pid msg R) (i j : pid) (job : Z) (vs : list C) (cc ww : Z) (pj : proc pid msg R).
    Context (k1 : unit -> proc pid msg R).
    Hypothesis Hij : i <> j.
    Hypothesis Hcc : 1 <= cc. Hypothesis Hww : 1 <= ww.
    Let total := zlen vs.
    Let acc : msg := MAccept job cc ww.

    Lemma inner_burst (K0 : Z -> Z -> proc pid msg unit) Q : forall fuel infl last D,
      0 <= last <= total -> total - last < Z.of_nat fuel ->
      let m := Z.max 0 (Z.min (ww - infl) (chunks cc (total - last))) in
      exists last' D',
        go (pair_net pid_eqb s i j (pbind (send_inner fuel job vs j cc ww infl last K0) k1) pj D Q)
           (pair_net pid_eqb s i j (pbind (K0 (infl + m) last') k1) pj D' Q) /\
        last <= last' <= total /\ chunks cc (total - last') = chunks cc (total - last) - m /\ m <= last' - last /\ zlen D' = zlen D + m.
    Proof.
      induction fuel as [|fuel IH]; intros infl last D Hl Hf m; [lia|]. cbn [send_inner]. fold total.
      destruct ((infl <? ww) && (last <? total)) eqn:Eb.
      - apply andb_prop in Eb. destruct Eb as [E1 E2]. apply Z.ltb_lt in E1, E2. set (e := last + Z.min (total - last) cc).
        destruct (IH (infl + 1) e (D ++ [MState job last (pyslice vs last e) (e =? total)])) as (last' & D' & G & H1 & H2 & H3 & H4); try (unfold e; lia).
        assert (Hst : chunks cc (total - e) = chunks cc (total - last) - 1) by (unfold e; rewrite <- chunks_step by lia; f_equal; lia).
        assert (Hp := chunks_pos cc (total - last) Hcc ltac:(lia)).
        rewrite Hst in *. assert (Em : m = 1 + Z.max 0 (Z.min (ww - (infl + 1)) (chunks cc (total - last) - 1))) by (unfold m; lia).
        exists last', D'. rewrite zlen_snoc in H4. split; [|split; [unfold e in *; lia|]; split; [lia|]; split; [unfold e in *; lia|lia]].
        eapply go_trans; [cbn [pbind]; apply (pair_send_i pid_eqb pid_eqb_ok); [exact Hij|reflexivity]|].
        rewrite Em. replace (infl + (1 + _)) with (infl + 1 + Z.max 0 (Z.min (ww - (infl + 1)) (chunks cc (total - last) - 1))) by ring. exact G.
      - assert (Em : m = 0).
        { unfold m. apply andb_false_iff in Eb. rewrite !Z.ltb_ge in Eb. destruct Eb as [E|E]; [lia|]. replace (total - last) with 0 by lia. rewrite chunks_0 by lia. lia. }
        exists last, D. rewrite Em, Z.add_0_r. split; [apply go_refl, eqv_refl|]. repeat split; lia.
    Qed.
    Lemma outer_burst : forall q fuel infl last D, 0 <= infl < ww -> 0 <= last < total -> total + 1 - last + infl <= Z.of_nat fuel ->
      exists pi D' Q', go (pair_net pid_eqb s i j (pbind (send_outer fuel job vs j cc ww infl last) k1) pj D (repeat acc q)) (pair_net pid_eqb s i j pi pj D' Q') /\
        zlen D' = zlen D + Z.min (chunks cc (total - last)) (ww - infl + Z.of_nat q).
    Proof.
      induction q as [|q IH]; intros fuel infl last D Hi Hl Hf; (destruct fuel as [|fuel]; [lia|]); cbn [send_outer]; fold total; (destruct (last <? total) eqn:E; [|apply Z.ltb_ge in E; lia]);
        assert (Hp := chunks_pos cc (total - last) Hcc ltac:(lia));
        match goal with |- context [pair_net pid_eqb s i j (pbind (send_inner (S (length vs)) job vs j cc ww infl last ?k) k1) pj D ?Q] => destruct (inner_burst k Q (S (length vs)) infl last D ltac:(lia)) as (last2 & D2 & G2 & H12 & H22 & H32 & H42);
          [unfold total, zlen in *; lia|] end.
      - eexists _, D2, (repeat acc 0). split; [exact G2|]. lia.
      - set (m := Z.max 0 (Z.min (ww - infl) (chunks cc (total - last)))) in *.
        destruct (Z.eq_dec last2 total) as [El|El].
        + eexists _, D2, (repeat acc (S q)). split; [exact G2|]. rewrite El, Z.sub_diag, chunks_0 in H22 by lia. lia.
        + assert (Hp2 := chunks_pos cc (total - last2) Hcc ltac:(lia)).
          destruct (IH fuel (infl + m - 1) last2 D2) as (pi & D3 & Q3 & G3 & H5); [lia|lia|lia|].
          exists pi, D3, Q3. split; [|lia]. cbn [repeat]. eapply go_trans; [exact G2|]. cbn [pbind].
          eapply go_trans; [apply (pair_recv_i pid_eqb pid_eqb_ok); exact Hij|]. unfold acc at 1. cbn beta iota. rewrite Z.eqb_refl. cbn [negb]. exact G3.
    Qed.
  End One.

  Lemma steps_runs {R} cap l : forall (s t : net pid msg R), steps pid_eqb cap s l t -> exists s', runs pid_eqb cap s l = Some s' /\ eqv s' t.
  Proof.
    induction l as [|x l IH]; intros s t H; cbn [steps runs] in *; [eauto|]. destruct H as (s1 & E & H). rewrite E. apply IH. exact H.
  Qed.

  Lemma pfold_app {A B} (f : A -> B -> proc pid msg A) l : forall l' a, peq (pfold f (l ++ l') a) (pbind (pfold f l a) (fun a => pfold f l' a)).
  Proof.
    induction l as [|b l IH]; intros l' a; cbn [pfold pbind app]; [apply peq_refl|].
    eapply peq_trans; [apply peq_bind; [apply peq_refl|intros x; apply IH]|]. apply peq_sym, bind_assoc.
  Qed.

  (** k transfers, then the next one without the receiver taking anything *)
  Lemma window_later (job : Z) (i j : pid) (cc ww : Z) (vec data : list C) (ow : bool) (k : nat) :
    i <> j -> 1 <= cc -> 1 <= ww -> data <> [] -> length vec = length data ->
    exists sched s', runs pid_eqb free (transfers_net job i j vec (repeat (mkTransfer data ow cc ww) (S k)) []) sched = Some s' /\
      zlen (chans s' i j) = Z.min (chunks cc (zlen data)) (ww + Z.of_nat k * (Z.min (chunks cc (zlen data)) ww - 1)).
  Proof.
    intros Hij Hcc Hww Hd Hlen. assert (Hji : j <> i) by congruence. set (t0 := mkTransfer data ow cc ww). set (s := transfers_net _ _ _ _ _ _).
    assert (Hz : 0 < zlen data) by (unfold zlen; destruct data; [congruence|cbn [length]; lia]).
    assert (Er : repeat t0 (S k) = repeat t0 k ++ [t0]) by (clear; induction k; cbn; [reflexivity|f_equal; exact IHk]).
    set (fs := fun (_ : unit) (t : transfer_op K) => send_state job (t_data t) j). set (fr := fun vec (t : transfer_op K) => receive_state job vec i (t_overwrite t) (t_chunk t) (t_window t)).
    destruct (recast pid_eqb pid_eqb_ok free s i (pbind (pfold fs (repeat t0 k) tt) (fun u => pbind (pfold fs [t0] u) (fun _ => Ret None)))) as (s1 & G1 & P1 & P1' & C1).
    { cbn [s transfers_net procs]. rewrite (peqb_refl pid_eqb pid_eqb_ok). rewrite Er. eapply peq_trans; [apply peq_bind; [apply pfold_app|intros; apply peq_refl]|]. apply bind_assoc. }
    destruct (recast pid_eqb pid_eqb_ok free s1 j (pbind (pfold fr (repeat t0 k) vec) (fun v => pbind (pfold fr [t0] v) (fun v => Ret (Some v))))) as (s2 & G2 & P2 & P2' & C2).
    { rewrite P1' by exact Hji. cbn [s transfers_net procs]. rewrite (peqb_neq pid_eqb pid_eqb_ok j i Hji), (peqb_refl pid_eqb pid_eqb_ok). rewrite Er.
      eapply peq_trans; [apply peq_bind; [apply pfold_app|intros; apply peq_refl]|]. apply bind_assoc. }
    destruct (transfers_exact job i j (length data) cc ww Hij ltac:(unfold zlen in Hz; lia) Hcc Hww (repeat t0 k) s2 vec 0 (fun u => pbind (pfold fs [t0] u) (fun _ => Ret None)) (fun v => pbind (pfold fr [t0] v) (fun v => Ret (Some v)))) as (s3 & G3 & P3 & P4 & _ & C3 & C3').
    { apply Forall_forall. intros x Hx. apply repeat_spec in Hx. subst x. auto. } { exact Hlen. } { rewrite P2' by exact Hij. exact P1. } { exact P2. }
    { rewrite C2, C1. cbn [s transfers_net chans]. destruct (_ && _); reflexivity. } { rewrite C2, C1. cbn [s transfers_net chans repeat]. destruct (_ && _); reflexivity. }
    set (q := (0 + _)%nat) in C3. set (v3 := fold_left _ _ _) in P4. unfold fs in P3. unfold fr in P4. cbn [pfold t0 t_data t_overwrite t_chunk t_window] in P3, P4. unfold send_state in P3. unfold receive_state in P4. cbn [pbind] in P3, P4.
    destruct (do_send free s3 j i _ _ P4 eq_refl) as (s4 & G4 & P5 & P6 & C4 & C5). rewrite C3, repeat_snoc in C4. cbn [repeat] in C4.
    destruct (do_recv free s4 i j _ _ _ ltac:(rewrite P6 by exact Hij; exact P3) C4) as (s5 & G5 & P7 & P8 & C6 & C7). cbn beta iota in P7. rewrite Z.eqb_refl in P7. cbn [negb] in P7.
    destruct (recast pid_eqb pid_eqb_ok free s5 i (pbind (send_outer (S (length data)) job data j cc ww 0 0) (fun u => pbind (Ret u) (fun _ => Ret None)))) as (s6 & G6 & P9 & P9' & C8).
    { rewrite P7. apply bind_assoc. }
    destruct (outer_burst s6 i j job data cc ww (procs s6 j) (fun u => pbind (Ret u) (fun _ => Ret None)) Hij Hcc q (S (length data)) 0 0 (chans s6 i j)) as (pi & D' & Q' & G7 & H7).
    { lia. } { lia. } { unfold zlen. lia. }
    assert (Gall : go s (pair_net pid_eqb s6 i j pi (procs s6 j) D' Q')).
    { eapply go_trans; [exact G1|]. eapply go_trans; [exact G2|]. eapply go_trans; [exact G3|]. eapply go_trans; [exact G4|]. eapply go_trans; [exact G5|]. eapply go_trans; [exact G6|].
      eapply go_eqv_l; [|exact G7]. apply (pair_in pid_eqb pid_eqb_ok); [exact Hij|exact P9|reflexivity|reflexivity|]. rewrite C8. exact C6. }
    destruct Gall as [l Gl]. destruct (steps_runs free l s _ Gl) as (s' & Hr & [_ He]). exists l, s'. split; [exact Hr|]. rewrite He. cbn [pair_net chans].
    rewrite (set2_ne pid_eqb pid_eqb_ok) by congruence. rewrite (set2_eq pid_eqb pid_eqb_ok), H7, C8, C7, C5 by congruence.
    assert (Hn := chunks_pos cc (zlen data) Hcc Hz).
    rewrite C3'. unfold zlen at 1. cbn [length]. unfold q. rewrite repeat_length. rewrite !Z.sub_0_r, Z.add_0_l. f_equal. f_equal. fold (zlen data).
    rewrite Nat.add_0_l, Nat2Z.inj_mul. f_equal. lia.
  Qed.
End Burst.
