(** Many processes, one after the other. *)
From Verif Require Import Base M_Bits M_Kron M_Feed M_Measure M_Net S_Net L_Net M_Worker S_Worker L_Worker1.

Section Many.
  Context {K : Type} {OK : OrdRing K}.
  Notation C := (Cx K).
  Notation msg := (msg K).
  Variable cap : pid -> pid -> option nat.
  Notation go := (go pid_eqb cap).
  Context {R : Type}.
  Notation net := (net pid msg R).

  Lemma pid_dec (a b : pid) : {a = b} + {a <> b}.
  Proof. apply (peqb_dec pid_eqb pid_eqb_ok). Qed.
  Lemma wid_dec (a b : wid) : {a = b} + {a <> b}.
  Proof. apply (peqb_dec wid_eqb wid_eqb_ok). Qed.

  Lemma fits_le c n m : fits c n -> (m <= n)%nat -> fits c m.
  Proof. destruct c; cbn; [lia|auto]. Qed.
  (** one step, with the new net described *)
  Lemma do_send (s : net) i to m k : procs s i = Send to m k -> has_room (cap i to) (chans s i to) = true ->
    exists t, go s t /\ procs t i = k /\ (forall x, x <> i -> procs t x = procs s x) /\ chans t i to = chans s i to ++ [m] /\
      (forall x y, (x, y) <> (i, to) -> chans t x y = chans s x y).
  Proof.
    intros Hp Hr. exists (mkNet (set1 pid_eqb (procs s) i k) (set2 pid_eqb (chans s) i to (chans s i to ++ [m]))).
    assert (H1 := set1_eq pid_eqb pid_eqb_ok (procs s) i k). assert (H2 := fun x => set1_ne pid_eqb pid_eqb_ok (procs s) i k x).
    assert (H3 := set2_eq pid_eqb pid_eqb_ok (chans s) i to (chans s i to ++ [m])). assert (H4 := fun x y => set2_ne pid_eqb pid_eqb_ok (chans s) i to (chans s i to ++ [m]) x y).
    split; [apply (go_send pid_eqb pid_eqb_ok cap) with i to m k; auto|auto].
  Qed.
  Lemma do_recv (s : net) i from m l k : procs s i = Recv from k -> chans s from i = m :: l ->
    exists t, go s t /\ procs t i = k m /\ (forall x, x <> i -> procs t x = procs s x) /\ chans t from i = l /\
      (forall x y, (x, y) <> (from, i) -> chans t x y = chans s x y).
  Proof.
    intros Hp Hc. exists (mkNet (set1 pid_eqb (procs s) i (k m)) (set2 pid_eqb (chans s) from i l)).
    assert (H1 := set1_eq pid_eqb pid_eqb_ok (procs s) i (k m)). assert (H2 := fun x => set1_ne pid_eqb pid_eqb_ok (procs s) i (k m) x).
    assert (H3 := set2_eq pid_eqb pid_eqb_ok (chans s) from i l). assert (H4 := fun x y => set2_ne pid_eqb pid_eqb_ok (chans s) from i l x y).
    split; [apply (go_recv pid_eqb pid_eqb_ok cap) with i from m l k; auto|auto].
  Qed.

  (** the manager sends an operation to each worker of a list *)
  Lemma each_sent op ws : NoDup ws -> forall (s : net) k, procs s Mgr = pbind (send_to_each_of op ws) k ->
    (forall w, In w ws -> fits (cap Mgr (Wk w)) (S (length (chans s Mgr (Wk w))))) ->
    exists t, go s t /\ procs t Mgr = k tt /\ (forall x, x <> Mgr -> procs t x = procs s x) /\
      (forall w, In w ws -> chans t Mgr (Wk w) = chans s Mgr (Wk w) ++ [MOp op]) /\
      (forall x y, (forall w, In w ws -> (x, y) <> (Mgr, Wk w)) -> chans t x y = chans s x y).
  Proof.
    unfold send_to_each_of. induction 1 as [|w ws Hw Hn IH]; intros s k Hp Hf.
    - exists s. split; [apply go_refl, eqv_refl|]. split; [exact Hp|]. split; [auto|]. split; [intros w []|auto].
    - cbn [pfold pbind] in Hp. destruct (do_send s Mgr (Wk w) _ _ Hp) as (t1 & G1 & P1 & P2 & C1 & C2).
      { eapply fits_room; [apply Hf; left; reflexivity|lia]. }
      assert (Cw : forall v, In v ws -> chans t1 Mgr (Wk v) = chans s Mgr (Wk v)) by (intros v Hv; apply C2; intros E; injection E as ->; contradiction).
      destruct (IH t1 k P1) as (t & G & P3 & P4 & C3 & C4).
      { intros v Hv. rewrite Cw by exact Hv. apply Hf. right. exact Hv. }
      exists t. split; [eapply go_trans; eassumption|]. split; [exact P3|]. split; [intros x Hx; rewrite P4, P2; auto|]. split.
      + intros v [<-|Hv]; [|rewrite C3, Cw; auto]. rewrite C4; [exact C1|]. intros v Hv E. injection E as ->. contradiction.
      + intros x y H. rewrite C4, C2; auto; [apply H; left; reflexivity|intros v Hv; apply H; right; exact Hv].
  Qed.
  (** the manager receives a confirmation from each *)
  Lemma each_confirmed (cf : wid -> conf K) ws : NoDup ws -> forall (s : net) acc k,
    procs s Mgr = pbind (pfold (fun confs w => Recv (Wk w) (fun m => match m with MConf c => Ret (confs ++ [c]) | _ => Fail GenericException end)) ws acc) k ->
    (forall w, In w ws -> chans s (Wk w) Mgr = [MConf (cf w)]) ->
    exists t, go s t /\ procs t Mgr = k (acc ++ map cf ws) /\ (forall x, x <> Mgr -> procs t x = procs s x) /\
      (forall w, In w ws -> chans t (Wk w) Mgr = []) /\ (forall x y, (forall w, In w ws -> (x, y) <> (Wk w, Mgr)) -> chans t x y = chans s x y).
  Proof.
    induction 1 as [|w ws Hw Hn IH]; intros s acc k Hp Hc.
    - exists s. split; [apply go_refl, eqv_refl|]. cbn [map]. rewrite app_nil_r. split; [exact Hp|]. split; [auto|]. split; [intros w []|auto].
    - cbn [pfold pbind] in Hp. destruct (do_recv s Mgr (Wk w) (MConf (cf w)) [] _ Hp (Hc w (or_introl eq_refl))) as (t1 & G1 & P1 & P2 & C1 & C2).
      assert (Cw : forall v, In v ws -> chans t1 (Wk v) Mgr = chans s (Wk v) Mgr) by (intros v Hv; apply C2; intros E; injection E as ->; contradiction).
      cbn [pbind] in P1. destruct (IH t1 _ k P1) as (t & G & P3 & P4 & C3 & C4).
      { intros v Hv. rewrite Cw by exact Hv. apply Hc. right. exact Hv. }
      exists t. split; [eapply go_trans; eassumption|]. cbn [map]. split; [rewrite P3, <- app_assoc; reflexivity|]. split; [intros x Hx; rewrite P4, P2; auto|]. split.
      + intros v [<-|Hv]; [|apply C3; exact Hv]. rewrite C4; [exact C1|]. intros v Hv E. injection E as ->. contradiction.
      + intros x y H. rewrite C4, C2; auto; [apply H; left; reflexivity|intros v Hv; apply H; right; exact Hv].
  Qed.
  (** each worker takes one message of the manager *)
  Lemma each_receives (f : wid -> msg -> proc pid msg R) (m : wid -> msg) ws : NoDup ws -> forall (s : net),
    (forall w, In w ws -> procs s (Wk w) = Recv Mgr (f w) /\ chans s Mgr (Wk w) = [m w]) ->
    exists t, go s t /\ (forall w, In w ws -> procs t (Wk w) = f w (m w) /\ chans t Mgr (Wk w) = []) /\
      (forall x, (forall w, In w ws -> x <> Wk w) -> procs t x = procs s x) /\ (forall x y, (forall w, In w ws -> (x, y) <> (Mgr, Wk w)) -> chans t x y = chans s x y).
  Proof.
    induction 1 as [|w ws Hw Hn IH]; intros s Hs.
    - exists s. split; [apply go_refl, eqv_refl|]. split; [intros w []|auto].
    - destruct (Hs w (or_introl eq_refl)) as [Hp Hc]. destruct (do_recv s (Wk w) Mgr _ _ _ Hp Hc) as (t1 & G1 & P1 & P2 & C1 & C2).
      destruct (IH t1) as (t & G & PC & P4 & C4).
      { intros v Hv. rewrite P2, C2; [apply Hs; right; exact Hv| |]; intros E; injection E as ->; contradiction. }
      exists t. split; [eapply go_trans; eassumption|]. split; [|split].
      + intros v [<-|Hv]; [|apply PC; exact Hv]. rewrite P4, C4; [auto| |]; intros v Hv E; injection E as ->; contradiction.
      + intros x H. rewrite P4, P2; auto; [apply H; left; reflexivity|intros v Hv; apply H; right; exact Hv].
      + intros x y H. rewrite C4, C2; auto; [apply H; left; reflexivity|intros v Hv; apply H; right; exact Hv].
  Qed.
  (** each worker sends one message to the manager *)
  Lemma each_replies (f : wid -> proc pid msg R) (m : wid -> msg) ws : NoDup ws -> forall (s : net),
    (forall w, In w ws -> procs s (Wk w) = Send Mgr (m w) (f w) /\ chans s (Wk w) Mgr = [] /\ fits (cap (Wk w) Mgr) 1) ->
    exists t, go s t /\ (forall w, In w ws -> procs t (Wk w) = f w /\ chans t (Wk w) Mgr = [m w]) /\
      (forall x, (forall w, In w ws -> x <> Wk w) -> procs t x = procs s x) /\ (forall x y, (forall w, In w ws -> (x, y) <> (Wk w, Mgr)) -> chans t x y = chans s x y).
  Proof.
    induction 1 as [|w ws Hw Hn IH]; intros s Hs.
    - exists s. split; [apply go_refl, eqv_refl|]. split; [intros w []|auto].
    - destruct (Hs w (or_introl eq_refl)) as (Hp & Hc & Hf). destruct (do_send s (Wk w) Mgr _ _ Hp) as (t1 & G1 & P1 & P2 & C1 & C2).
      { rewrite Hc. eapply fits_room; [exact Hf|cbn; lia]. }
      rewrite Hc in C1. destruct (IH t1) as (t & G & PC & P4 & C4).
      { intros v Hv. rewrite P2, C2; [apply Hs; right; exact Hv| |]; intros E; injection E as ->; contradiction. }
      exists t. split; [eapply go_trans; eassumption|]. split; [|split].
      + intros v [<-|Hv]; [|apply PC; exact Hv]. rewrite P4, C4; [auto| |]; intros v Hv E; injection E as ->; contradiction.
      + intros x H. rewrite P4, P2; auto; [apply H; left; reflexivity|intros v Hv; apply H; right; exact Hv].
      + intros x y H. rewrite C4, C2; auto; [apply H; left; reflexivity|intros v Hv; apply H; right; exact Hv].
  Qed.

  (** a transfer, with the new net described *)
  Lemma do_transfer (s : net) i j job vs vr ow cc ww k1 k2 stale :
    i <> j -> zlen vr = zlen vs -> 1 <= cc -> 1 <= ww -> fits (cap i j) 1 -> 0 < zlen vs -> Forall (accept_ok job) stale -> fits (cap j i) (length stale + length vs + 1) ->
    procs s i = pbind (send_state job vs j) k1 -> procs s j = pbind (receive_state job vr i ow cc ww) k2 -> chans s i j = [] -> chans s j i = stale ->
    exists t, go s t /\ procs t i = k1 tt /\ procs t j = k2 (zip_with (upd_fn ow) vr vs) /\ (forall x, x <> i -> x <> j -> procs t x = procs s x) /\ chans t i j = [] /\
      (Forall (accept_ok job) (chans t j i) /\ (length (chans t j i) <= length stale + length vs)%nat) /\ (forall x y, (x, y) <> (i, j) -> (x, y) <> (j, i) -> chans t x y = chans s x y).
  Proof.
    intros Hij Hl Hc Hw Hd Ht HQ Hfit H1 H2 H3 H4.
    assert (H := fun t => transfer cap s t i j job vs vr ow cc ww k1 k2 stale Hij Hl Hc Hw Hd Ht HQ Hfit H1 H2 H3 H4).
    destruct (transfer_pair cap s i j job vs vr ow cc ww k1 k2 Hij Hl Hc Hw Hd stale Ht HQ) as (Q' & HQ' & Hlq & G).
    { unfold zlen. rewrite Nat2Z.id. exact Hfit. }
    exists (pair_net pid_eqb s i j (k1 tt) (k2 (zip_with (upd_fn ow) vr vs)) [] Q').
    assert (Hji : j <> i) by congruence.
    cbn [pair_net procs chans]. rewrite (set1_ne pid_eqb pid_eqb_ok), !(set1_eq pid_eqb pid_eqb_ok) by exact Hij.
    rewrite (set2_ne pid_eqb pid_eqb_ok) by congruence. rewrite !(set2_eq pid_eqb pid_eqb_ok).
    split; [eapply go_eqv_l; [apply (pair_in pid_eqb pid_eqb_ok); [exact Hij|exact H1|exact H2|exact H3|exact H4]|exact G]|].
    split; [reflexivity|]. split; [reflexivity|]. split; [intros x Hx1 Hx2; rewrite !(set1_ne pid_eqb pid_eqb_ok) by assumption; reflexivity|].
    split; [reflexivity|]. split; [split; [exact HQ'|unfold zlen in Hlq; lia]|]. intros x y Hx1 Hx2. rewrite !(set2_ne pid_eqb pid_eqb_ok) by assumption. reflexivity.
  Qed.

  (** a worker receives increments from a list of workers, one after the other *)
  Lemma gather d job cc ww (v : wid -> list C) (k1 : wid -> unit -> proc pid msg R) (L size : nat) ws : 1 <= cc -> 1 <= ww -> (0 < size)%nat -> NoDup ws -> ~ In d ws ->
    forall (s : net) vec k2, length vec = size ->
    procs s (Wk d) = pbind (pfold (fun vec w => receive_state job vec (Wk w) false cc ww) ws vec) k2 ->
    (forall w, In w ws -> length (v w) = size /\ procs s (Wk w) = pbind (send_state job (v w) (Wk d)) (k1 w) /\ chans s (Wk w) (Wk d) = [] /\ fits (cap (Wk w) (Wk d)) 1 /\
       Forall (accept_ok job) (chans s (Wk d) (Wk w)) /\ (length (chans s (Wk d) (Wk w)) <= L)%nat /\ fits (cap (Wk d) (Wk w)) (L + size + 1)) ->
    exists t, go s t /\ procs t (Wk d) = k2 (fold_left (fun vec w => zip_with (upd_fn false) vec (v w)) ws vec) /\
      (forall w, In w ws -> procs t (Wk w) = k1 w tt /\ chans t (Wk w) (Wk d) = [] /\ Forall (accept_ok job) (chans t (Wk d) (Wk w)) /\ (length (chans t (Wk d) (Wk w)) <= L + size)%nat) /\
      (forall x, x <> Wk d -> (forall w, In w ws -> x <> Wk w) -> procs t x = procs s x) /\
      (forall x y, (forall w, In w ws -> (x, y) <> (Wk w, Wk d) /\ (x, y) <> (Wk d, Wk w)) -> chans t x y = chans s x y).
  Proof.
    intros Hcc Hww Hsz. induction 1 as [|w ws Hw Hn IH]; intros Hd s vec k2 Hvec Hp Hs.
    - exists s. split; [apply go_refl, eqv_refl|]. split; [exact Hp|]. split; [intros w []|auto].
    - destruct (Hs w (or_introl eq_refl)) as (Hv & Hpw & Hcw & Hfw & Haw & Hlw & Hfd).
      assert (Hdw : Wk w <> Wk d) by (intros E; injection E as ->; apply Hd; left; reflexivity).
      cbn [pfold] in Hp. destruct (recast pid_eqb pid_eqb_ok cap s (Wk d) (pbind (receive_state job vec (Wk w) false cc ww) (fun vec => pbind (pfold (fun vec w => receive_state job vec (Wk w) false cc ww) ws vec) k2))) as (t0 & G0 & P0 & P0' & C0).
      { rewrite Hp. apply bind_assoc. }
      destruct (do_transfer t0 (Wk w) (Wk d) job (v w) vec false cc ww (k1 w) (fun vec => pbind (pfold (fun vec w => receive_state job vec (Wk w) false cc ww) ws vec) k2) (chans s (Wk d) (Wk w)) Hdw) as (t1 & G1 & P1 & P2 & P3 & C1 & [C2 C2'] & C3);
        [unfold zlen; lia|exact Hcc|exact Hww|exact Hfw|unfold zlen; lia|exact Haw|eapply fits_le; [exact Hfd|lia]|rewrite P0'; auto|exact P0|rewrite C0; exact Hcw|apply C0|].
      destruct (IH ltac:(intros H; apply Hd; right; exact H) t1 (zip_with (upd_fn false) vec (v w)) k2) as (t & G & P4 & PC & P5 & C4).
      { rewrite zip_length. lia. } { exact P2. }
      { intros x Hx. assert (Hxw : x <> w) by (intros ->; contradiction). assert (Hxd : x <> d) by (intros ->; apply Hd; right; exact Hx).
        rewrite P3 by congruence. rewrite P0' by congruence. rewrite !C3, !C0 by congruence. apply Hs. right. exact Hx. }
      exists t. split; [eapply go_trans; [exact G0|eapply go_trans; eassumption]|]. split; [exact P4|]. split; [|split].
      + intros x [<-|Hx]; [|apply PC; exact Hx].
        assert (F : forall x, In x ws -> x <> w) by (intros x Hx ->; contradiction).
        rewrite P5, P1 by (try congruence; intros x Hx; specialize (F x Hx); congruence).
        rewrite !C4 by (intros x Hx; specialize (F x Hx); split; congruence). rewrite C1. repeat split; auto. lia.
      + intros x Hxd Hx. rewrite P5, P3, P0'; auto; [apply Hx; left; reflexivity|intros y Hy; apply Hx; right; exact Hy].
      + intros x y Hxy. rewrite C4, C3, C0; auto; [apply Hxy; left; reflexivity|apply Hxy; left; reflexivity|intros z Hz; apply Hxy; right; exact Hz].
  Qed.

  (** a worker sends its state to a list of workers, one after the other *)
  Lemma scatter d job (cc ww : wid -> Z) (v : list C) (vr : wid -> list C) (k2 : wid -> list C -> proc pid msg R) (L : nat) ws : (forall w, In w ws -> 1 <= cc w /\ 1 <= ww w) -> (0 < length v)%nat -> NoDup ws -> ~ In d ws ->
    forall (s : net) k1,
    procs s (Wk d) = pbind (pfold (fun _ w => send_state job v (Wk w)) ws tt) k1 ->
    (forall w, In w ws -> length (vr w) = length v /\ procs s (Wk w) = pbind (receive_state job (vr w) (Wk d) true (cc w) (ww w)) (k2 w) /\ chans s (Wk d) (Wk w) = [] /\ fits (cap (Wk d) (Wk w)) 1 /\
       Forall (accept_ok job) (chans s (Wk w) (Wk d)) /\ (length (chans s (Wk w) (Wk d)) <= L)%nat /\ fits (cap (Wk w) (Wk d)) (L + length v + 1)) ->
    exists t, go s t /\ procs t (Wk d) = k1 tt /\
      (forall w, In w ws -> procs t (Wk w) = k2 w v /\ chans t (Wk d) (Wk w) = [] /\ Forall (accept_ok job) (chans t (Wk w) (Wk d)) /\ (length (chans t (Wk w) (Wk d)) <= L + length v)%nat) /\
      (forall x, x <> Wk d -> (forall w, In w ws -> x <> Wk w) -> procs t x = procs s x) /\
      (forall x y, (forall w, In w ws -> (x, y) <> (Wk w, Wk d) /\ (x, y) <> (Wk d, Wk w)) -> chans t x y = chans s x y).
  Proof.
    intros Hcw Hsz Hnd. revert Hcw. induction Hnd as [|w ws Hw Hn IH]; intros Hcw Hd s k1 Hp Hs.
    - exists s. split; [apply go_refl, eqv_refl|]. split; [exact Hp|]. split; [intros w []|auto].
    - destruct (Hcw w (or_introl eq_refl)) as [Hcc Hww]. destruct (Hs w (or_introl eq_refl)) as (Hv & Hpw & Hcd & Hfd & Haw & Hlw & Hfw).
      assert (Hdw : Wk d <> Wk w) by (intros E; injection E as ->; apply Hd; left; reflexivity).
      cbn [pfold] in Hp. destruct (recast pid_eqb pid_eqb_ok cap s (Wk d) (pbind (send_state job v (Wk w)) (fun u => pbind (pfold (fun _ w => send_state job v (Wk w)) ws u) k1))) as (t0 & G0 & P0 & P0' & C0).
      { rewrite Hp. apply bind_assoc. }
      destruct (do_transfer t0 (Wk d) (Wk w) job v (vr w) true (cc w) (ww w) (fun u => pbind (pfold (fun _ w => send_state job v (Wk w)) ws u) k1) (k2 w) (chans s (Wk w) (Wk d)) Hdw) as (t1 & G1 & P1 & P2 & P3 & C1 & [C2 C2'] & C3);
        [unfold zlen; lia|exact Hcc|exact Hww|exact Hfd|unfold zlen; lia|exact Haw|eapply fits_le; [exact Hfw|lia]|exact P0|rewrite P0'; auto|rewrite C0; exact Hcd|apply C0|].
      rewrite zip_overwrite in P2 by (unfold zlen; lia).
      destruct (IH ltac:(intros y Hy; apply Hcw; right; exact Hy) ltac:(intros H; apply Hd; right; exact H) t1 k1 P1) as (t & G & P4 & PC & P5 & C4).
      { intros x Hx. assert (Hxw : x <> w) by (intros ->; contradiction). assert (Hxd : x <> d) by (intros ->; apply Hd; right; exact Hx).
        rewrite P3 by congruence. rewrite P0' by congruence. rewrite !C3, !C0 by congruence. apply Hs. right. exact Hx. }
      exists t. split; [eapply go_trans; [exact G0|eapply go_trans; eassumption]|]. split; [exact P4|]. split; [|split].
      + intros x [<-|Hx]; [|apply PC; exact Hx].
        assert (F : forall x, In x ws -> x <> w) by (intros x Hx ->; contradiction).
        rewrite P5, P2 by (try congruence; intros x Hx; specialize (F x Hx); congruence).
        rewrite !C4 by (intros x Hx; specialize (F x Hx); split; congruence). rewrite C1. repeat split; auto. lia.
      + intros x Hxd Hx. rewrite P5, P3, P0'; auto; [apply Hx; left; reflexivity|intros y Hy; apply Hx; right; exact Hy].
      + intros x y Hxy. rewrite C4, C3, C0; auto; [apply Hxy; left; reflexivity|apply Hxy; left; reflexivity|intros z Hz; apply Hxy; right; exact Hz].
  Qed.
End Many.
