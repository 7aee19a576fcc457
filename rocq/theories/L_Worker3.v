(** The sync operation of all workers. *)
From Verif Require Import Base M_Bits M_Kron M_Feed M_Measure M_Net S_Net L_Net M_Worker S_Worker L_Worker1 L_Worker2.

Section Sync.
  Context {K : Type} {OK : OrdRing K}.
  Notation C := (Cx K).
  Notation msg := (msg K).
  Variable cap : pid -> pid -> option nat.
  Notation go := (go pid_eqb cap).
  Context {R : Type}.
  Notation net := (net pid msg R).

  Definition D (a : range) : wid := (a, a).
  Definition P (w : wid) : pid := Wk w.
  Lemma P_inj w w' : P w = P w' -> w = w'.
  Proof. intros E. injection E. auto. Qed.
  Lemma pp_inj a b c d : (P a, P b) = (P c, P d) -> a = c /\ b = d.
  Proof. intros E. injection E. auto. Qed.
  Lemma D_inj a b : D a = D b -> a = b.
  Proof. intros E. injection E. auto. Qed.

  Context (job : Z) (cc ww : wid -> Z) (size : nat) (v : wid -> list C).
  Context (ws : list wid).
  Hypothesis Hcw : forall w, In w ws -> 1 <= cc w /\ 1 <= ww w.
  Hypothesis Hsize : (0 < size)%nat.
  Hypothesis Hv : forall w, In w ws -> length (v w) = size.
  Context (outs ins : range -> list wid).
  Hypothesis Hno : forall a, NoDup (outs a).
  Hypothesis Hni : forall a, NoDup (ins a).
  Hypothesis Ho : forall a w, In w (outs a) -> snd w = a /\ fst w <> a.
  Hypothesis Hows : forall a w, In w (outs a) -> In w ws.
  Hypothesis Hiws : forall a w, In w (ins a) -> In w ws.
  Hypothesis Hi : forall a w, In w (ins a) -> fst w = a /\ snd w <> a.

  (** acknowledgements *)
  Definition good (L : nat) (l : list msg) : Prop := Forall (accept_ok job) l /\ (length l <= L)%nat.

  Definition gathered (a : range) : list C := fold_left (fun vec w => zip_with (upd_fn false) vec (v w)) (outs a) (v (D a)).
  Lemma fold_zip_length l : (forall w, In w l -> In w ws) -> forall vec, length vec = size -> length (fold_left (fun vec w => zip_with (upd_fn false) vec (v w)) l vec) = size.
  Proof.
    induction l as [|w l IH]; intros Hl vec H; cbn [fold_left]; [exact H|]. apply IH; [intros x Hx; apply Hl; right; exact Hx|].
    rewrite zip_length, Hv, H by (apply Hl; left; reflexivity). apply Nat.min_id.
  Qed.
  Lemma gathered_length a : In (D a) ws -> length (gathered a) = size.
  Proof. intros H. apply fold_zip_length; [apply Hows|apply Hv; exact H]. Qed.

  Lemma off_D w a : fst w <> a -> snd w = a -> forall b, w <> D b.
  Proof. intros H1 H2 b ->. cbn in *. congruence. Qed.
  Lemma off_D' w a : fst w = a -> snd w <> a -> forall b, w <> D b.
  Proof. intros H1 H2 b ->. cbn in *. congruence. Qed.

  (** every diagonal worker of a list gathers *)
  Lemma all_gather (kd : range -> list C -> proc pid msg R) (ko : wid -> unit -> proc pid msg R) L rs : NoDup rs -> (forall a, In a rs -> In (D a) ws) -> forall (s : net),
    (forall a, In a rs -> procs s (P (D a)) = pbind (pfold (fun vec w => receive_state job vec (P w) false (cc (D a)) (ww (D a))) (outs a) (v (D a))) (kd a)) ->
    (forall a w, In a rs -> In w (outs a) -> procs s (P w) = pbind (send_state job (v w) (P (D a))) (ko w) /\ chans s (P w) (P (D a)) = [] /\ fits (cap (P w) (P (D a))) 1 /\
       good L (chans s (P (D a)) (P w)) /\ fits (cap (P (D a)) (P w)) (L + size + 1)) ->
    exists t, go s t /\ (forall a, In a rs -> procs t (P (D a)) = kd a (gathered a)) /\
      (forall a w, In a rs -> In w (outs a) -> procs t (P w) = ko w tt /\ chans t (P w) (P (D a)) = [] /\ good (L + size) (chans t (P (D a)) (P w))) /\
      (forall x, (forall a, In a rs -> x <> P (D a) /\ forall w, In w (outs a) -> x <> P w) -> procs t x = procs s x) /\
      (forall x y, (forall a w, In a rs -> In w (outs a) -> (x, y) <> (P w, P (D a)) /\ (x, y) <> (P (D a), P w)) -> chans t x y = chans s x y).
  Proof.
    induction 1 as [|a rs Ha Hn IH]; intros HD s Hd Hs.
    - exists s. split; [apply go_refl, eqv_refl|]. split; [intros a []|]. split; [intros a w []|auto].
    - assert (Had : ~ In (D a) (outs a)) by (intros H; apply Ho in H; cbn in H; tauto).
      destruct (gather cap (D a) job (cc (D a)) (ww (D a)) v ko L size (outs a) (proj1 (Hcw _ (HD a (or_introl eq_refl)))) (proj2 (Hcw _ (HD a (or_introl eq_refl)))) Hsize (Hno a) Had s (v (D a)) (kd a) (Hv _ (HD a (or_introl eq_refl))) (Hd a (or_introl eq_refl)))
        as (t1 & G1 & P1 & PC1 & P2 & C2).
      { intros w Hw. destruct (Hs a w (or_introl eq_refl) Hw) as (H1 & H2 & H3 & [H4 H4'] & H5). split; [apply Hv; eauto|]. auto 10. }
      assert (Hsep : forall b w, In b rs -> In w (outs b) -> w <> D a /\ forall w', In w' (outs a) -> w <> w').
      { intros b w Hb Hw. destruct (Ho b w Hw) as [E1 E2]. split; [eapply off_D; eassumption|]. intros w' Hw' ->. destruct (Ho a w' Hw'). subst. contradiction. }
      assert (HsepD : forall b, In b rs -> D b <> D a /\ forall w', In w' (outs a) -> D b <> w').
      { intros b Hb. split; [intros E; apply D_inj in E; subst; contradiction|]. intros w' Hw' E. destruct (Ho a w' Hw'). apply (off_D w' a ltac:(assumption) ltac:(assumption) b). auto. }
      destruct (IH (fun b Hb => HD b (or_intror Hb)) t1) as (t & G & Q1 & Q2 & Q3 & Q4).
      { intros b Hb. destruct (HsepD b Hb) as [E1 E2]. rewrite P2; [apply Hd; right; exact Hb| |].
        - intros E. apply P_inj in E. contradiction.
        - intros w Hw E. apply P_inj in E. exact (E2 w Hw E). }
      { intros b w Hb Hw. destruct (Hsep b w Hb Hw) as [E1 E2]. destruct (HsepD b Hb) as [E3 E4]. rewrite P2, !C2; [apply Hs; [right; exact Hb|exact Hw]| | | |].
        - intros w' Hw'. split; intros E; apply pp_inj in E; destruct E; auto.
        - intros w' Hw'. split; intros E; apply pp_inj in E; destruct E; auto.
        - intros E. apply P_inj in E. contradiction.
        - intros w' Hw' E. apply P_inj in E. exact (E2 w' Hw' E). }
      exists t. split; [eapply go_trans; eassumption|]. split; [|split; [|split]].
      + intros b [<-|Hb]; [|apply Q1; exact Hb]. rewrite Q3; [exact P1|]. intros b Hb. destruct (HsepD b Hb) as [E1 E2]. split; [intros E; apply P_inj in E; auto|].
        intros w Hw E. apply P_inj in E. destruct (Hsep b w Hb Hw) as [E3 _]. auto.
      + intros b w [<-|Hb] Hw; [|apply Q2; assumption]. destruct (PC1 w Hw) as (H1 & H2 & H3 & H4).
        assert (Hf : forall b w', In b rs -> In w' (outs b) -> w <> w' /\ w <> D b /\ D a <> w' /\ D a <> D b).
        { intros b w' Hb Hw'. destruct (Hsep b w' Hb Hw') as [E1 E2]. destruct (HsepD b Hb) as [E3 E4]. repeat split; intros E; symmetry in E; [exact (E2 w Hw E)|exact (E4 w Hw E)|exact (E1 E)|exact (E3 E)]. }
        rewrite Q3, !Q4; [unfold good; auto| | |].
        * intros b w' Hb Hw'. destruct (Hf b w' Hb Hw') as (F1 & F2 & F3 & F4). split; intros E; apply pp_inj in E; destruct E; auto.
        * intros b w' Hb Hw'. destruct (Hf b w' Hb Hw') as (F1 & F2 & F3 & F4). split; intros E; apply pp_inj in E; destruct E; auto.
        * intros b Hb. split; [|intros w' Hw' E; apply P_inj in E; destruct (Hf b w' Hb Hw'); auto]. intros E. apply P_inj in E. destruct (HsepD b Hb) as [_ E4]. exact (E4 w Hw (eq_sym E)).
      + intros x Hx. rewrite Q3, P2; auto; [exact (proj1 (Hx a (or_introl eq_refl)))|exact (proj2 (Hx a (or_introl eq_refl)))|intros b Hb; exact (Hx b (or_intror Hb))].
      + intros x y Hxy. rewrite Q4, C2; auto; [intros w Hw; exact (Hxy a w (or_introl eq_refl) Hw)|intros b w Hb Hw; exact (Hxy b w (or_intror Hb) Hw)].
  Qed.

  (** every diagonal worker of a list sends its state *)
  Lemma all_scatter (g : range -> list C) (kd : range -> unit -> proc pid msg R) (ko : wid -> list C -> proc pid msg R) L rs : NoDup rs -> (forall a, In a rs -> length (g a) = size) -> forall (s : net),
    (forall a, In a rs -> procs s (P (D a)) = pbind (pfold (fun _ w => send_state job (g a) (P w)) (ins a) tt) (kd a)) ->
    (forall a w, In a rs -> In w (ins a) -> procs s (P w) = pbind (receive_state job (v w) (P (D a)) true (cc w) (ww w)) (ko w) /\ chans s (P (D a)) (P w) = [] /\ fits (cap (P (D a)) (P w)) 1 /\
       good L (chans s (P w) (P (D a))) /\ fits (cap (P w) (P (D a))) (L + size + 1)) ->
    exists t, go s t /\ (forall a, In a rs -> procs t (P (D a)) = kd a tt) /\
      (forall a w, In a rs -> In w (ins a) -> procs t (P w) = ko w (g a) /\ chans t (P (D a)) (P w) = [] /\ good (L + size) (chans t (P w) (P (D a)))) /\
      (forall x, (forall a, In a rs -> x <> P (D a) /\ forall w, In w (ins a) -> x <> P w) -> procs t x = procs s x) /\
      (forall x y, (forall a w, In a rs -> In w (ins a) -> (x, y) <> (P w, P (D a)) /\ (x, y) <> (P (D a), P w)) -> chans t x y = chans s x y).
  Proof.
    induction 1 as [|a rs Ha Hn IH]; intros Hg s Hd Hs.
    - exists s. split; [apply go_refl, eqv_refl|]. split; [intros a []|]. split; [intros a w []|auto].
    - assert (Had : ~ In (D a) (ins a)) by (intros H; apply Hi in H; cbn in H; tauto).
      destruct (scatter cap (D a) job cc ww (g a) v ko L (ins a) (fun w Hw => Hcw w (Hiws a w Hw)) ltac:(rewrite (Hg a (or_introl eq_refl)); exact Hsize) (Hni a) Had s (kd a) (Hd a (or_introl eq_refl)))
        as (t1 & G1 & P1 & PC1 & P2 & C2).
      { intros w Hw. destruct (Hs a w (or_introl eq_refl) Hw) as (H1 & H2 & H3 & [H4 H4'] & H5). rewrite (Hg a (or_introl eq_refl)). split; [apply Hv; eauto|]. auto 10. }
      assert (Hsep : forall b w, In b rs -> In w (ins b) -> w <> D a /\ forall w', In w' (ins a) -> w <> w').
      { intros b w Hb Hw. destruct (Hi b w Hw) as [E1 E2]. split; [eapply off_D'; eassumption|]. intros w' Hw' ->. destruct (Hi a w' Hw'). subst. contradiction. }
      assert (HsepD : forall b, In b rs -> D b <> D a /\ forall w', In w' (ins a) -> D b <> w').
      { intros b Hb. split; [intros E; apply D_inj in E; subst; contradiction|]. intros w' Hw' E. destruct (Hi a w' Hw'). apply (off_D' w' a ltac:(assumption) ltac:(assumption) b). auto. }
      destruct (IH (fun b Hb => Hg b (or_intror Hb)) t1) as (t & G & Q1 & Q2 & Q3 & Q4).
      { intros b Hb. destruct (HsepD b Hb) as [E1 E2]. rewrite P2; [apply Hd; right; exact Hb| |].
        - intros E. apply P_inj in E. contradiction.
        - intros w Hw E. apply P_inj in E. exact (E2 w Hw E). }
      { intros b w Hb Hw. destruct (Hsep b w Hb Hw) as [E1 E2]. destruct (HsepD b Hb) as [E3 E4]. rewrite P2, !C2; [apply Hs; [right; exact Hb|exact Hw]| | | |].
        - intros w' Hw'. split; intros E; apply pp_inj in E; destruct E; auto.
        - intros w' Hw'. split; intros E; apply pp_inj in E; destruct E; auto.
        - intros E. apply P_inj in E. contradiction.
        - intros w' Hw' E. apply P_inj in E. exact (E2 w' Hw' E). }
      exists t. split; [eapply go_trans; eassumption|]. split; [|split; [|split]].
      + intros b [<-|Hb]; [|apply Q1; exact Hb]. rewrite Q3; [exact P1|]. intros b Hb. destruct (HsepD b Hb) as [E1 E2]. split; [intros E; apply P_inj in E; auto|].
        intros w Hw E. apply P_inj in E. destruct (Hsep b w Hb Hw) as [E3 _]. auto.
      + intros b w [<-|Hb] Hw; [|apply Q2; assumption]. destruct (PC1 w Hw) as (H1 & H2 & H3 & H4). rewrite (Hg a (or_introl eq_refl)) in H4.
        assert (Hf : forall b w', In b rs -> In w' (ins b) -> w <> w' /\ w <> D b /\ D a <> w' /\ D a <> D b).
        { intros b w' Hb Hw'. destruct (Hsep b w' Hb Hw') as [E1 E2]. destruct (HsepD b Hb) as [E3 E4]. repeat split; intros E; symmetry in E; [exact (E2 w Hw E)|exact (E4 w Hw E)|exact (E1 E)|exact (E3 E)]. }
        rewrite Q3, !Q4; [unfold good; auto| | |].
        * intros b w' Hb Hw'. destruct (Hf b w' Hb Hw') as (F1 & F2 & F3 & F4). split; intros E; apply pp_inj in E; destruct E; auto.
        * intros b w' Hb Hw'. destruct (Hf b w' Hb Hw') as (F1 & F2 & F3 & F4). split; intros E; apply pp_inj in E; destruct E; auto.
        * intros b Hb. split; [|intros w' Hw' E; apply P_inj in E; destruct (Hf b w' Hb Hw'); auto]. intros E. apply P_inj in E. destruct (HsepD b Hb) as [_ E4]. exact (E4 w Hw (eq_sym E)).
      + intros x Hx. rewrite Q3, P2; auto; [exact (proj1 (Hx a (or_introl eq_refl)))|exact (proj2 (Hx a (or_introl eq_refl)))|intros b Hb; exact (Hx b (or_intror Hb))].
      + intros x y Hxy. rewrite Q4, C2; auto; [intros w Hw; exact (Hxy a w (or_introl eq_refl) Hw)|intros b w Hb Hw; exact (Hxy b w (or_intror Hb) Hw)].
  Qed.
End Sync.
