(** Operations of the whole pool. *)
From Verif Require Import Base M_Bits M_Kron M_Feed M_Measure M_Net S_Net L_Net M_Worker S_Worker L_Worker1 L_Worker2 L_Worker3.

Section Job.
  Context {K : Type} {OK : OrdRing K}.
  Notation C := (Cx K).
  Notation msg := (msg K).
  Variable cap : pid -> pid -> option nat.
  Notation go := (go pid_eqb cap).
  Notation net := (net pid msg (ending K)).
  Notation proc := (proc pid msg (ending K)).
  Context (rsqrt : K -> K) (ws : list wid) (rs : list range) (cfg : wid -> worker_cfg) (job : Z) (size room : nat).
  Hypothesis Hnd : NoDup ws.
  Hypothesis Hnr : NoDup rs.
  Hypothesis Hws : forall w, In w ws <-> In (fst w) rs /\ In (snd w) rs.
  Hypothesis Hcfg : configured job ws cfg.
  Hypothesis Hreg : connected ws cfg.
  Hypothesis Hcap : capacities cap ws room.
  Hypothesis Hsize : (0 < size)%nat.

  Definition inb (w : wid) (l : list wid) : bool := existsb (wid_eqb w) l.
  Lemma inb_ok w l : inb w l = true <-> In w l.
  Proof. unfold inb. rewrite existsb_exists. split; [intros (x & Hx & E); apply wid_eqb_ok in E; subst; exact Hx|intros H; exists w; split; [exact H|apply wid_eqb_ok; reflexivity]]. Qed.
  Lemma inb_no w l : inb w l = false <-> ~ In w l.
  Proof. rewrite <- inb_ok. destruct (inb w l); split; congruence. Qed.

  Record phase (s : net) (L : nat) (mp : proc) (pw : wid -> proc) : Prop := {
    ph_mgr : procs s Mgr = mp;
    ph_wk : forall w, In w ws -> procs s (P w) = pw w;
    ph_idle : forall w, ~ In w ws -> procs s (P w) = Ret EIdle;
    ph_m : forall w, In w ws -> chans s Mgr (P w) = [] /\ chans s (P w) Mgr = [];
    ph_ch : forall w, In w ws -> fst w <> snd w -> chans s (P w) (P (D (snd w))) = [] /\ chans s (P (D (fst w))) (P w) = [] /\
              good job L (chans s (P (D (snd w))) (P w)) /\ good job L (chans s (P w) (P (D (fst w)))) }.

  Lemma phase_recast s L mp pw mp' pw' : phase s L mp pw -> peq mp mp' -> (forall w, In w ws -> peq (pw w) (pw' w)) -> exists t, go s t /\ phase t L mp' pw'.
  Proof.
    intros [H1 H2 H3 H4 H5] Hm Hw. exists (mkNet (fun p => match p with Mgr => mp' | Wk w => if inb w ws then pw' w else Ret EIdle end) (chans s)). split.
    - apply go_refl. split; cbn [procs chans]; [|reflexivity]. intros [|w]; [rewrite H1; exact Hm|]. destruct (inb w ws) eqn:E.
      + apply inb_ok in E. change (Wk w) with (P w). rewrite H2 by exact E. apply Hw, E.
      + apply inb_no in E. change (Wk w) with (P w). rewrite H3 by exact E. apply peq_refl.
    - constructor; cbn [procs chans]; auto.
      + intros w Hin. unfold P. cbn beta iota. apply inb_ok in Hin. rewrite Hin. reflexivity.
      + intros w Hin. unfold P. cbn beta iota. apply inb_no in Hin. rewrite Hin. reflexivity.
  Qed.
  Lemma phase_ext s L mp pw pw' : phase s L mp pw -> (forall w, In w ws -> pw w = pw' w) -> phase s L mp pw'.
  Proof. intros [H1 H2 H3 H4 H5] Hw. constructor; auto. intros w Hin. rewrite H2, Hw; auto. Qed.
  Lemma phase_weaken s L L' mp pw : phase s L mp pw -> (L <= L')%nat -> phase s L' mp pw.
  Proof.
    intros [H1 H2 H3 H4 H5] HL. constructor; auto. intros w Hw Hd. destruct (H5 w Hw Hd) as (A & B & [C1 C2] & [D1 D2]). unfold good. repeat split; auto; lia.
  Qed.

  (** what a worker does on receipt of an operation *)
  Definition body (w : wid) (envs : list (env K)) (b : backend K) (op : wop K) : proc :=
    match op with
    | OClose => Ret (EWorker b)
    | _ => match envs with
           | [] => Fail OutOfFuel
           | e :: envs => pdo bc <- worker_op rsqrt (cfg w) e b op; Send Mgr (MConf (snd bc)) (worker_run rsqrt (cfg w) envs (fst bc))
           end
    end.
  Lemma worker_run_eq w envs b : worker_run rsqrt (cfg w) envs b = Recv Mgr (fun m => match m with MOp op => body w envs b op | _ => Fail GenericException end).
  Proof. destruct envs; reflexivity. Qed.

  (** the manager sends an operation to some workers, and they receive it *)
  Lemma rpc_begin s L op sub k envs b : NoDup sub -> incl sub ws -> phase s L (pbind (send_to_each_of op sub) k) (fun w => worker_run rsqrt (cfg w) (envs w) (b w)) ->
    exists t, go s t /\ phase t L (k tt) (fun w => if inb w sub then body w (envs w) (b w) op else worker_run rsqrt (cfg w) (envs w) (b w)).
  Proof.
    intros Hn Hsub [H1 H2 H3 H4 H5].
    destruct (each_sent cap op sub Hn s k H1) as (t1 & G1 & P1 & P2 & C1 & C2).
    { intros w Hw. destruct (H4 w (Hsub w Hw)) as [E _]. unfold P in E. rewrite E. cbn [length]. apply (Hcap w w (Hsub w Hw) (Hsub w Hw)). }
    destruct (each_receives cap (fun w m => match m with MOp op => body w (envs w) (b w) op | _ => Fail GenericException end) (fun _ => MOp op) sub Hn t1) as (t & G & PC & P3 & C3).
    { intros w Hw. rewrite P2 by discriminate. split; [rewrite <- worker_run_eq; apply H2, Hsub, Hw|]. rewrite C1 by exact Hw. destruct (H4 w (Hsub w Hw)) as [E _]. unfold P in E. rewrite E. reflexivity. }
    exists t. split; [eapply go_trans; eassumption|]. constructor.
    - rewrite P3; [exact P1|intros; discriminate].
    - intros w Hw. destruct (inb w sub) eqn:E.
      + apply inb_ok in E. apply PC. exact E.
      + apply inb_no in E. rewrite P3, P2 by (try discriminate; intros w' Hw' E'; apply P_inj in E'; subst; contradiction). apply H2, Hw.
    - intros w Hw. rewrite P3, P2; [apply H3, Hw|discriminate|]. intros w' Hw' E'. apply P_inj in E'. subst. apply Hw, Hsub, Hw'.
    - intros w Hw. destruct (inb w sub) eqn:E.
      + apply inb_ok in E. split; [apply PC; exact E|]. rewrite C3, C2 by (intros; discriminate). apply H4, Hw.
      + apply inb_no in E. rewrite !C3, !C2; [apply H4, Hw| | | |]; intros w' Hw' E'; try discriminate; injection E' as ->; contradiction.
    - intros w Hw Hd. rewrite !C3, !C2 by (intros; discriminate). apply H5; assumption.
  Qed.
  (** the workers confirm, the manager collects *)
  Lemma rpc_end s L sub k pw (cf : wid -> conf K) (q : wid -> proc) : NoDup sub -> incl sub ws -> phase s L (pbind (receive_from_each_of sub) k) pw ->
    (forall w, In w sub -> pw w = Send Mgr (MConf (cf w)) (q w)) ->
    exists t, go s t /\ phase t L (k (map cf sub)) (fun w => if inb w sub then q w else pw w).
  Proof.
    intros Hn Hsub [H1 H2 H3 H4 H5] Hq.
    destruct (each_replies cap q (fun w => MConf (cf w)) sub Hn s) as (t1 & G1 & PC1 & P1 & C1).
    { intros w Hw. split; [rewrite <- Hq by exact Hw; apply H2, Hsub, Hw|]. split; [apply H4, Hsub, Hw|]. apply (Hcap w w (Hsub w Hw) (Hsub w Hw)). }
    destruct (each_confirmed cap cf sub Hn t1 [] k) as (t & G & P2 & P3 & C2 & C3).
    { rewrite P1 by (intros; discriminate). exact H1. } { intros w Hw. apply PC1. exact Hw. }
    exists t. split; [eapply go_trans; eassumption|]. constructor.
    - exact P2.
    - intros w Hw. rewrite P3 by discriminate. destruct (inb w sub) eqn:E.
      + apply inb_ok in E. apply PC1. exact E.
      + apply inb_no in E. rewrite P1; [apply H2, Hw|]. intros w' Hw' E'. apply P_inj in E'. subst. contradiction.
    - intros w Hw. rewrite P3, P1; [apply H3, Hw| |discriminate]. intros w' Hw' E'. apply P_inj in E'. subst. apply Hw, Hsub, Hw'.
    - intros w Hw. destruct (inb w sub) eqn:E.
      + apply inb_ok in E. split; [rewrite C3, C1 by (intros; discriminate); apply H4, Hw|apply C2, E].
      + apply inb_no in E. rewrite !C3, !C1; [apply H4, Hw| | | |]; intros w' Hw' E'; try discriminate; injection E' as ->; contradiction.
    - intros w Hw Hd. rewrite !C3, !C1 by (intros; discriminate). apply H5; assumption.
  Qed.

  (** an operation without communication between the workers *)
  Lemma rpc_local s L op sub k envs b (b' : wid -> backend K) (cf : wid -> conf K) : NoDup sub -> incl sub ws -> op <> OClose ->
    phase s L (pbind (map_workers_via_op op sub) k) (fun w => worker_run rsqrt (cfg w) (envs w) (b w)) ->
    (forall w, In w sub -> exists e es, envs w = e :: es /\ worker_op rsqrt (cfg w) e (b w) op = Ret (b' w, cf w)) -> (forall w, ~ In w sub -> b' w = b w) ->
    exists t, go s t /\ phase t L (k (map cf sub)) (fun w => worker_run rsqrt (cfg w) (if inb w sub then tl (envs w) else envs w) (b' w)).
  Proof.
    intros Hn Hsub Hop Hs Hw Hb.
    destruct (phase_recast s L _ _ (pbind (send_to_each_of op sub) (fun _ => pbind (receive_from_each_of sub) k)) (fun w => worker_run rsqrt (cfg w) (envs w) (b w)) Hs) as (t0 & G0 & S0).
    { apply bind_assoc. } { intros; apply peq_refl. }
    destruct (rpc_begin t0 L op sub _ envs b Hn Hsub S0) as (t1 & G1 & S1).
    destruct (rpc_end t1 L sub k _ cf (fun w => worker_run rsqrt (cfg w) (tl (envs w)) (b' w)) Hn Hsub S1) as (t2 & G2 & S2).
    { intros w Hin. assert (E := Hin). apply inb_ok in E. rewrite E. destruct (Hw w Hin) as (e & es & Ee & Eo). rewrite Ee. unfold body. destruct op; try congruence; cbn [tl]; rewrite Eo; reflexivity. }
    exists t2. split; [eapply go_trans; [exact G0|]; eapply go_trans; eassumption|]. eapply phase_ext; [exact S2|].
    intros w Hin. cbn beta. destruct (inb w sub) eqn:E; [reflexivity|]. apply inb_no in E. rewrite Hb by exact E. reflexivity.
  Qed.

  (** ** Sync *)
  Definition outs (a : range) : list wid := output_workers (c_reg (cfg (D a))) a.
  Definition ins (a : range) : list wid := input_workers (c_reg (cfg (D a))) a.
  Lemma D_ws a : In a rs -> In (D a) ws.
  Proof. intros H. apply Hws. cbn. auto. Qed.
  Lemma reg_in w x : In w ws -> In x (c_reg (cfg w)) <-> In x ws /\ partner w x = true.
  Proof. intros H. rewrite <- filter_In. split; apply Permutation_in; [|apply Permutation_sym]; apply Hreg, H. Qed.
  Lemma reg_nodup w : In w ws -> NoDup (c_reg (cfg w)).
  Proof. intros H. eapply Permutation_NoDup; [apply Permutation_sym, Hreg, H|]. apply NoDup_filter, Hnd. Qed.
  Lemma range_eqb_refl a : range_eqb a a = true.
  Proof. apply range_eqb_ok. reflexivity. Qed.
  Lemma range_eqb_ne a b : a <> b -> range_eqb a b = false.
  Proof. intros H. destruct (range_eqb a b) eqn:E; [|reflexivity]. apply range_eqb_ok in E. contradiction. Qed.
  Lemma outs_in a w : In a rs -> In w (outs a) <-> In w ws /\ snd w = a /\ fst w <> a.
  Proof.
    intros Ha. unfold outs, output_workers. rewrite filter_In, reg_in, range_eqb_ok by apply D_ws, Ha. unfold partner. cbn [D fst snd]. rewrite range_eqb_refl, andb_true_iff, orb_true_iff, negb_true_iff, !range_eqb_ok.
    split.
    - intros [(H1 & H2 & H3) H4]. split; [exact H1|]. split; [exact H4|]. intros E. rewrite E, H4, range_eqb_refl in H2. discriminate.
    - intros (H1 & H2 & H3). split; [|exact H2]. split; [exact H1|]. split; [apply range_eqb_ne; congruence|auto].
  Qed.
  Lemma ins_in a w : In a rs -> In w (ins a) <-> In w ws /\ fst w = a /\ snd w <> a.
  Proof.
    intros Ha. unfold ins, input_workers. rewrite filter_In, reg_in, range_eqb_ok by apply D_ws, Ha. unfold partner. cbn [D fst snd]. rewrite range_eqb_refl, andb_true_iff, orb_true_iff, negb_true_iff, !range_eqb_ok.
    split.
    - intros [(H1 & H2 & H3) H4]. split; [exact H1|]. split; [exact H4|]. intros E. rewrite E, H4, range_eqb_refl in H2. discriminate.
    - intros (H1 & H2 & H3). split; [|exact H2]. split; [exact H1|]. split; [apply range_eqb_ne; congruence|auto].
  Qed.
  Lemma find_diagonal w a : In w ws -> fst w <> snd w -> a = fst w \/ a = snd w -> find_worker (c_reg (cfg w)) (a, a) = Some (P (D a)).
  Proof.
    intros Hw Hd Ha. unfold find_worker. destruct (existsb (wid_eqb (a, a)) (c_reg (cfg w))) eqn:E; [reflexivity|].
    exfalso. assert (Hin : In (a, a) (c_reg (cfg w))).
    { apply reg_in; [exact Hw|]. split; [apply Hws; cbn; apply Hws in Hw; destruct Ha; subst; tauto|]. unfold partner. rewrite (range_eqb_ne _ _ Hd). cbn [fst snd]. rewrite range_eqb_refl.
      destruct Ha; subst a; rewrite range_eqb_refl; rewrite ?orb_true_r; reflexivity. }
    apply inb_ok in Hin. unfold inb in Hin. congruence.
  Qed.

  Section One.
    Context (envs : wid -> list (env K)) (b : wid -> backend K) (up_to : option Z).
    Hypothesis Hup : threshold_of up_to = None.
    Hypothesis Hb : forall w, In w ws -> length (bk_state (b w)) = size.
    Hypothesis Henv : forall w, In w ws -> envs w <> [].
    Let v w := bk_state (b w).
    Let cc w := c_chunk (cfg w).
    Let wn w := c_window (cfg w).
    Let kk w vec : proc := Send Mgr (MConf CDone) (worker_run rsqrt (cfg w) (tl (envs w)) (set_state (b w) vec)).

    Definition diag_gather a : proc := pbind (pfold (fun vec w => receive_state job vec (P w) false (cc (D a)) (wn (D a))) (outs a) (v (D a)))
      (fun vec => pbind (pfold (fun _ w => send_state job vec (P w)) (ins a) tt) (fun _ => kk (D a) vec)).
    Definition off_send w : proc := pbind (send_state job (v w) (P (D (snd w)))) (fun _ => pbind (receive_state job (v w) (P (D (fst w))) true (cc w) (wn w)) (kk w)).
    Definition diag_scatter a : proc := pbind (pfold (fun _ w => send_state job (v (D a)) (P w)) (ins a) tt) (fun _ => kk (D a) (v (D a))).
    Definition off_recv w : proc := pbind (receive_state job (v w) (P (D (fst w))) true (cc w) (wn w)) (kk w).

    Ltac rebind := repeat (eapply peq_trans; [apply bind_assoc|]; apply peq_bind; [apply peq_refl|intros ?]; cbn [pbind]); try apply peq_refl.
    Lemma body_diag a : In a rs -> peq (body (D a) (envs (D a)) (b (D a)) (OSync up_to false)) (diag_gather a).
    Proof.
      intros Ha. assert (Hw := D_ws a Ha). destruct (Hcfg _ Hw) as (E1 & E2 & _). specialize (Henv _ Hw). unfold body. destruct (envs (D a)) as [|e es] eqn:Ee; [congruence|].
      unfold worker_op, worker_sync. rewrite E1, E2, Hup. cbn [D fst snd]. rewrite !Z.eqb_refl. cbn [andb].
      unfold diag_gather, kk. fold (D a). rewrite Ee. cbn [tl].
      eapply peq_trans; [apply bind_assoc|]. eapply peq_trans; [apply bind_assoc|]. apply peq_bind; [apply peq_refl|]. intros vec.
      eapply peq_trans; [apply bind_assoc|]. apply peq_bind; [apply peq_refl|]. intros u. apply peq_refl.
    Qed.
    Lemma body_off w : In w ws -> fst w <> snd w -> peq (body w (envs w) (b w) (OSync up_to false)) (off_send w).
    Proof.
      intros Hw Hd. destruct (Hcfg _ Hw) as (E1 & E2 & _). specialize (Henv _ Hw). unfold body. destruct (envs w) as [|e es] eqn:Ee; [congruence|].
      unfold worker_op, worker_sync. rewrite E1, E2, Hup. destruct w as [i o] eqn:Ew. rewrite <- Ew in *.
      assert (Eb : (fst i =? fst o) && (snd i =? snd o) = false).
      { rewrite Ew in Hd. cbn in Hd. destruct (_ && _) eqn:E; [|reflexivity]. change (range_eqb i o = true) in E. apply range_eqb_ok in E. contradiction. }
      rewrite Eb. unfold send_state_to_one, receive_state_from_one. assert (Ei : i = fst w) by (rewrite Ew; reflexivity). assert (Eo : o = snd w) by (rewrite Ew; reflexivity).
      rewrite Ei, Eo. rewrite !find_diagonal by auto. unfold off_send, kk. rewrite Ee. cbn [tl].
      eapply peq_trans; [apply bind_assoc|]. eapply peq_trans; [apply bind_assoc|]. apply peq_bind; [apply peq_refl|]. intros u.
      eapply peq_trans; [apply bind_assoc|]. apply peq_bind; [apply peq_refl|]. intros vec. apply peq_refl.
    Qed.
    Lemma body_diag_ow a : In a rs -> peq (body (D a) (envs (D a)) (b (D a)) (OSync up_to true)) (diag_scatter a).
    Proof.
      intros Ha. assert (Hw := D_ws a Ha). destruct (Hcfg _ Hw) as (E1 & E2 & _). specialize (Henv _ Hw). unfold body. destruct (envs (D a)) as [|e es] eqn:Ee; [congruence|].
      unfold worker_op, worker_sync. rewrite E1, E2, Hup. cbn [D fst snd]. rewrite !Z.eqb_refl. cbn [andb pbind].
      unfold diag_scatter, kk. fold (D a). rewrite Ee. cbn [tl].
      eapply peq_trans; [apply bind_assoc|]. eapply peq_trans; [apply bind_assoc|]. apply peq_bind; [apply peq_refl|]. intros vec. apply peq_refl.
    Qed.
    Lemma body_off_ow w : In w ws -> fst w <> snd w -> peq (body w (envs w) (b w) (OSync up_to true)) (off_recv w).
    Proof.
      intros Hw Hd. destruct (Hcfg _ Hw) as (E1 & E2 & _). specialize (Henv _ Hw). unfold body. destruct (envs w) as [|e es] eqn:Ee; [congruence|].
      unfold worker_op, worker_sync. rewrite E1, E2, Hup. destruct w as [i o] eqn:Ew. rewrite <- Ew in *.
      assert (Eb : (fst i =? fst o) && (snd i =? snd o) = false).
      { rewrite Ew in Hd. cbn in Hd. destruct (_ && _) eqn:E; [|reflexivity]. change (range_eqb i o = true) in E. apply range_eqb_ok in E. contradiction. }
      rewrite Eb. cbn [pbind]. unfold receive_state_from_one. assert (Ei : i = fst w) by (rewrite Ew; reflexivity).
      rewrite Ei. rewrite !find_diagonal by auto. unfold off_recv, kk. rewrite Ee. cbn [tl].
      eapply peq_trans; [apply bind_assoc|]. eapply peq_trans; [apply bind_assoc|]. apply peq_bind; [apply peq_refl|]. intros vec. apply peq_refl.
    Qed.

    Definition offd (w : wid) : bool := negb (range_eqb (fst w) (snd w)).
    Lemma offd_true w : offd w = true <-> fst w <> snd w.
    Proof. unfold offd. rewrite negb_true_iff. split; [intros H E; rewrite E, range_eqb_refl in H; discriminate|apply range_eqb_ne]. Qed.
    Lemma offd_false w : offd w = false -> w = D (fst w).
    Proof. unfold offd. rewrite negb_false_iff, range_eqb_ok. destruct w; cbn. intros ->. reflexivity. Qed.
    Lemma outs_nodup a : In a rs -> NoDup (outs a).
    Proof. intros H. apply NoDup_filter, reg_nodup, D_ws, H. Qed.
    Lemma ins_nodup a : In a rs -> NoDup (ins a).
    Proof. intros H. apply NoDup_filter, reg_nodup, D_ws, H. Qed.

    (** the second half: the diagonal workers send, the others receive *)
    Lemma sync_scatter s L L2 mp g : (L2 + size + 1 <= room)%nat -> (L2 + size <= L)%nat -> (forall a, In a rs -> length (g a) = size) ->
      (procs s Mgr = mp /\ (forall w, ~ In w ws -> procs s (P w) = Ret EIdle) /\ (forall w, In w ws -> chans s Mgr (P w) = [] /\ chans s (P w) Mgr = []) /\
       (forall a, In a rs -> procs s (P (D a)) = pbind (pfold (fun _ w => send_state job (g a) (P w)) (ins a) tt) (fun _ => kk (D a) (g a))) /\
       (forall w, In w ws -> fst w <> snd w -> procs s (P w) = off_recv w /\ chans s (P w) (P (D (snd w))) = [] /\ chans s (P (D (fst w))) (P w) = [] /\
          good job L (chans s (P (D (snd w))) (P w)) /\ good job L2 (chans s (P w) (P (D (fst w)))))) ->
      exists t, go s t /\ phase t L mp (fun w => kk w (g (fst w))).
    Proof.
      intros Hroom HL Hg (H1 & H3 & H4 & H5 & H6).
      set (ins' := fun a => if existsb (range_eqb a) rs then ins a else []).
      assert (Ei : forall a, In a rs -> ins' a = ins a).
      { intros a Ha. unfold ins'. replace (existsb (range_eqb a) rs) with true; [reflexivity|]. symmetry. apply existsb_exists. exists a. split; [exact Ha|apply range_eqb_refl]. }
      assert (Hin' : forall a w, In w (ins' a) -> In a rs /\ In w (ins a)).
      { intros a w. unfold ins'. destruct (existsb (range_eqb a) rs) eqn:E; [|intros []]. apply existsb_exists in E. destruct E as (x & Hx & E). apply range_eqb_ok in E. subst x. auto. }
      destruct (all_scatter (R := ending K) cap job cc wn size v ws) with (ins := ins') (g := g) (kd := fun a (_ : unit) => kk (D a) (g a)) (ko := kk) (L := L2) (rs := rs) (s := s) as (t & G & P1 & PC & P2 & C2).
      { intros w Hw. unfold cc, wn. destruct (Hcfg w Hw) as (_ & _ & A). exact A. } { exact Hsize. } { intros w Hw. apply Hb, Hw. }
      { intros a. unfold ins'. destruct (existsb (range_eqb a) rs) eqn:E; [|constructor]. apply existsb_exists in E. destruct E as (x & Hx & E). apply range_eqb_ok in E. subst x. apply ins_nodup, Hx. }
      { intros a w Hw. apply Hin' in Hw. destruct Hw as [Ha Hw]. apply ins_in in Hw; [tauto|exact Ha]. }
      { intros a w Hw. apply Hin' in Hw. destruct Hw as [Ha Hw]. apply ins_in in Hw; [tauto|exact Ha]. }
      { exact Hnr. } { exact Hg. } { intros a Ha. rewrite Ei by exact Ha. apply H5, Ha. }
      { intros a w Ha Hw. rewrite Ei in Hw by exact Ha. apply ins_in in Hw; [|exact Ha]. destruct Hw as (Hw & <- & Hd).
        destruct (H6 w Hw ltac:(congruence)) as (A1 & A2 & A3 & A4 & A5). split; [exact A1|]. split; [exact A3|]. assert (HD := D_ws _ Ha).
        destruct (Hcap w (D (fst w)) Hw HD) as (_ & _ & F1). destruct (Hcap (D (fst w)) w HD Hw) as (_ & _ & F2).
        split; [eapply fits_le; [exact F2|lia]|]. split; [exact A5|]. eapply fits_le; [exact F1|lia]. }
      exists t. split; [exact G|].
      assert (Hoff : forall w, In w ws -> fst w <> snd w -> In (fst w) rs /\ In w (ins' (fst w))).
      { intros w Hw Hd. assert (Ha : In (fst w) rs) by (apply Hws; exact Hw). split; [exact Ha|]. rewrite Ei by exact Ha. apply ins_in; auto. }
      constructor.
      - rewrite P2; [exact H1|]. intros a Ha. split; [discriminate|intros; discriminate].
      - intros w Hw. destruct (offd w) eqn:Ed.
        + apply offd_true in Ed. destruct (Hoff w Hw Ed) as [Ha Hin]. apply (PC _ w Ha Hin).
        + apply offd_false in Ed. assert (Ha : In (fst w) rs) by (apply Hws; exact Hw). rewrite Ed at 1 2. cbn [fst D]. apply P1, Ha.
      - intros w Hw. rewrite P2; [apply H3, Hw|]. intros a Ha. split.
        + intros E. apply P_inj in E. subst w. apply Hw, D_ws, Ha.
        + intros x Hx E. apply P_inj in E. subst x. rewrite Ei in Hx by exact Ha. apply ins_in in Hx; [|exact Ha]. tauto.
      - intros w Hw. rewrite !C2 by (intros; split; discriminate). apply H4, Hw.
      - intros w Hw Hd. destruct (Hoff w Hw Hd) as [Ha Hin]. destruct (PC _ w Ha Hin) as (_ & A1 & A2). destruct (H6 w Hw Hd) as (_ & A3 & _ & A4 & _).
        split; [rewrite C2; [exact A3|]|split; [exact A1|split]].
        + intros a x Ha' Hx. rewrite Ei in Hx by exact Ha'. apply ins_in in Hx; [|exact Ha']. destruct Hx as (Hx & E1 & E2). split; intros E; apply pp_inj in E; destruct E as [Ea Eb].
          * subst x. apply D_inj in Eb. congruence.
          * subst w. apply Hd. reflexivity.
        + rewrite C2; [exact A4|].
          intros a x Ha' Hx. rewrite Ei in Hx by exact Ha'. apply ins_in in Hx; [|exact Ha']. destruct Hx as (Hx & E1 & E2). split; intros E; apply pp_inj in E; destruct E as [Ea Eb].
          * subst w. apply Hd. reflexivity.
          * subst x. apply D_inj in Ea. congruence.
        + destruct A2 as [A2 A2']. split; [exact A2|lia].
    Qed.

    Lemma sync_all s L mp : (L + size + 1 <= room)%nat -> phase s L mp (fun w => body w (envs w) (b w) (OSync up_to false)) ->
      exists t, go s t /\ phase t (L + size) mp (fun w => kk w (gathered v outs (fst w))).
    Proof.
      intros Hroom Hs.
      destruct (phase_recast s L mp _ mp (fun w => if offd w then off_send w else diag_gather (fst w)) Hs (peq_refl _)) as (t0 & G0 & [H1 H2 H3 H4 H5]).
      { intros w Hw. destruct (offd w) eqn:Ed; [apply offd_true in Ed; apply body_off; assumption|]. apply offd_false in Ed. rewrite Ed at 1 2 3. apply body_diag, Hws, Hw. }
      set (outs' := fun a => if existsb (range_eqb a) rs then outs a else []).
      assert (Eo : forall a, In a rs -> outs' a = outs a).
      { intros a Ha. unfold outs'. replace (existsb (range_eqb a) rs) with true; [reflexivity|]. symmetry. apply existsb_exists. exists a. split; [exact Ha|apply range_eqb_refl]. }
      assert (Hin' : forall a w, In w (outs' a) -> In a rs /\ In w (outs a)).
      { intros a w. unfold outs'. destruct (existsb (range_eqb a) rs) eqn:E; [|intros []]. apply existsb_exists in E. destruct E as (x & Hx & E). apply range_eqb_ok in E. subst x. auto. }
      assert (Hows : forall a w, In w (outs' a) -> In w ws).
      { intros a w Hw. apply Hin' in Hw. destruct Hw as [Ha Hw]. apply outs_in in Hw; [tauto|exact Ha]. }
      assert (Hv : forall w, In w ws -> length (v w) = size) by (intros w Hw; apply Hb, Hw).
      assert (Eg : forall a, In a rs -> gathered v outs' a = gathered v outs a) by (intros a Ha; unfold gathered; rewrite Eo by exact Ha; reflexivity).
      destruct (all_gather (R := ending K) cap job cc wn size v ws) with (outs := outs')
        (kd := fun a vec => pbind (pfold (fun _ w => send_state job vec (P w)) (ins a) tt) (fun _ => kk (D a) vec))
        (ko := fun w (_ : unit) => off_recv w) (L := L) (rs := rs) (s := t0) as (t1 & G1 & P1 & PC & P2 & C2).
      { intros w Hw. unfold cc, wn. destruct (Hcfg w Hw) as (_ & _ & A). exact A. } { exact Hsize. } { exact Hv. }
      { intros a. unfold outs'. destruct (existsb (range_eqb a) rs) eqn:E; [|constructor]. apply existsb_exists in E. destruct E as (x & Hx & E). apply range_eqb_ok in E. subst x. apply outs_nodup, Hx. }
      { intros a w Hw. apply Hin' in Hw. destruct Hw as [Ha Hw]. apply outs_in in Hw; [tauto|exact Ha]. }
      { exact Hows. } { exact Hnr. } { intros a Ha. apply D_ws, Ha. }
      { intros a Ha. rewrite H2 by apply D_ws, Ha. unfold offd, D. cbn [fst snd]. rewrite range_eqb_refl. cbn [negb]. rewrite Eo by exact Ha. reflexivity. }
      { intros a w Ha Hw. rewrite Eo in Hw by exact Ha. apply outs_in in Hw; [|exact Ha]. destruct Hw as (Hw & <- & Hd).
        destruct (H5 w Hw Hd) as (A2 & A3 & A4 & A5). assert (Hd' := Hd). apply offd_true in Hd'. rewrite (H2 w Hw). rewrite Hd'. split; [reflexivity|]. split; [exact A2|]. assert (HD := D_ws _ Ha).
        destruct (Hcap w (D (snd w)) Hw HD) as (_ & _ & F1). destruct (Hcap (D (snd w)) w HD Hw) as (_ & _ & F2).
        split; [eapply fits_le; [exact F1|lia]|]. split; [exact A4|]. eapply fits_le; [exact F2|lia]. }
      assert (Hoff : forall w, In w ws -> fst w <> snd w -> In (snd w) rs /\ In w (outs' (snd w))).
      { intros w Hw Hd. assert (Ha : In (snd w) rs) by (apply Hws; exact Hw). split; [exact Ha|]. rewrite Eo by exact Ha. apply outs_in; auto. }
      destruct (sync_scatter t1 (L + size) L mp (gathered v outs)) as (t & G & S).
      { exact Hroom. } { lia. } { intros a Ha. rewrite <- Eg by exact Ha. apply gathered_length with (ws := ws); auto. apply D_ws, Ha. }
      { split; [|split; [|split; [|split]]].
        - rewrite P2; [exact H1|]. intros a Ha. split; [discriminate|intros; discriminate].
        - intros w Hw. rewrite P2; [apply H3, Hw|]. intros a Ha. split.
          + intros E. apply P_inj in E. subst w. apply Hw, D_ws, Ha.
          + intros x Hx E. apply P_inj in E. subst x. apply Hw. eauto.
        - intros w Hw. rewrite !C2 by (intros; split; discriminate). apply H4, Hw.
        - intros a Ha. rewrite P1, Eg by exact Ha. reflexivity.
        - intros w Hw Hd. destruct (Hoff w Hw Hd) as [Ha Hin]. destruct (PC _ w Ha Hin) as (A0 & A1 & A2). destruct (H5 w Hw Hd) as (_ & A3 & _ & A4).
          split; [exact A0|]. split; [exact A1|]. split; [|split; [exact A2|]].
          + rewrite C2; [exact A3|]. intros a x Ha' Hx. rewrite Eo in Hx by exact Ha'. apply outs_in in Hx; [|exact Ha']. destruct Hx as (Hx & E1 & E2). split; intros E; apply pp_inj in E; destruct E as [Ea Eb].
            * subst w. apply Hd. reflexivity.
            * subst x. apply D_inj in Ea. congruence.
          + rewrite C2; [exact A4|]. intros a x Ha' Hx. rewrite Eo in Hx by exact Ha'. apply outs_in in Hx; [|exact Ha']. destruct Hx as (Hx & E1 & E2). split; intros E; apply pp_inj in E; destruct E as [Ea Eb].
            * subst x. apply D_inj in Eb. congruence.
            * subst w. apply Hd. reflexivity. }
      exists t. split; [eapply go_trans; [exact G0|]; eapply go_trans; eassumption|exact S].
    Qed.

    Lemma sync_overwrite s L mp : (L + size + 1 <= room)%nat -> phase s L mp (fun w => body w (envs w) (b w) (OSync up_to true)) ->
      exists t, go s t /\ phase t (L + size) mp (fun w => kk w (v (D (fst w)))).
    Proof.
      intros Hroom Hs.
      destruct (phase_recast s L mp _ mp (fun w => if offd w then off_recv w else diag_scatter (fst w)) Hs (peq_refl _)) as (t0 & G0 & [H1 H2 H3 H4 H5]).
      { intros w Hw. destruct (offd w) eqn:Ed; [apply offd_true in Ed; apply body_off_ow; assumption|]. apply offd_false in Ed. rewrite Ed at 1 2 3. apply body_diag_ow, Hws, Hw. }
      destruct (sync_scatter t0 (L + size) L mp (fun a => v (D a))) as (t & G & S).
      { exact Hroom. } { lia. } { intros a Ha. apply Hb, D_ws, Ha. }
      { split; [exact H1|split; [exact H3|split; [exact H4|split]]].
        - intros a Ha. rewrite H2 by apply D_ws, Ha. unfold offd, D. cbn [fst snd]. rewrite range_eqb_refl. cbn [negb]. reflexivity.
        - intros w Hw Hd. destruct (H5 w Hw Hd) as (A1 & A2 & [A3 A3'] & A4). assert (Hd' := Hd). apply offd_true in Hd'. rewrite (H2 w Hw), Hd'. unfold good. repeat split; auto; [lia|apply A4|apply A4]. }
      exists t. split; [eapply go_trans; eassumption|exact S].
    Qed.

    (** the state of block a after a sync *)
    Definition synced (overwrite : bool) (a : range) : list C := if overwrite then v (D a) else gathered v outs a.
    Lemma rpc_sync s L ow k : (L + size + 1 <= room)%nat ->
      phase s L (pbind (map_workers_via_op (OSync up_to ow) ws) k) (fun w => worker_run rsqrt (cfg w) (envs w) (b w)) ->
      exists t, go s t /\ phase t (L + size) (k (map (fun _ => CDone) ws)) (fun w => worker_run rsqrt (cfg w) (tl (envs w)) (set_state (b w) (synced ow (fst w)))).
    Proof.
      intros Hroom Hs.
      destruct (phase_recast s L _ _ (pbind (send_to_each_of (OSync up_to ow) ws) (fun _ => pbind (receive_from_each_of ws) k)) (fun w => worker_run rsqrt (cfg w) (envs w) (b w)) Hs) as (t0 & G0 & S0).
      { apply bind_assoc. } { intros; apply peq_refl. }
      destruct (rpc_begin t0 L _ ws _ envs b Hnd (incl_refl _) S0) as (t1 & G1 & S1).
      apply phase_ext with (pw' := fun w => body w (envs w) (b w) (OSync up_to ow)) in S1; [|intros w Hw; apply inb_ok in Hw; rewrite Hw; reflexivity].
      assert (E : exists t2, go t1 t2 /\ phase t2 (L + size) (pbind (receive_from_each_of ws) k) (fun w => kk w (synced ow (fst w)))).
      { destruct ow; [apply sync_overwrite; assumption|apply sync_all; assumption]. }
      destruct E as (t2 & G2 & S2).
      destruct (rpc_end t2 (L + size) ws k _ (fun _ => CDone) (fun w => worker_run rsqrt (cfg w) (tl (envs w)) (set_state (b w) (synced ow (fst w)))) Hnd (incl_refl _) S2) as (t & G & S).
      { intros w Hw. reflexivity. }
      exists t. split; [do 3 (eapply go_trans; [eassumption|]); exact G|]. eapply phase_ext; [exact S|]. intros w Hw. apply inb_ok in Hw. cbn beta. rewrite Hw. reflexivity.
    Qed.
  End One.
End Job.
