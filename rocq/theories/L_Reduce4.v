(** The sync operation of the workers of some output blocks, with a threshold. *)
From Verif Require Import Base M_Bits M_Kron M_Feed M_Measure M_Net S_Net L_Net M_Worker S_Worker L_Worker1 L_Worker2 L_Worker3 L_Worker4.

Section SyncPart.
  Context {K : Type} {OK : OrdRing K}.
  Notation C := (Cx K).
  Notation msg := (msg K).
  Variable cap : pid -> pid -> option nat.
  Notation go := (go pid_eqb cap).
  Notation net := (net pid msg (ending K)).
  Notation proc := (proc pid msg (ending K)).
  Context (rsqrt : K -> K) (ws : list wid) (rs : list range) (cfg : wid -> worker_cfg) (job : Z) (size room : nat).
  Hypothesis Hnd : NoDup ws.
  Hypothesis Hws : forall w, In w ws <-> In (fst w) rs /\ In (snd w) rs.
  Hypothesis Hcfg : configured job ws cfg.
  Hypothesis Hreg : connected ws cfg.
  Hypothesis Hcap : capacities cap ws room.
  Hypothesis Hsize : (0 < size)%nat.
  Notation phase := (phase ws job).
  Notation body := (body rsqrt cfg).
  Notation outs := (outs cfg).
  Context (sub : list wid) (tr : list range) (thr : Z).
  Hypothesis Hsub : forall w, In w sub <-> In w ws /\ In (snd w) tr.
  Hypothesis Htn : NoDup tr.
  Hypothesis Htr : incl tr rs.
  Hypothesis Hthr : thr <> 0.
  Hypothesis Hno : forall w, In w sub -> fst w <> snd w -> (snd (fst w) <=? thr) && (snd (snd w) <=? thr) = false.
  Context (envs : wid -> list (env K)) (b : wid -> backend K) (pw : wid -> proc).
  Hypothesis Hb : forall w, In w ws -> length (bk_state (b w)) = size.
  Hypothesis Henv : forall w, In w sub -> envs w <> [].
  Let v w := bk_state (b w).
  Let kk w (b' : backend K) : proc := Send Mgr (MConf CDone) (worker_run rsqrt (cfg w) (tl (envs w)) b').
  Let kd w (vec : list C) : proc := pbind (send_state_up_to job vec (c_reg (cfg w)) (fst w) thr) (fun _ => kk w (set_state (b w) vec)).

  Lemma thr_of : threshold_of (Some thr) = Some thr.
  Proof. unfold threshold_of. destruct (Z.eqb_spec thr 0); [contradiction|reflexivity]. Qed.
  Lemma part_diag a : In a tr -> peq (body (D a) (envs (D a)) (b (D a)) (OSync (Some thr) false))
    (pbind (pfold (fun vec w => receive_state job vec (P w) false (c_chunk (cfg (D a))) (c_window (cfg (D a)))) (outs a) (v (D a))) (kd (D a))).
  Proof.
    intros Ha. assert (Hw : In (D a) ws) by (apply Hws; cbn; split; apply Htr, Ha). destruct (Hcfg _ Hw) as (E1 & E2 & _). assert (He : envs (D a) <> []) by (apply Henv, Hsub; split; [exact Hw|exact Ha]).
    unfold L_Worker4.body. destruct (envs (D a)) as [|e es] eqn:Ee; [congruence|].
    unfold worker_op, worker_sync. rewrite E1, E2, thr_of. cbn [D fst snd]. rewrite !Z.eqb_refl. cbn [andb].
    unfold kd, kk. fold (D a). rewrite Ee. cbn [tl].
    eapply peq_trans; [apply bind_assoc|]. eapply peq_trans; [apply bind_assoc|]. apply peq_bind; [apply peq_refl|]. intros vec.
    eapply peq_trans; [apply bind_assoc|]. apply peq_bind; [apply peq_refl|]. intros u. apply peq_refl.
  Qed.
  Lemma part_off w : In w sub -> fst w <> snd w -> peq (body w (envs w) (b w) (OSync (Some thr) false)) (pbind (send_state job (v w) (P (D (snd w)))) (fun _ => kk w (b w))).
  Proof.
    intros Hw' Hd. assert (Hw := proj1 (proj1 (Hsub w) Hw')). destruct (Hcfg _ Hw) as (E1 & E2 & _). assert (He := Henv _ Hw'). unfold L_Worker4.body. destruct (envs w) as [|e es] eqn:Ee; [congruence|].
    assert (Hn := Hno w Hw' Hd). unfold worker_op, worker_sync. rewrite E1, E2, thr_of. destruct w as [i o] eqn:Ew. rewrite <- Ew in *.
    assert (Eb : (fst i =? fst o) && (snd i =? snd o) = false).
    { rewrite Ew in Hd. cbn in Hd. destruct ((fst i =? fst o) && (snd i =? snd o)) eqn:E; [|reflexivity]. change (range_eqb i o = true) in E. apply range_eqb_ok in E. contradiction. }
    rewrite Eb. unfold send_state_to_one. assert (Ei : i = fst w) by (rewrite Ew; reflexivity). assert (Eo : o = snd w) by (rewrite Ew; reflexivity).
    rewrite Ei, Eo. rewrite !(find_diagonal ws rs) by auto. cbv zeta. rewrite Hn. unfold kk. rewrite Ee. cbn [tl].
    eapply peq_trans; [apply bind_assoc|]. eapply peq_trans; [apply bind_assoc|]. apply peq_bind; [apply peq_refl|]. intros u. apply peq_refl.
  Qed.

  Lemma sync_part s L mp : (L + size + 1 <= room)%nat -> phase s L mp (fun w => if inb w sub then body w (envs w) (b w) (OSync (Some thr) false) else pw w) ->
    exists t, go s t /\ phase t (L + size) mp (fun w => if inb w sub then (if offd w then kk w (b w) else kd w (gathered v outs (fst w))) else pw w) /\
      forall w, In w ws -> fst w <> snd w -> good job L (chans t (P w) (P (D (fst w)))).
  Proof.
    intros Hroom Hs.
    destruct (phase_recast cap ws job s L mp _ mp (fun w => if inb w sub then (if offd w then pbind (send_state job (v w) (P (D (snd w)))) (fun _ => kk w (b w))
      else pbind (pfold (fun vec x => receive_state job vec (P x) false (c_chunk (cfg w)) (c_window (cfg w))) (outs (fst w)) (v w)) (kd w)) else pw w) Hs (peq_refl _)) as (t0 & G0 & [H1 H2 H3 H4 H5]).
    { intros w Hw. destruct (inb w sub) eqn:Es; [|apply peq_refl]. apply inb_ok in Es. destruct (offd w) eqn:Ed; [apply offd_true in Ed; apply part_off; assumption|]. apply offd_false in Ed. rewrite Ed. cbn [fst D]. apply part_diag.
      apply Hsub in Es. rewrite Ed in Es. apply Es. }
    assert (HD : forall a, In a tr -> In (D a) ws) by (intros a Ha; apply Hws; cbn; split; apply Htr, Ha).
    set (outs' := fun a => if existsb (range_eqb a) tr then outs a else []).
    assert (Eo : forall a, In a tr -> outs' a = outs a).
    { intros a Ha. unfold outs'. replace (existsb (range_eqb a) tr) with true; [reflexivity|]. symmetry. apply existsb_exists. exists a. split; [exact Ha|apply range_eqb_refl]. }
    assert (Hin' : forall a w, In w (outs' a) -> In a tr /\ In w (outs a)).
    { intros a w. unfold outs'. destruct (existsb (range_eqb a) tr) eqn:E; [|intros []]. apply existsb_exists in E. destruct E as (x & Hx & E). apply range_eqb_ok in E. subst x. auto. }
    assert (Hoi : forall a w, In a tr -> In w (outs a) <-> In w ws /\ snd w = a /\ fst w <> a) by (intros a w Ha; apply (outs_in ws rs cfg Hws Hreg), Htr, Ha).
    assert (Eg : forall a, In a tr -> gathered v outs' a = gathered v outs a) by (intros a Ha; unfold gathered; rewrite Eo by exact Ha; reflexivity).
    destruct (all_gather (R := ending K) cap job (fun w => c_chunk (cfg w)) (fun w => c_window (cfg w)) size v ws) with (outs := outs')
        (kd := fun a vec => kd (D a) vec)
        (ko := fun w (_ : unit) => kk w (b w)) (L := L) (rs := tr) (s := t0) as (t1 & G1 & P1 & PC & P2 & C2).
    { intros w Hw. destruct (Hcfg w Hw) as (_ & _ & A). exact A. } { exact Hsize. } { intros w Hw. apply Hb, Hw. }
    { intros a. unfold outs'. destruct (existsb (range_eqb a) tr) eqn:E; [|constructor]. apply existsb_exists in E. destruct E as (x & Hx & E). apply range_eqb_ok in E. subst x. apply (outs_nodup ws rs cfg Hnd Hws Hreg), Htr, Hx. }
    { intros a w Hw. apply Hin' in Hw. destruct Hw as [Ha Hw]. apply Hoi in Hw; [tauto|exact Ha]. }
    { intros a w Hw. apply Hin' in Hw. destruct Hw as [Ha Hw]. apply Hoi in Hw; [tauto|exact Ha]. }
    { exact Htn. } { exact HD. }
    { intros a Ha. rewrite H2 by apply HD, Ha. assert (X : In (D a) sub) by (apply Hsub; split; [apply HD, Ha|exact Ha]). apply inb_ok in X. rewrite X. unfold offd, D. cbn [fst snd]. rewrite range_eqb_refl. cbn [negb]. rewrite Eo by exact Ha. reflexivity. }
    { intros a w Ha Hw. rewrite Eo in Hw by exact Ha. apply Hoi in Hw; [|exact Ha]. destruct Hw as (Hw & <- & Hd).
      destruct (H5 w Hw Hd) as (A2 & A3 & A4 & A5). assert (Hd' := Hd). apply offd_true in Hd'. rewrite (H2 w Hw). assert (X : In w sub) by (apply Hsub; auto). apply inb_ok in X. rewrite X, Hd'. split; [reflexivity|]. split; [exact A2|].
      destruct (Hcap w (D (snd w)) Hw (HD _ Ha)) as (_ & _ & F1). destruct (Hcap (D (snd w)) w (HD _ Ha) Hw) as (_ & _ & F2).
      split; [eapply fits_le; [exact F1|lia]|]. split; [exact A4|]. eapply fits_le; [exact F2|lia]. }
    assert (Cx : forall w, In w ws -> fst w <> snd w -> chans t1 (P w) (P (D (fst w))) = chans t0 (P w) (P (D (fst w)))).
    { intros w Hw Hd. apply C2. intros a x Ha Hx. rewrite Eo in Hx by exact Ha. apply Hoi in Hx; [|exact Ha]. destruct Hx as (Hx & E1 & E2). split; intros E; apply pp_inj in E; destruct E as [Ea Eb].
      - subst x. apply D_inj in Eb. congruence.
      - subst w. apply Hd. reflexivity. }
    exists t1. split; [eapply go_trans; eassumption|]. split; [|intros w Hw Hd; rewrite Cx by assumption; apply (H5 w Hw Hd)].
    constructor.
    - rewrite P2; [exact H1|]. intros a Ha. split; [discriminate|intros; discriminate].
    - intros w Hw. destruct (inb w sub) eqn:Es.
      + apply inb_ok in Es. apply Hsub in Es. destruct Es as [_ Ha]. destruct (offd w) eqn:Ed.
        * apply offd_true in Ed. apply (PC (snd w) w Ha). rewrite Eo by exact Ha. apply Hoi; auto.
        * apply offd_false in Ed. assert (Ea : snd w = fst w) by (rewrite Ed; reflexivity). rewrite Ea in Ha. rewrite Ed at 1 2. rewrite P1, Eg by exact Ha. reflexivity.
      + apply inb_no in Es. rewrite P2.
        * rewrite (H2 w Hw). apply inb_no in Es. rewrite Es. reflexivity.
        * intros a Ha. split; [intros E; apply P_inj in E; subst w; apply Es, Hsub; auto|]. intros x Hx E. apply P_inj in E. subst x. rewrite Eo in Hx by exact Ha. apply Hoi in Hx; [|exact Ha]. apply Es, Hsub. destruct Hx as (_ & -> & _). auto.
    - intros w Hw. rewrite P2; [apply H3, Hw|]. intros a Ha. split.
      + intros E. apply P_inj in E. subst w. apply Hw, HD, Ha.
      + intros x Hx E. apply P_inj in E. subst x. apply Hin' in Hx. destruct Hx as [_ Hx]. apply Hoi in Hx; [|exact Ha]. tauto.
    - intros w Hw. rewrite !C2 by (intros; split; discriminate). apply H4, Hw.
    - intros w Hw Hd. destruct (H5 w Hw Hd) as (A1 & A2 & A3 & A4).
      assert (X : chans t1 (P w) (P (D (snd w))) = [] /\ good job (L + size) (chans t1 (P (D (snd w))) (P w))).
      { destruct (existsb (range_eqb (snd w)) tr) eqn:E.
        - apply existsb_exists in E. destruct E as (x & Hx & E). apply range_eqb_ok in E. subst x. apply (PC (snd w) w Hx). rewrite Eo by exact Hx. apply Hoi; auto.
        - assert (Hnt : ~ In (snd w) tr) by (intros H; rewrite (proj2 (existsb_exists _ _)) in E; [discriminate|exists (snd w); split; [exact H|apply range_eqb_refl]]).
          rewrite !C2; [split; [exact A1|]| |].
          + destruct A3 as [A3 A3']. split; [exact A3|lia].
          + intros a x Ha Hx. rewrite Eo in Hx by exact Ha. apply Hoi in Hx; [|exact Ha]. destruct Hx as (Hx & E1 & E2). split; intros E'; apply pp_inj in E'; destruct E' as [Ea Eb].
            * subst w. apply Hd. reflexivity.
            * subst x. apply D_inj in Ea. congruence.
          + intros a x Ha Hx. rewrite Eo in Hx by exact Ha. apply Hoi in Hx; [|exact Ha]. destruct Hx as (Hx & E1 & E2). split; intros E'; apply pp_inj in E'; destruct E' as [Ea Eb].
            * subst x. apply D_inj in Eb. congruence.
            * subst w. apply Hd. reflexivity. }
      split; [apply X|]. split; [|split; [apply X|]].
      + rewrite C2; [exact A2|]. intros a x Ha Hx. rewrite Eo in Hx by exact Ha. apply Hoi in Hx; [|exact Ha]. destruct Hx as (Hx & E1 & E2). split; intros E; apply pp_inj in E; destruct E as [Ea Eb].
        * subst w. apply Hd. reflexivity.
        * subst x. apply D_inj in Ea. congruence.
      + rewrite Cx by assumption. destruct A4 as [A4 A4']. split; [exact A4|lia].
  Qed.
End SyncPart.
