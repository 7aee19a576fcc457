(** Distributed reduce_measure: outcomes with amplitudes outside the first block. *)
From Verif Require Import Base M_Bits S_Bits L_Bits M_Kron S_Kron L_Kron L_Kron2 L_Kron3 M_Feed M_Measure S_Measure L_Measure1 L_Measure2 L_Measure3 L_Measure4 M_Pool S_Pool M_Net S_Net L_Net M_Worker S_Worker L_Worker1 L_Worker2 L_Worker3 L_Worker4 L_Worker5 L_Worker6 L_Worker9 L_Worker10 L_Worker13 L_Job L_Reduce1 L_Reduce2.

Lemma split_first {A} (f : A -> bool) l x : In x l -> f x = false -> exists l1 y l2, l = l1 ++ y :: l2 /\ f y = false /\ forall z, In z l1 -> f z = true.
Proof.
  induction l as [|z l IH]; intros Hx E; [destruct Hx|]. destruct (f z) eqn:Ez.
  - destruct Hx as [->|Hx]; [congruence|]. destruct (IH Hx E) as (l1 & y & l2 & -> & Hy & H1). exists (z :: l1), y, l2. split; [reflexivity|]. split; [exact Hy|]. intros w [<-|Hw]; auto.
  - exists [], z, l. split; [reflexivity|]. split; [exact Ez|]. intros w [].
Qed.
Lemma pfold_app {P M A B} (f : A -> B -> proc P M A) l1 l2 : forall a, peq (pfold f (l1 ++ l2) a) (pbind (pfold f l1 a) (pfold f l2)).
Proof.
  induction l1 as [|x l1 IH]; intros a; cbn [app pfold]; [apply peq_refl|]. eapply peq_trans; [|apply peq_sym, bind_assoc]. apply peq_bind; [apply peq_refl|]. intros b. apply IH.
Qed.

Section Stuck.
  Context {K : Type} {OK : OrdRing K}.
  Notation C := (Cx K).
  Notation msg := (msg K).
  Notation proc := (proc pid msg (ending K)).
  Variable cap : pid -> pid -> option nat.
  Notation go := (go pid_eqb cap).
  Context (rsqrt : K -> K) (ws : list wid) (cfg : wid -> worker_cfg) (job : Z) (room : nat).
  Hypothesis Hcap : capacities cap ws room.

  (** the manager collects confirmations, and some workers never send theirs *)
  Lemma manager_stuck (s : net pid msg (ending K)) sub k (good : wid -> bool) (cf : wid -> conf K) (q : wid -> proc) bad : NoDup sub -> incl sub ws ->
    procs s Mgr = pbind (receive_from_each_of sub) k -> (forall w, In w sub -> good w = true -> procs s (P w) = Send Mgr (MConf (cf w)) (q w)) -> (forall w, In w sub -> chans s (P w) Mgr = []) -> In bad sub -> good bad = false ->
    exists t w0 k', go s t /\ In w0 sub /\ good w0 = false /\ procs t Mgr = Recv (P w0) k' /\ chans t (P w0) Mgr = [] /\
      (forall w, In w sub -> good w = true -> procs t (P w) = q w) /\ (forall x, x <> Mgr -> (forall w, In w sub -> good w = true -> x <> P w) -> procs t x = procs s x) /\
      (forall x y, y <> Mgr -> chans t x y = chans s x y).
  Proof.
    intros Hn Hsub Hs Hq Hc Hbad Eb. destruct (split_first good sub bad Hbad Eb) as (l1 & w0 & l2 & El & E0 & Hl1).
    assert (Hn' := Hn). rewrite El in Hn'.
    assert (Hl2 : forall w, In w sub <-> In w l1 \/ w = w0 \/ In w l2). { intros w. rewrite El, in_app_iff. cbn [In]. split; intros [H|[H|H]]; auto. }
    assert (Hn1 : NoDup l1) by (clear - Hn'; induction l1 as [|x l IH]; [constructor|inversion Hn'; subst; constructor; [intros H; apply H1, in_or_app; auto|auto]]).
    set (gd := filter good sub). assert (Hgd : forall w, In w gd <-> In w sub /\ good w = true) by (intros w; apply filter_In).
    destruct (each_replies cap q (fun w => MConf (cf w)) gd (NoDup_filter _ Hn) s) as (t1 & G1 & PC1 & P1 & C1).
    { intros w Hw. apply Hgd in Hw. destruct Hw as [Hw Eg]. split; [apply Hq; assumption|]. split; [apply Hc, Hw|]. apply (Hcap w w); apply Hsub, Hw. }
    set (step := fun (confs : list (conf K)) (w : wid) => Recv (Wk w) (fun m => match m with MConf c => Ret (confs ++ [c]) | _ => Fail GenericException end) : M_Net.proc pid msg (list (conf K))).
    destruct (recast pid_eqb pid_eqb_ok cap t1 Mgr (pbind (pfold step l1 []) (fun cs => pbind (pfold step (w0 :: l2) cs) k))) as (t2 & G2 & P2 & P2' & C2).
    { rewrite P1 by (intros; discriminate). rewrite Hs. unfold receive_from_each_of. fold step. rewrite El. eapply peq_trans; [apply peq_bind; [apply pfold_app|intros; apply peq_refl]|]. apply bind_assoc. }
    destruct (each_confirmed cap cf l1 Hn1 t2 [] (fun cs => pbind (pfold step (w0 :: l2) cs) k) P2) as (t3 & G3 & P3 & P3' & C3 & C3').
    { intros w Hw. rewrite C2. apply PC1, Hgd. split; [apply Hl2; auto|apply Hl1, Hw]. }
    assert (Hw0 : ~ In w0 l1). { intros H. apply Hl1 in H. congruence. }
    exists t3, w0. eexists. split; [eapply go_trans; [exact G1|]; eapply go_trans; eassumption|]. split; [apply Hl2; auto|]. split; [exact E0|].
    split; [|split; [|split; [|split]]].
    - rewrite P3. cbn [pfold step pbind]. reflexivity.
    - rewrite C3', C2, C1; [apply Hc, Hl2; auto| |].
      + intros w Hw E. injection E as E. subst w. apply Hgd in Hw. destruct Hw. congruence.
      + intros w Hw E. injection E as E. subst w. contradiction.
    - intros w Hw Eg. rewrite P3', P2' by discriminate. apply PC1, Hgd. auto.
    - intros x Hx Hxg. rewrite P3', P2' by assumption. apply P1. intros w Hw. apply Hgd in Hw. destruct Hw. apply Hxg; assumption.
    - intros x y Hy. rewrite C3', C2, C1; [reflexivity| |]; intros w Hw E; injection E as _ E; congruence.
  Qed.
End Stuck.

Section Outside.
  Context {K : Type} {OK : OrdRing K}.
  Notation C := (Cx K).
  Notation msg := (msg K).
  Variable cap : pid -> pid -> option nat.
  Notation go := (go pid_eqb cap).
  Context (rsqrt : K -> K) (cfg : wid -> worker_cfg) (job : Z) (room : nat) (n bq : Z) (pool : list entry).
  Let ws : list wid := map fst pool.
  Let size := 2 ^ bq.
  Let N := 2 ^ (n - bq).
  Let rs := blks size N.
  Hypothesis Hbq : 0 <= bq <= n.
  Hypothesis Ht : tiles (2 ^ n) pool.
  Hypothesis Hb : blocks (2 ^ bq) pool.
  Hypothesis Hcfg : configured job ws cfg.
  Hypothesis Hcap : capacities cap ws room.
  Notation phase := (phase ws job).
  Let Hnd : NoDup ws := Hnd n bq pool Hbq Ht Hb.
  Let Hws : forall w : wid, In w ws <-> In (fst w) rs /\ In (snd w) rs := Hws n bq pool Hbq Ht Hb.
  Let Hsp : 0 < size := size_pos n bq Hbq.
  Let HN : N * size = 2 ^ n := Nsize n bq Hbq.
  Let HNp : 0 < N := N_pos n bq Hbq.
  Variables (indices : list Z) (r : K) (rest : list (wop K * K)) (envs : wid -> list (env K)) (bs : wid -> backend K) (full : list C) (a : range) (r2 : K) (m : Z) (p : K).
  Hypothesis HI : qubits_ok n indices.
  Let thr := reduce_threshold n indices.
  Let mop : measure_op K := mkMeasure indices None false true 0.
  Hypothesis Hf : zlen full = 2 ^ n.
  Hypothesis Hh : forall w, In w ws -> holds n full w (bs w).
  Hypothesis He : forall w, In w ws -> (4 <= length (envs w))%nat /\ forall e, In e (envs w) -> e_acc0 e = 0%r.
  Hypothesis Ha : In a rs.
  Hypothesis Hr2 : nth_error (map e_rand (envs (fw n pool indices a))) 1 = Some r2.
  Hypothesis Hdr : drawn n indices full r a r2 m.
  Hypothesis Ep : p = marginal n (measured_order n indices) (amp_at 0 full) m.
  Hypothesis Hp0 : rlt 0%r p.
  Hypothesis Hp1 : rle p 1%r.
  Let sj := job_net rsqrt n ws ((OMeasure mop, r) :: rest) cfg envs bs.
  Let als := al n pool indices.

  (** what worker w does when told the outcome *)
  Definition wres (w : wid) (e : env K) : res (backend K * conf K) := worker_measure rsqrt (cfg w) e (bs w) (mkMeasure indices (Some (m, p)) false true 0).
  Lemma wres_is w e : In w ws -> wres w e =
    do x <- reduce_measure rsqrt (e_rand e) (e_acc0 e) indices n (slice (fst w) full) (bk_arena (bs w)) (fst (fst w)) (fst (snd w)) (Some m) (Some p);
    Ok (mkBackend n (snd x) (slice (fst w) full), CProb (fst (fst x)) (snd (fst x))).
  Proof.
    intros Hw. unfold wres, worker_measure. destruct (Hcfg w Hw) as (_ & -> & _). destruct (Hh w Hw) as (E1 & E2 & _). destruct w as [wi wo]. cbn [m_soft m_reduce m_indices m_result option_map fst snd] in *. unfold bk_reduce_measure. rewrite E1, E2.
    destruct (reduce_measure _ _ _ _ _ _ _ _ _ _ _) as [x|e']; reflexivity.
  Qed.
  Lemma wres_oob w e x : In w ws -> wres w e = Raise x -> x = OOB.
  Proof.
    intros Hw E. rewrite (wres_is w e Hw) in E. assert (Hn0 : 0 <= n) by lia. destruct Hdr as (_ & Hm & _).
    assert (Ho := part_only_oob n indices Hn0 HI rsqrt (e_rand e) (e_acc0 e) (fst (fst w)) (fst (snd w)) (slice (fst w) full) (bk_arena (bs w)) m p Hm Hp0 Hp1).
    destruct (reduce_measure _ _ _ _ _ _ _ _ _ _ _) as [y|e']; [discriminate|]. cbn [bind] in E. injection E as <-. apply Ho. reflexivity.
  Qed.

  (** up to the point where the workers have been told the outcome *)
  Lemma reduce_told (kk : list wid * list wid * (Z * K) -> proc pid msg (ending K)) s : phase s 0 (pbind (send_reduce_measure r n ws mop) kk) (fun w => worker_run rsqrt (cfg w) (envs w) (bs w)) ->
    exists t env', go s t /\ phase t 0 (pbind (receive_from_each_of als) (fun _ => pbind (finish n pool indices m p) kk))
        (fun w => if inb w als then match wres w (hd (mkEnv 0%r 0%r []) (env' w)) with Ok bc => Send Mgr (MConf (snd bc)) (worker_run rsqrt (cfg w) (tl (env' w)) (fst bc)) | Raise e => Fail e end
                  else worker_run rsqrt (cfg w) (env' w) (bs w)) /\
      forall w, In w ws -> (2 <= length (env' w))%nat.
  Proof.
    intros S0.
    destruct (reduce_begin cap rsqrt cfg job room n bq pool Hbq Ht Hb Hcfg Hcap indices HI s 0 r kk envs bs full a r2 m p S0 Hf Hh) as (t1 & env' & G1 & S1 & He'); auto.
    { intros w Hw. destruct (He w Hw) as [X Y]. split; [lia|exact Y]. }
    assert (Hl : forall w, In w ws -> (2 <= length (env' w))%nat). { intros w Hw. rewrite (He' w Hw). destruct (He w Hw) as [X _]. rewrite skipn_length. destruct (inb _ _); lia. }
    destruct (phase_recast cap ws job t1 0 _ _ (pbind (send_to_each_of (do_measure_op mop m p true) als) (fun _ => pbind (receive_from_each_of als) (fun _ => pbind (finish n pool indices m p) kk))) (fun w => worker_run rsqrt (cfg w) (env' w) (bs w)) S1) as (t2 & G2 & S2).
    { apply bind_assoc. } { intros; apply peq_refl. }
    destruct (rpc_begin cap rsqrt ws cfg job room Hcap t2 0 (do_measure_op mop m p true) als (fun _ => pbind (receive_from_each_of als) (fun _ => pbind (finish n pool indices m p) kk)) env' bs) as (t3 & G3 & S3).
    { exact (al_nodup n bq pool Hbq Ht Hb indices). } { intros w Hw. apply (al_in n bq pool Hbq Ht Hb indices) in Hw. apply Hw. } { exact S2. }
    exists t3, env'. split; [eapply go_trans; [exact G1|]; eapply go_trans; eassumption|]. split; [|exact Hl]. eapply phase_ext; [exact S3|].
    intros w Hw. cbn beta. destruct (inb w als); [|reflexivity]. specialize (Hl w Hw). destruct (env' w) as [|e es]; [cbn in Hl; lia|]. cbn [hd tl]. unfold body, do_measure_op. cbn [worker_op m_indices m_top_k mop]. unfold wres. cbn [pbind].
    destruct (worker_measure _ _ _ _ _) as [bc|x]; reflexivity.
  Qed.

  Lemma reduce_outside x : 0 <= x < 2 ^ n -> reg n (measured_order n indices) x = m -> 2 ^ bq <= x ->
    always_ends pid_eqb cap sj (fun s' => exists w k, In w ws /\ procs s' Mgr = Recv (Wk w) k /\ chans s' (Wk w) Mgr = [] /\ procs s' (Wk w) = Fail OOB).
  Proof.
    intros Hx Ex Hlt. assert (Hn0 : 0 <= n) by lia.
    pose (m0 := pbind (send_op r n ws (OMeasure mop)) (fun _ => Ret EIdle : proc pid msg (ending K))).
    set (s := with_proc pid_eqb sj Mgr m0).
    assert (S0 : phase s 0 m0 (fun w => worker_run rsqrt (cfg w) (envs w) (bs w))).
    { destruct (start_phase rsqrt cfg job pool (manager_run n ws ((OMeasure mop, r) :: rest) [] []) envs bs) as [H1 H2 H3 H4 H5]. constructor; auto. }
    destruct (phase_recast cap ws job s 0 _ _ (pbind (send_reduce_measure r n ws mop) (fun x => let '(_, _, _) := x in Ret EIdle)) (fun w => worker_run rsqrt (cfg w) (envs w) (bs w)) S0) as (t0 & G0 & S1).
    { unfold m0, mop. cbn [send_op m_soft m_reduce]. eapply peq_trans; [apply bind_assoc|]. apply peq_bind; [apply peq_refl|]. intros [[u v] w]. apply peq_refl. } { intros; apply peq_refl. }
    destruct (reduce_told _ t0 S1) as (t1 & env' & G1 & [H1 H2 H3 H4 H5] & Hl).
    assert (Hal : forall w, In w als <-> In w ws /\ fst (snd w) <= thr) by exact (al_in n bq pool Hbq Ht Hb indices).
    pose (res w := wres w (hd (mkEnv 0%r 0%r []) (env' w))).
    pose (good w := match res w with Ok _ => true | Raise _ => false end).
    pose (cf w := match res w with Ok bc => snd bc | Raise _ => CDone end).
    pose (q w := match res w with Ok bc => worker_run rsqrt (cfg w) (tl (env' w)) (fst bc) | Raise e => Fail e end : proc pid msg (ending K)).
    (* the worker that fails *)
    set (j := reg n (unmeasured_order n indices) x).
    assert (Hj : 0 <= j < thr) by (destruct (make_row_mask_ok n indices Hn0 HI) as (mask & _ & HM); exact (reg_uo_range n indices mask Hn0 HI HM x)).
    set (jb := j / size). assert (Hjb : 0 <= jb /\ jb * size <= j < jb * size + size).
    { unfold jb. pose proof (Z.div_pos j size). pose proof (Z.mul_div_le j size). pose proof (Z.mul_succ_div_gt j size). lia. }
    assert (Hthr : thr <= 2 ^ n). { apply Z.pow_le_mono_r; [lia|]. pose proof (zlen_nonneg indices). lia. }
    assert (HjN : jb < N) by (apply Z.div_lt_upper_bound; lia).
    set (bad := (blk size 0, blk size jb) : wid).
    assert (Hbad : In bad als). { apply Hal. split; [apply Hws; split; apply blks_in; [exists 0|exists jb]; split; auto; lia|]. unfold bad, blk. cbn [fst snd]. lia. }
    assert (Hbw : In bad ws) by (apply Hal, Hbad).
    assert (Ebad : good bad = false).
    { unfold good, res. rewrite (wres_is bad _ Hbw). destruct (Hh bad Hbw) as (_ & E2 & E3). destruct (slice_inside n bq Hbq (fst bad) full) as [_ Hsl]; [apply Hws, Hbw|exact Hf|]. fold size in Hsl. rewrite E2, Hsl in E3.
      destruct Hdr as (_ & Hm & _). rewrite (part_oob n indices Hn0 HI rsqrt _ _ _ _ _ _ m p Hm Hp0 Hp1 x Hx Ex); [reflexivity| |]; rewrite ?E3, ?Hsl; unfold bad, blk; cbn [fst snd]; fold j; lia. }
    destruct (manager_stuck cap ws room Hcap t1 als
      (fun _ => pbind (finish n pool indices m p) (fun x => let '(_, _, _) := x in Ret EIdle))
      good cf q bad) as (t2 & w0 & k' & G2 & Hw0 & E0 & P0 & C0 & Pg & Px & Cx).
    { exact (al_nodup n bq pool Hbq Ht Hb indices). } { intros w Hw. apply Hal, Hw. } { exact H1. }
    { intros w Hw Eg. rewrite H2 by (apply Hal, Hw). assert (X := Hw). apply inb_ok in X. rewrite X. unfold good in Eg. unfold cf, q. fold (res w). destruct (res w); [reflexivity|discriminate]. }
    { intros w Hw. apply H4, Hal, Hw. } { exact Hbad. } { exact Ebad. }
    assert (Pbad : forall w, In w als -> good w = false -> procs t2 (P w) = Fail OOB).
    { intros w Hw Eg. rewrite Px; [|discriminate|intros w' _ Eg' E; apply P_inj in E; congruence]. rewrite H2 by (apply Hal, Hw). assert (X := Hw). apply inb_ok in X. rewrite X. fold (res w). unfold good in Eg. destruct (res w) as [bc|e] eqn:Er; [discriminate|]. rewrite (wres_oob w _ e (proj1 (proj1 (Hal w) Hw)) Er). reflexivity. }
    destruct (go_with pid_eqb pid_eqb_ok cap (fun _ _ => True) (fun e q => q = pbind (send_to_each_of OClose ws) (fun _ => Fail e)) Mgr s t2 (manager_run n ws ((OMeasure mop, r) :: rest) [] [])) as (mq & G & Hmq).
    { eapply go_trans; [exact G0|]. eapply go_trans; eassumption. }
    { change (procs s Mgr) with m0. unfold m0. cbn [manager_run]. apply prel_try; [|reflexivity]. intros y. constructor. exact I. }
    rewrite P0 in Hmq. assert (Emq : exists k'', mq = Recv (P w0) k'') by (inversion Hmq; subst; eauto). destruct Emq as (k'' & ->).
    set (t := with_proc pid_eqb t2 Mgr (Recv (P w0) k'')) in *.
    assert (G' : go sj t). { eapply go_eqv_l; [|exact G]. apply eqv_intro; [|reflexivity]. intros [|w]; reflexivity. }
    destruct G' as [l G']. apply (confluence pid_eqb pid_eqb_ok cap sj l t _ G').
    - intros [|w]; unfold exec.
      + change (procs t Mgr) with (Recv (P w0) k'' : proc pid msg (ending K)). assert (C0' : chans t (P w0) Mgr = []) by exact C0. cbv iota beta. rewrite C0'. reflexivity.
      + change (procs t (Wk w)) with (procs t2 (P w)). destruct (inb w als) eqn:E.
        * apply inb_ok in E. destruct (good w) eqn:Eg; [|rewrite (Pbad w E Eg); reflexivity]. rewrite (Pg w E Eg). unfold q. unfold good in Eg. destruct (res w); [|discriminate]. rewrite worker_run_eq.
          change (chans t Mgr (Wk w)) with (chans t2 Mgr (P w)). rewrite Cx by discriminate. rewrite (proj1 (H4 w (proj1 (proj1 (Hal w) E)))). reflexivity.
        * rewrite Px; [|discriminate|intros w' Hw' _ E'; apply P_inj in E'; subst w'; apply inb_no in E; contradiction]. destruct (inb w ws) eqn:Ew.
          -- apply inb_ok in Ew. rewrite (H2 w Ew), E, worker_run_eq. change (chans t Mgr (Wk w)) with (chans t2 Mgr (P w)). rewrite Cx by discriminate. rewrite (proj1 (H4 w Ew)). reflexivity.
          -- apply inb_no in Ew. rewrite (H3 w Ew). reflexivity.
    - intros t' [Hp Hc]. exists w0. assert (E := Hp Mgr). change (procs t Mgr) with (Recv (P w0) k'' : proc pid msg (ending K)) in E. inversion E. subst. eexists. split; [apply Hal, Hw0|]. split; [reflexivity|]. split; [rewrite <- Hc; exact C0|].
      assert (E2 := Hp (Wk w0)). change (procs t (Wk w0)) with (procs t2 (P w0)) in E2. rewrite (Pbad w0 Hw0 E0) in E2. inversion E2. reflexivity.
  Qed.
End Outside.
