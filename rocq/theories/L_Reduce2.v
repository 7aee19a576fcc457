(** Distributed reduce_measure: drawing the outcome. *)
From Verif Require Import Base M_Bits S_Bits L_Bits M_Kron S_Kron L_Kron L_Kron2 L_Kron3 M_Feed M_Measure S_Measure L_Measure1 L_Measure2 L_Measure3 L_Measure4 M_Pool S_Pool M_Net S_Net L_Net M_Worker S_Worker L_Worker1 L_Worker2 L_Worker3 L_Worker4 L_Worker5 L_Worker6 L_Worker9 L_Worker10 L_Worker13 L_Job L_Reduce1.

Lemma filter_all {A} (f : A -> bool) l : (forall x, In x l -> f x = true) -> filter f l = l.
Proof. induction l as [|x l IH]; intros H; cbn [filter]; [reflexivity|]. rewrite (H x) by (left; reflexivity). rewrite IH by (intros y Hy; apply H; right; exact Hy). reflexivity. Qed.

Section ReduceBegin.
  Context {K : Type} {OK : OrdRing K}.
  Notation C := (Cx K).
  Notation msg := (msg K).
  Add Ring KRingR2 : (@rth K _).
  Variable cap : pid -> pid -> option nat.
  Notation go := (go pid_eqb cap).
  Context (rsqrt : K -> K) (cfg : wid -> worker_cfg) (job : Z) (room : nat) (n bq : Z) (pool : list entry).
  Let ws : list wid := map fst pool.
  Let size := 2 ^ bq.
  Let N := 2 ^ (n - bq).
  Let rs := blks size N.
  Hypothesis Hbq : 0 <= bq <= n.
  Hypothesis Ht : tiles (2 ^ n) pool.
  Hypothesis Hb : blocks (2 ^ bq) pool.
  Hypothesis Hcfg : configured job ws cfg.
  Hypothesis Hcap : capacities cap ws room.
  Notation phase := (phase ws job).
  Let Hnd : NoDup ws := Hnd n bq pool Hbq Ht Hb.
  Let Hws : forall w : wid, In w ws <-> In (fst w) rs /\ In (snd w) rs := Hws n bq pool Hbq Ht Hb.
  Let Hnr : NoDup rs := Hnr n bq Hbq.
  Let Hsp : 0 < size := size_pos n bq Hbq.
  Let HN : N * size = 2 ^ n := Nsize n bq Hbq.
  Let HNp : 0 < N := N_pos n bq Hbq.

  Variable indices : list Z.
  Hypothesis HI : qubits_ok n indices.
  Let thr := reduce_threshold n indices.
  Definition fw (a : range) : wid := match find (sel (reduce_threshold n indices) a) (map fst pool) with Some w => w | None => (a, a) end.
  Definition al : list wid := concat (map snd (get_workers_up_to_output (map fst pool) (reduce_threshold n indices))).
  Lemma thr_nonneg : 0 <= thr.
  Proof. apply Z.pow_nonneg. lia. Qed.
  Lemma zero_in : In (blk size 0) rs.
  Proof. apply blks_in. exists 0. split; [lia|reflexivity]. Qed.
  Lemma fw_ok a : In a rs -> find (sel thr a) ws = Some (fw a) /\ In (fw a) ws /\ fst (fw a) = a.
  Proof.
    intros Ha. unfold fw. fold ws thr. destruct (find (sel thr a) ws) as [w|] eqn:E.
    - split; [reflexivity|]. apply find_some in E. destruct E as [H1 H2]. split; [exact H1|]. unfold sel in H2. apply andb_prop in H2. apply range_eqb_ok. apply H2.
    - exfalso. assert (Hin : In (a, blk size 0) ws) by (apply Hws; cbn [fst snd]; split; [exact Ha|exact zero_in]). apply (find_none _ _ E) in Hin. unfold sel in Hin. cbn [fst snd] in Hin. rewrite range_eqb_refl in Hin. pose proof thr_nonneg. unfold blk in Hin. cbn [fst] in Hin. lia.
  Qed.
  Lemma al_nodup : NoDup al.
  Proof. apply (all_reduction thr ws Hnd). Qed.
  Lemma al_in w : In w al <-> In w ws /\ fst (snd w) <= thr.
  Proof. apply (all_reduction thr ws Hnd). Qed.
  Lemma inputs_are : sort_ranges (map fst (get_workers_up_to_output ws thr)) = rs.
  Proof.
    apply sort_blks; [exact Hbq|]. destruct (groups_inv thr ws) as (H1 & H2 & H3). cbv zeta in *. apply NoDup_Permutation; [exact H1|exact Hnr|]. intros a. rewrite H3. split.
    - intros (w & Hw & E). unfold sel in E. apply andb_prop in E. destruct E as [E _]. apply range_eqb_ok in E. subst a. apply Hws in Hw. apply Hw.
    - intros Ha. destruct (fw_ok a Ha) as (E & _). apply find_some in E. eauto.
  Qed.
  Lemma firsts_are : mmap (first_of (get_workers_up_to_output ws thr)) rs = Ok (map fw rs).
  Proof.
    assert (G : forall l, (forall a, In a l -> In a rs) -> mmap (first_of (get_workers_up_to_output ws thr)) l = Ok (map fw l)).
    { induction l as [|a l IH]; intros Hl; cbn [mmap map]; [reflexivity|]. rewrite (first_of_ok thr ws a (fw a)) by (apply fw_ok, Hl; left; reflexivity). cbn [bind]. rewrite IH by (intros b Hb'; apply Hl; right; exact Hb'). reflexivity. }
    apply G. auto.
  Qed.
  Lemma fw_nodup : NoDup (map fw rs).
  Proof.
    assert (E : map fst (map fw rs) = rs). { rewrite map_map. rewrite <- (map_id rs) at 2. apply map_ext_in. intros a Ha. apply fw_ok, Ha. }
    apply (NoDup_map_inv fst). rewrite E. exact Hnr.
  Qed.

  Let mop : measure_op K := mkMeasure indices None false true 0.
  Definition finish (m : Z) (p : K) : proc pid msg (list wid * list wid * (Z * K)) :=
    pdo _ <- map_workers_via_op (OSync (Some (reduce_threshold n indices)) false) al;
    let keep w := (snd (fst w) <=? reduce_threshold n indices) && (snd (snd w) <=? reduce_threshold n indices) in
    pdo _ <- send_to_each_of OClose (filter (fun w => negb (keep w)) ws);
    Ret (filter keep ws, filter (fun w => negb (keep w)) ws, (m, p)).

  Lemma reduce_begin s L r (k : list wid * list wid * (Z * K) -> proc pid msg (ending K)) envs bs (full : list C) a r2 m p :
    phase s L (pbind (send_reduce_measure r n ws mop) k) (fun w => worker_run rsqrt (cfg w) (envs w) (bs w)) ->
    zlen full = 2 ^ n -> (forall w, In w ws -> holds n full w (bs w)) ->
    (forall w, In w ws -> (2 <= length (envs w))%nat /\ forall e, In e (envs w) -> e_acc0 e = 0%r) ->
    In a rs -> nth_error (map e_rand (envs (fw a))) 1 = Some r2 -> drawn n indices full r a r2 m ->
    p = marginal n (measured_order n indices) (amp_at 0 full) m ->
    exists t env', go s t /\ phase t L (pbind (map_workers_via_op (do_measure_op mop m p true) al) (fun _ => pbind (finish m p) k)) (fun w => worker_run rsqrt (cfg w) (env' w) (bs w)) /\
      forall w, In w ws -> env' w = skipn (if inb w (map fw rs) then 2 else 0) (envs w).
  Proof.
    intros Hs Hf Hh He Ha Hr2 ((Hr1 & Hr1') & Hm & Hd1 & Hd2) Ep.
    set (fwl := map fw rs) in *. assert (Hdn : NoDup fwl) by exact fw_nodup.
    assert (Hfw : forall w, In w fwl -> In w ws /\ In (fst w) rs /\ w = fw (fst w)).
    { intros w Hw. unfold fwl in Hw. apply in_map_iff in Hw. destruct Hw as (b & <- & Hb'). destruct (fw_ok b Hb') as (_ & H1 & H2). rewrite H2. auto. }
    assert (Hdin : forall w, In w fwl -> In w ws) by (intros w Hw; apply Hfw, Hw).
    assert (He4 : forall w, In w fwl -> exists e1 e2 es, envs w = e1 :: e2 :: es /\ e_acc0 e1 = 0%r /\ e_acc0 e2 = 0%r /\ (w = fw a -> e_rand e2 = r2)).
    { intros w Hw. destruct (He w (Hdin w Hw)) as [Hl H0]. destruct (envs w) as [|e1 [|e2 es]] eqn:E; cbn [length] in Hl; try lia.
      exists e1, e2, es. split; [reflexivity|]. split; [apply H0; left; reflexivity|]. split; [apply H0; right; left; reflexivity|]. intros ->. rewrite E in Hr2. cbn in Hr2. congruence. }
    destruct (dg_split n bq Hbq a Ha) as (pre & post & Ers & Hpre). destruct (Hpre full Hf) as [Ep1 Ep2]. rewrite Ep1 in Hr1. rewrite Ep2 in Hr1'. fold size N in Ers. fold rs in Ers.
    assert (Edg : fwl = map fw pre ++ fw a :: map fw post) by (unfold fwl; rewrite Ers, map_app; reflexivity).
    assert (Hpp : forall b, In b (pre ++ post) -> In b rs /\ b <> a). { intros b Hb'. assert (X := Hnr). rewrite Ers in X. apply NoDup_remove_2 in X. split; [rewrite Ers; apply in_app_iff in Hb'; apply in_app_iff; cbn [In]; tauto|]. intros ->. contradiction. }
    assert (Hfst : forall l, (forall b, In b l -> In b rs) -> forall g : range -> K, sum (map fw l) (fun w => g (fst w)) = sum l g).
    { intros l Hl g. rewrite sum_map. apply sum_ext. intros b Hb'. destruct (fw_ok b (Hl b Hb')) as (_ & _ & ->). reflexivity. }
    assert (Hpre' : forall b, In b pre -> In b rs) by (intros b Hb'; apply Hpp, in_or_app; auto).
    pose (tp := fun w : wid => tprob (slice (fst w) full)).
    set (k1 := fun confs : list (conf K) => pbind (
      pdo first_worker <- match select 0 confs r with
                        | Some i => lift (pyget fwl (Z.of_nat i))
                        | None => Fail KeyError
                        end;
      pdo _ <- Send (Wk first_worker) (MOp (get_bits_op mop None)) (Ret tt);
      pdo c <- recv_conf first_worker;
      let measured_bits := conf_bits c in
      pdo confs <- map_workers_via_op (get_bits_op mop (Some measured_bits))
                     (filter (fun w => negb (range_eqb (fst w) (fst first_worker))) fwl);
      let measured_prob := (conf_prob c + fold_left (fun acc c => acc + conf_prob c) confs 0)%r in
      pdo _ <- map_workers_via_op (do_measure_op mop measured_bits measured_prob true) al;
      finish measured_bits measured_prob) k).
    destruct (phase_recast cap ws job s L _ _ (pbind (map_workers_via_op OTotalProb fwl) k1) (fun w => worker_run rsqrt (cfg w) (envs w) (bs w)) Hs) as (t0 & G0 & S0).
    { unfold send_reduce_measure. cbv zeta. cbn [m_indices mop]. fold thr. rewrite inputs_are, firsts_are. cbn [lift]. change (pbind (Ret (map fw rs)) ?f) with (f (map fw rs)). cbv beta. eapply peq_trans; [apply bind_assoc|]. apply peq_refl. }
    { intros; apply peq_refl. }
    destruct (rpc_local cap rsqrt ws cfg job room Hcap t0 L OTotalProb fwl k1 envs bs bs (fun w => CProb 0 (tp w)) Hdn Hdin ltac:(discriminate) S0) as (t1 & G1 & S1).
    { intros w Hw. destruct (He4 w Hw) as (e1 & e2 & es & Ee & A1 & _). eexists _, _. split; [exact Ee|]. cbn [worker_op]. unfold bk_total_prob. rewrite A1, prob_magnitude_0. destruct (Hh w (Hdin w Hw)) as (_ & -> & _). reflexivity. }
    { reflexivity. }
    set (env1 := fun w => if inb w fwl then tl (envs w) else envs w) in *.
    (* the selected worker draws *)
    set (i := length pre). destruct (fw_ok a Ha) as (_ & Hfa & Efa).
    assert (Esel : select 0 (map (fun w => CProb 0 (tp w)) fwl) r = Some i).
    { rewrite Edg. rewrite (select_ok n bq) with (f := tp); [unfold i; rewrite map_length; reflexivity| | |].
      - intros w _. apply tprob_nonneg.
      - unfold tp. rewrite (Hfst pre Hpre' (fun b => tprob (slice b full))). exact Hr1.
      - unfold tp. rewrite (Hfst pre Hpre' (fun b => tprob (slice b full))), Efa. exact Hr1'. }
    set (oth := map fw pre ++ map fw post) in *.
    set (k2 := fun c : conf K => pbind (
        pdo confs <- map_workers_via_op (get_bits_op mop (Some (conf_bits c))) oth;
        let measured_prob := (conf_prob c + fold_left (fun acc c => acc + conf_prob c) confs 0)%r in
        pdo _ <- map_workers_via_op (do_measure_op mop (conf_bits c) measured_prob true) al;
        finish (conf_bits c) measured_prob) k).
    assert (Efil : filter (fun w => negb (range_eqb (fst w) (fst (fw a)))) fwl = oth).
    { rewrite Edg, filter_app. cbn [filter]. rewrite range_eqb_refl. cbn [negb]. unfold oth. f_equal; apply filter_all; intros w Hw; apply in_map_iff in Hw; destruct Hw as (b & <- & Hb'); destruct (Hpp b ltac:(apply in_or_app; auto)) as [Hb1 Hb2]; destruct (fw_ok b Hb1) as (_ & _ & ->); rewrite Efa, range_eqb_ne by exact Hb2; reflexivity. }
    destruct (phase_recast cap ws job t1 L _ _ (pbind (map_workers_via_op (get_bits_op mop None) [fw a]) (fun cs => k2 (hd CDone cs))) (fun w => worker_run rsqrt (cfg w) (env1 w) (bs w)) S1) as (t2 & G2 & S2).
    { unfold k1. rewrite Esel. assert (Eg : pyget fwl (Z.of_nat i) = Ok (fw a)).
      { unfold pyget. assert (X : (Z.of_nat i <? 0) = false) by lia. rewrite !X, Edg, Nat2Z.id, nth_error_app2 by (rewrite map_length; unfold i; lia). rewrite map_length. unfold i. rewrite Nat.sub_diag. reflexivity. }
      rewrite Eg. cbn [lift]. change (pbind (Ret (fw a)) ?f) with (f (fw a)). cbv beta zeta. rewrite Efil.
      eapply peq_trans; [apply bind_assoc|]. eapply peq_trans; [|apply (bind_single _ (fw a))]. apply peq_bind; [apply peq_refl|]. intros _. apply bind_assoc. }
    { intros; apply peq_refl. }
    pose (pm := fun w : wid => marginal n (measured_order n indices) (amp_at (fst (fst w)) (slice (fst w) full)) m).
    assert (Hda : In (fw a) fwl) by (rewrite Edg; apply in_or_app; right; left; reflexivity).
    assert (Hst : forall w, In w ws -> bk_n (bs w) = n /\ bk_state (bs w) = slice (fst w) full /\ c_id (cfg w) = w /\ slice_ok n (fst (fst w)) (slice (fst w) full)).
    { intros w Hw. destruct (Hh w Hw) as (E1 & E2 & E3). assert (Hw' := Hw). apply Hws in Hw'. destruct (slice_inside n bq Hbq (fst w) full (proj1 Hw') Hf) as [X Y]. destruct (Hcfg w Hw) as (_ & Eid & _). auto 10. }
    assert (Hn0 : 0 <= n) by lia.
    destruct (rpc_local cap rsqrt ws cfg job room Hcap t2 L (get_bits_op mop None) [fw a] (fun cs => k2 (hd CDone cs)) env1 bs bs (fun w => CProb m (pm w))) as (t3 & G3 & S3).
    { repeat constructor. intros []. } { intros w [<-|[]]. apply Hdin, Hda. } { discriminate. } { exact S2. }
    { intros w [<-|[]]. destruct (He4 _ Hda) as (e1 & e2 & es & Ee & _ & A2 & A3). unfold env1. assert (X := Hda). apply inb_ok in X. rewrite X, Ee. cbn [tl]. eexists _, _. split; [reflexivity|].
      destruct (Hst _ (Hdin _ Hda)) as (E1 & E2 & Eid & Hsl). cbn [worker_op get_bits_op]. unfold worker_measure. rewrite Eid. destruct (fw a) as [fi fo] eqn:Efw. cbn [fst] in Efa. subst fi. cbn [m_soft m_indices m_result mop option_map fst snd] in *.
      unfold bk_soft_measure. rewrite E1, E2, A2, (A3 eq_refl). cbn [fst snd].
      assert (Q : soft_measure r2 0%r indices n (slice a full) None (fst a) = Ok (m, pm (a, fo))).
      { assert (Hup : rle (below n (measured_order n indices) (amp_at (fst a) (slice a full)) (m + 1)) (tprob (slice a full))).
        { rewrite <- (B_all n indices (fst a) (slice a full) Hn0 HI Hsl). apply below_mono. lia. }
        apply (born n indices (fst a) (slice a full) Hn0 HI Hsl); [|eapply rle_trans; [exact Hd2|exact Hup]|].
        - eapply rle_lt_trans; [|exact Hd1]. apply sum_nonneg. intros; apply marginal_nonneg.
        - repeat split; auto; lia. }
      rewrite Q. reflexivity. }
    { reflexivity. }
    set (env2 := fun w => if inb w [fw a] then tl (env1 w) else env1 w) in *. cbn [map hd] in S3.
    (* the others report the probability of its outcome *)
    unfold k2 in S3. cbn [conf_bits conf_prob] in S3.
    set (k3 := fun confs : list (conf K) => pbind (
        let measured_prob := (pm (fw a) + fold_left (fun acc c => acc + conf_prob c) confs 0)%r in
        pdo _ <- map_workers_via_op (do_measure_op mop m measured_prob true) al;
        finish m measured_prob) k).
    destruct (phase_recast cap ws job t3 L _ _ (pbind (map_workers_via_op (get_bits_op mop (Some m)) oth) k3) (fun w => worker_run rsqrt (cfg w) (env2 w) (bs w)) S3) as (t4 & G4 & S4).
    { apply bind_assoc. } { intros; apply peq_refl. }
    assert (Hoth : NoDup oth /\ (forall w, In w oth <-> In w fwl /\ w <> fw a)).
    { assert (X := Hdn). rewrite Edg in X. split; [eapply NoDup_remove_1; exact X|]. intros w. apply NoDup_remove_2 in X. rewrite Edg. unfold oth. rewrite !in_app_iff. cbn [In]. split; [|intros ([H|[H|H]] & Hne); [auto|congruence|auto]]. intros H. split; [tauto|]. intros ->. apply X. apply in_or_app. exact H. }
    destruct Hoth as [Hon Hoi].
    assert (Henv2 : forall w, In w oth -> exists e es, env2 w = e :: es).
    { intros w Hw. apply Hoi in Hw. destruct Hw as [Hw Hne]. unfold env2. destruct (inb w [fw a]) eqn:E; [apply inb_ok in E; destruct E as [<-|[]]; contradiction|]. unfold env1. assert (X := Hw). apply inb_ok in X. rewrite X.
      destruct (He4 w Hw) as (e1 & e2 & es & -> & _). cbn [tl]. eauto. }
    destruct (rpc_local cap rsqrt ws cfg job room Hcap t4 L (get_bits_op mop (Some m)) oth k3 env2 bs bs (fun w => CProb m (pm w)) Hon) as (t5 & G5 & S5).
    { intros w Hw. apply Hdin, Hoi, Hw. } { discriminate. } { exact S4. }
    { intros w Hw. destruct (Henv2 w Hw) as (e & es & Ee). exists e, es. split; [exact Ee|]. destruct (Hst w) as (E1 & E2 & Eid & Hsl); [apply Hdin, Hoi, Hw|].
      cbn [worker_op get_bits_op]. unfold worker_measure. rewrite Eid. destruct w as [wi wo]. cbn [m_soft m_indices m_result mop option_map fst snd] in *. unfold bk_soft_measure. rewrite E1, E2.
      rewrite soft_forced by auto. reflexivity. }
    { reflexivity. }
    set (env3 := fun w => if inb w oth then tl (env2 w) else env2 w) in *.
    assert (Esum : (pm (fw a) + fold_left (fun acc c => acc + conf_prob c) (map (fun w => CProb m (pm w)) oth) 0)%r = p).
    { assert (X : forall l acc, fold_left (fun acc c => acc + conf_prob c)%r (map (fun w => CProb m (pm w)) l) acc = (acc + sum l pm)%r) by (induction l as [|w l IH]; intros acc; cbn [map fold_left sum conf_prob]; [|rewrite IH]; ring).
      rewrite X, Ep, <- (marginal_parts n _ full size N m Hsp (Z.lt_le_incl _ _ HNp) HN Hf). fold rs. rewrite Ers. unfold oth, pm. rewrite !sum_app.
      rewrite (Hfst pre Hpre' (fun b => marginal n (measured_order n indices) (amp_at (fst b) (slice b full)) m)).
      rewrite (Hfst post (fun b Hb' => proj1 (Hpp b (in_or_app _ _ _ (or_intror Hb')))) (fun b => marginal n (measured_order n indices) (amp_at (fst b) (slice b full)) m)). cbn [sum]. rewrite Efa. ring. }
    unfold k3 in S5. rewrite Esum in S5. cbv zeta in S5.
    destruct (phase_recast cap ws job t5 L _ _ (pbind (map_workers_via_op (do_measure_op mop m p true) al) (fun _ => pbind (finish m p) k)) (fun w => worker_run rsqrt (cfg w) (env3 w) (bs w)) S5) as (t6 & G6 & S6).
    { apply bind_assoc. } { intros; apply peq_refl. }
    exists t6, env3. split; [do 6 (eapply go_trans; [eassumption|]); exact G6|]. split; [exact S6|].
    intros w Hw. unfold env3. destruct (inb w fwl) eqn:X.
    - assert (Hw' := X). apply inb_ok in Hw'. destruct (He4 w Hw') as (e1 & e2 & es & Ee & _). rewrite Ee. destruct (inb w oth) eqn:E.
      + apply inb_ok, Hoi in E. unfold env2. destruct (inb w [fw a]) eqn:E2; [apply inb_ok in E2; destruct E2 as [<-|[]]; tauto|]. unfold env1. rewrite X, Ee. reflexivity.
      + apply inb_no in E. assert (w = fw a) as ->. { destruct (wid_eqb w (fw a)) eqn:E2; [apply wid_eqb_ok, E2|]. exfalso. apply E, Hoi. split; [exact Hw'|]. intros E3. apply wid_eqb_ok in E3. congruence. }
        unfold env2. assert (Y : inb (fw a) [fw a] = true) by (apply inb_ok; left; reflexivity). rewrite Y. unfold env1. rewrite X, Ee. reflexivity.
    - assert (Hw' := X). apply inb_no in Hw'. cbn [skipn]. destruct (inb w oth) eqn:E; [apply inb_ok, Hoi in E; tauto|]. unfold env2. destruct (inb w [fw a]) eqn:E2; [apply inb_ok in E2; destruct E2 as [<-|[]]; contradiction|]. unfold env1. rewrite X. reflexivity.
  Qed.
End ReduceBegin.
