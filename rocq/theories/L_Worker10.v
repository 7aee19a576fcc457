(** A measurement by the pool. *)
From Verif Require Import Base M_Bits S_Bits L_Bits M_Kron S_Kron L_Kron L_Kron2 L_Kron3 M_Feed M_Measure S_Measure L_Measure1 L_Measure2 L_Measure3 L_Measure4 M_Pool S_Pool M_Net S_Net L_Net M_Worker S_Worker L_Worker1 L_Worker2 L_Worker3 L_Worker4 L_Worker5 L_Worker6 L_Worker9 L_Job.

Section MeasStep.
  Context {K : Type} {OK : OrdRing K}.
  Notation C := (Cx K).
  Notation msg := (msg K).
  Add Ring KRingW10 : (@rth K _).
  Variable cap : pid -> pid -> option nat.
  Notation go := (go pid_eqb cap).
  Context (rsqrt : K -> K) (cfg : wid -> worker_cfg) (job : Z) (room : nat) (n bq : Z) (pool : list entry).
  Let ws : list wid := map fst pool.
  Let size := 2 ^ bq.
  Let N := 2 ^ (n - bq).
  Let rs := blks size N.
  Let sz := Z.to_nat size.
  Hypothesis Hbq : 0 <= bq <= n.
  Hypothesis Ht : tiles (2 ^ n) pool.
  Hypothesis Hb : blocks (2 ^ bq) pool.
  Hypothesis Hcfg : configured job ws cfg.
  Hypothesis Hreg : connected ws cfg.
  Hypothesis Hcap : capacities cap ws room.
  Notation phase := (phase ws job).
  Let Hnd : NoDup ws := Hnd n bq pool Hbq Ht Hb.
  Let Hws : forall w : wid, In w ws <-> In (fst w) rs /\ In (snd w) rs := Hws n bq pool Hbq Ht Hb.
  Let Hnr : NoDup rs := Hnr n bq Hbq.
  Let Hsp : 0 < size := size_pos n bq Hbq.
  Let HN : N * size = 2 ^ n := Nsize n bq Hbq.
  Let HNp : 0 < N := N_pos n bq Hbq.
  Let dgl : list wid := dg n bq.
  Let Hdg : forall w : wid, In w dgl <-> In w ws /\ fst w = snd w := dg_in n bq pool Hbq Ht Hb.
  Let Hdn : NoDup dgl := dg_nodup n bq Hbq.

  Lemma slice_inside a (full : list C) : In a rs -> zlen full = 2 ^ n -> slice_ok n (fst a) (slice a full) /\ zlen (slice a full) = size.
  Proof.
    intros Ha Hf. assert (E : zlen (slice a full) = size).
    { assert (Ha' := Ha). apply blks_in in Ha'. destruct Ha' as (i & Hi & ->). apply slice_length with (N := N); [exact Hsp|congruence|exact Hi]. }
    split; [|exact E]. destruct (range_bounds n bq Hbq a Ha) as [H1 H2]. split; [exact H1|]. rewrite E. fold size in H2. lia.
  Qed.

  (** what a diagonal worker holds after its part of the measurement *)
  Lemma measured_slice indices m s a (full : list C) arena : In a rs -> zlen full = 2 ^ n -> zlen arena = size ->
    measure_out n indices (fst a) (fst a) (slice a full) arena m s = slice a (map (collapsed n indices m s (amp_at 0 full)) (zrange 0 (2 ^ n))).
  Proof.
    intros Ha Hf Har. destruct (slice_inside a full Ha Hf) as [_ Hl]. apply blks_in in Ha. destruct Ha as (i & Hi & ->).
    assert (E1 : fst (blk size i) = i * size) by reflexivity. assert (E2 : snd (blk size i) = i * size + size) by (unfold blk; cbn; lia).
    assert (Hn : forall x, amp_at (fst (blk size i)) (slice (blk size i) full) x = if (i * size <=? x) && (x <? (i + 1) * size) then znth 0%r full x else 0%r) by (intros x; apply (slice_nth full size N); [exact Hsp|congruence|exact Hi]).
    unfold measure_out. unfold slice at 3. rewrite Hl, Har. remember (slice (blk size i) full) as v eqn:Ev. clear Ev. rewrite pyslice_map. unfold pyslice. rewrite firstn_skipn_zrange by (rewrite ?E1, ?E2; nia).
    rewrite E1, E2 in *. clear E1 E2. apply list_eq_znth with (d := 0%r); [unfold zlen; rewrite !map_length, !zrange_length; lia|].
    unfold zlen at 1. rewrite map_length, zrange_length. intros x Hx. rewrite !znth_map_zrange by lia. cbv zeta. replace (0 + x + i * size) with (i * size + x) by lia.
    destruct (Z.leb_spec (i * size) (i * size + x)); [|lia]. destruct (Z.ltb_spec (i * size + x) (i * size + size)); [|lia]. cbn [andb].
    unfold collapsed. destruct (reg n (measured_order n indices) (i * size + x) =? m); [|reflexivity]. f_equal.
    rewrite Hn. unfold amp_at. rewrite Z.sub_0_r.
    destruct (Z.leb_spec (i * size) (i * size + x)); [|lia]. destruct (Z.ltb_spec (i * size + x) ((i + 1) * size)); [|lia]. reflexivity.
  Qed.

  Lemma meas_step s L indices r k envs bs (full : list C) a r2 m p : (L + sz + 1 <= room)%nat ->
    phase s L (pbind (send_measure r ws (mkMeasure indices None false false 0)) k) (fun w => worker_run rsqrt (cfg w) (envs w) (bs w)) ->
    zlen full = 2 ^ n -> (forall w, In w ws -> holds n full w (bs w)) -> qubits_ok n indices ->
    (forall w, In w ws -> ((if is_diagonal w then 4 else 1) <= length (envs w))%nat /\ forall e, In e (envs w) -> e_acc0 e = 0%r) ->
    In (a, a) ws -> nth_error (map e_rand (envs (a, a))) 1 = Some r2 -> drawn n indices full r a r2 m ->
    p = marginal n (measured_order n indices) (amp_at 0 full) m -> rlt 0%r p -> rle p 1%r ->
    exists t bs', go s t /\ phase t (L + sz) (k (m, p)) (fun w => worker_run rsqrt (cfg w) (skipn (if is_diagonal w then 4 else 1) (envs w)) (bs' w)) /\
      forall w, In w ws -> holds n (map (collapsed n indices m (rsqrt p) (amp_at 0 full)) (zrange 0 (2 ^ n))) w (bs' w).
  Proof.
    intros Hroom Hs Hf Hh HI He Haw Hr2 ((Hr1 & Hr1') & Hm & Hd1 & Hd2) Ep Hp0 Hp1.
    assert (Ha : In a rs) by (apply Hws in Haw; apply Haw).
    assert (Hdin : forall w, In w dgl -> In w ws) by (intros w Hw; apply Hdg, Hw).
    assert (Hdd : forall w, In w dgl -> is_diagonal w = true /\ fst w = snd w /\ In (fst w) rs).
    { intros w Hw. apply Hdg in Hw. destruct Hw as [Hw E]. split; [apply range_eqb_ok, E|]. split; [exact E|]. apply Hws in Hw. apply Hw. }
    assert (He4 : forall w, In w dgl -> exists e1 e2 e3 e4 es, envs w = e1 :: e2 :: e3 :: e4 :: es /\ e_acc0 e1 = 0%r /\ e_acc0 e2 = 0%r /\ (w = (a, a) -> e_rand e2 = r2)).
    { intros w Hw. destruct (He w (Hdin w Hw)) as [Hl H0]. rewrite (proj1 (Hdd w Hw)) in Hl. destruct (envs w) as [|e1 [|e2 [|e3 [|e4 es]]]] eqn:E; cbn [length] in Hl; try lia.
      exists e1, e2, e3, e4, es. split; [reflexivity|]. split; [apply H0; left; reflexivity|]. split; [apply H0; right; left; reflexivity|]. intros ->. rewrite E in Hr2. cbn in Hr2. congruence. }
    set (mop := mkMeasure indices None false false 0) in *.
    (* total probabilities *)
    destruct (dg_split n bq Hbq a Ha) as (pre & post & Ers & Hpre). destruct (Hpre full Hf) as [Ep1 Ep2]. rewrite Ep1 in Hr1. rewrite Ep2 in Hr1'.
    set (D := fun a : range => (a, a) : wid).
    assert (Edg : dgl = map D pre ++ D a :: map D post). { unfold dgl, dg. unfold rs, size, N in Ers. rewrite Ers, map_app. reflexivity. }
    pose (tp := fun w : wid => tprob (slice (fst w) full)).
    set (k1 := fun confs : list (conf K) => pbind (match select 0 confs r with
    | None => Fail AttributeError
    | Some i =>
        pdo selected <- lift (pyget dgl (Z.of_nat i));
        pdo _ <- Send (Wk selected) (MOp (get_bits_op mop None)) (Ret tt);
        pdo c <- recv_conf selected;
        let measured_bits := conf_bits c in
        pdo confs <- map_workers_via_op (get_bits_op mop (Some measured_bits)) (firstn i dgl ++ skipn (S i) dgl);
        let measured_prob := (conf_prob c + fold_left (fun acc c => acc + conf_prob c) confs 0)%r in
        pdo _ <- map_workers_via_op (do_measure_op mop measured_bits measured_prob false) dgl;
        pdo _ <- map_workers_via_op (OSync None true) ws;
        Ret (measured_bits, measured_prob)
    end) k).
    destruct (phase_recast cap ws job s L _ _ (pbind (map_workers_via_op OTotalProb dgl) k1) (fun w => worker_run rsqrt (cfg w) (envs w) (bs w)) Hs) as (t0 & G0 & S0).
    { unfold send_measure. cbv zeta. assert (Edl : diagonal_workers ws = dgl) by exact (diagonal_is n bq pool Hbq Ht Hb). rewrite Edl. eapply peq_trans; [apply bind_assoc|]. apply peq_refl. }
    { intros; apply peq_refl. }
    destruct (rpc_local cap rsqrt ws cfg job room Hcap t0 L OTotalProb dgl k1 envs bs bs (fun w => CProb 0 (tp w)) Hdn Hdin ltac:(discriminate) S0) as (t1 & G1 & S1).
    { intros w Hw. destruct (He4 w Hw) as (e1 & e2 & e3 & e4 & es & Ee & A1 & _). eexists _, _. split; [exact Ee|]. cbn [worker_op]. unfold bk_total_prob. rewrite A1, prob_magnitude_0. destruct (Hh w (Hdin w Hw)) as (_ & -> & _). reflexivity. }
    { reflexivity. }
    set (env1 := fun w => if inb w dgl then tl (envs w) else envs w) in *.
    (* the selected worker draws *)
    set (i := length pre).
    assert (Esel : select 0 (map (fun w => CProb 0 (tp w)) dgl) r = Some i).
    { rewrite Edg. rewrite (select_ok n bq) with (f := tp); [unfold i; rewrite map_length; reflexivity| | |].
      - intros w _. apply tprob_nonneg.
      - rewrite sum_map. exact Hr1.
      - rewrite sum_map. exact Hr1'. }
    set (k2 := fun c : conf K => pbind (
        pdo confs <- map_workers_via_op (get_bits_op mop (Some (conf_bits c))) (map D pre ++ map D post);
        let measured_prob := (conf_prob c + fold_left (fun acc c => acc + conf_prob c) confs 0)%r in
        pdo _ <- map_workers_via_op (do_measure_op mop (conf_bits c) measured_prob false) dgl;
        pdo _ <- map_workers_via_op (OSync None true) ws;
        Ret (conf_bits c, measured_prob)) k).
    destruct (phase_recast cap ws job t1 L _ _ (pbind (map_workers_via_op (get_bits_op mop None) [D a]) (fun cs => k2 (hd CDone cs))) (fun w => worker_run rsqrt (cfg w) (env1 w) (bs w)) S1) as (t2 & G2 & S2).
    { unfold k1. rewrite Esel. assert (Eg : pyget dgl (Z.of_nat i) = Ok (D a)).
      { unfold pyget. assert (X : (Z.of_nat i <? 0) = false) by lia. rewrite !X, Edg, Nat2Z.id, nth_error_app2 by (rewrite map_length; unfold i; lia). rewrite map_length. unfold i. rewrite Nat.sub_diag. reflexivity. }
      rewrite Eg. cbn [lift]. change (pbind (Ret (D a)) ?f) with (f (D a)). cbv beta zeta.
      assert (Efs : firstn i dgl ++ skipn (S i) dgl = map D pre ++ map D post).
      { rewrite Edg. unfold i. rewrite <- (map_length D pre), firstn_app, firstn_all, Nat.sub_diag. cbn [firstn]. rewrite app_nil_r. f_equal. rewrite skipn_app, skipn_all2 by lia. cbn [app]. replace (S (length (map D pre)) - length (map D pre))%nat with 1%nat by lia. reflexivity. }
      rewrite Efs. eapply peq_trans; [apply bind_assoc|]. eapply peq_trans; [|apply (bind_single _ (D a))]. apply peq_bind; [apply peq_refl|]. intros _. apply bind_assoc. }
    { intros; apply peq_refl. }
    pose (pm := fun w : wid => marginal n (measured_order n indices) (amp_at (fst (fst w)) (slice (fst w) full)) m).
    assert (Hda : In (D a) dgl) by (rewrite Edg; apply in_or_app; right; left; reflexivity).
    assert (Hst : forall w, In w ws -> bk_n (bs w) = n /\ bk_state (bs w) = slice (fst w) full /\ zlen (bk_arena (bs w)) = size /\ c_id (cfg w) = w /\ slice_ok n (fst (fst w)) (slice (fst w) full) /\ zlen (slice (fst w) full) = size).
    { intros w Hw. destruct (Hh w Hw) as (E1 & E2 & E3). assert (Hw' := Hw). apply Hws in Hw'. destruct (slice_inside (fst w) full (proj1 Hw') Hf) as [X Y]. rewrite E2, Y in E3. destruct (Hcfg w Hw) as (_ & Eid & _). auto 10. }
    assert (Hn0 : 0 <= n) by lia.
    destruct (rpc_local cap rsqrt ws cfg job room Hcap t2 L (get_bits_op mop None) [D a] (fun cs => k2 (hd CDone cs)) env1 bs bs (fun w => CProb m (pm w))) as (t3 & G3 & S3).
    { repeat constructor. intros []. } { intros w [<-|[]]. apply Hdin, Hda. } { discriminate. } { exact S2. }
    { intros w [<-|[]]. destruct (He4 _ Hda) as (e1 & e2 & e3 & e4 & es & Ee & _ & A2 & A3). unfold env1. assert (X := Hda). apply inb_ok in X. rewrite X, Ee. cbn [tl]. eexists _, _. split; [reflexivity|].
      destruct (Hst _ (Hdin _ Hda)) as (E1 & E2 & E3 & Eid & Hsl & _). cbn [worker_op get_bits_op]. unfold worker_measure. rewrite Eid. cbn [m_soft m_indices m_result mop option_map D fst snd].
      unfold bk_soft_measure. rewrite E1, E2, A2, (A3 eq_refl). cbn [D fst snd] in Hsl |- *.
      assert (Q : soft_measure r2 0%r indices n (slice a full) None (fst a) = Ok (m, pm (D a))).
      { assert (Hup : rle (below n (measured_order n indices) (amp_at (fst a) (slice a full)) (m + 1)) (tprob (slice a full))).
        { rewrite <- (B_all n indices (fst a) (slice a full) Hn0 HI Hsl). apply below_mono. lia. }
        apply (born n indices (fst a) (slice a full) Hn0 HI Hsl); [|eapply rle_trans; [exact Hd2|exact Hup]|].
        - eapply rle_lt_trans; [|exact Hd1]. apply sum_nonneg. intros; apply marginal_nonneg.
        - repeat split; auto; lia. }
      rewrite Q. reflexivity. }
    { reflexivity. }
    set (env2 := fun w => if inb w [D a] then tl (env1 w) else env1 w) in *. cbn [map hd] in S3.
    (* the others report the probability of its outcome *)
    unfold k2 in S3. cbn [conf_bits conf_prob] in S3.
    set (oth := map D pre ++ map D post) in *.
    set (k3 := fun confs : list (conf K) => pbind (
        let measured_prob := (pm (D a) + fold_left (fun acc c => acc + conf_prob c) confs 0)%r in
        pdo _ <- map_workers_via_op (do_measure_op mop m measured_prob false) dgl;
        pdo _ <- map_workers_via_op (OSync None true) ws;
        Ret (m, measured_prob)) k).
    destruct (phase_recast cap ws job t3 L _ _ (pbind (map_workers_via_op (get_bits_op mop (Some m)) oth) k3) (fun w => worker_run rsqrt (cfg w) (env2 w) (bs w)) S3) as (t4 & G4 & S4).
    { apply bind_assoc. } { intros; apply peq_refl. }
    assert (Hoth : NoDup oth /\ (forall w, In w oth <-> In w dgl /\ w <> D a)).
    { assert (X := Hdn). rewrite Edg in X. split; [eapply NoDup_remove_1; exact X|]. intros w. apply NoDup_remove_2 in X. rewrite Edg. unfold oth. rewrite !in_app_iff. cbn [In]. split; [|intros ([H|[H|H]] & Hne); [auto|congruence|auto]]. intros H. split; [tauto|]. intros ->. apply X. apply in_or_app. exact H. }
    destruct Hoth as [Hon Hoi].
    assert (Henv2 : forall w, In w oth -> exists e es, env2 w = e :: es).
    { intros w Hw. apply Hoi in Hw. destruct Hw as [Hw Hne]. unfold env2. destruct (inb w [D a]) eqn:E; [apply inb_ok in E; destruct E as [<-|[]]; contradiction|]. unfold env1. assert (X := Hw). apply inb_ok in X. rewrite X.
      destruct (He4 w Hw) as (e1 & e2 & e3 & e4 & es & -> & _). cbn [tl]. eauto. }
    destruct (rpc_local cap rsqrt ws cfg job room Hcap t4 L (get_bits_op mop (Some m)) oth k3 env2 bs bs (fun w => CProb m (pm w)) Hon) as (t5 & G5 & S5).
    { intros w Hw. apply Hdin, Hoi, Hw. } { discriminate. } { exact S4. }
    { intros w Hw. destruct (Henv2 w Hw) as (e & es & Ee). exists e, es. split; [exact Ee|]. destruct (Hst w) as (E1 & E2 & E3 & Eid & Hsl & _); [apply Hdin, Hoi, Hw|].
      cbn [worker_op get_bits_op]. unfold worker_measure. rewrite Eid. destruct w as [wi wo]. cbn [m_soft m_indices m_result mop option_map fst snd] in *. unfold bk_soft_measure. rewrite E1, E2.
      rewrite soft_forced by auto. reflexivity. }
    { reflexivity. }
    set (env3 := fun w => if inb w oth then tl (env2 w) else env2 w) in *.
    assert (Esum : (pm (D a) + fold_left (fun acc c => acc + conf_prob c) (map (fun w => CProb m (pm w)) oth) 0)%r = p).
    { assert (X : forall l acc, fold_left (fun acc c => acc + conf_prob c)%r (map (fun w => CProb m (pm w)) l) acc = (acc + sum l pm)%r) by (induction l as [|w l IH]; intros acc; cbn [map fold_left sum conf_prob]; [|rewrite IH]; ring).
      rewrite X, Ep, <- (marginal_parts n _ full size N m Hsp (Z.lt_le_incl _ _ HNp) HN Hf). fold rs. unfold rs, size, N. rewrite Ers. unfold oth. rewrite !sum_app, !sum_map. cbn [sum]. unfold pm, D. cbn [fst]. ring. }
    unfold k3 in S5. rewrite Esum in S5. cbv zeta in S5.
    (* the collapse *)
    set (k4 := fun _ : list (conf K) => pbind (map_workers_via_op (OSync None true) ws) (fun _ => k (m, p))).
    destruct (phase_recast cap ws job t5 L _ _ (pbind (map_workers_via_op (do_measure_op mop m p false) dgl) k4) (fun w => worker_run rsqrt (cfg w) (env3 w) (bs w)) S5) as (t6 & G6 & S6).
    { eapply peq_trans; [apply bind_assoc|]. apply peq_bind; [apply peq_refl|]. intros cs. unfold k4. eapply peq_trans; [apply bind_assoc|]. apply peq_refl. } { intros; apply peq_refl. }
    set (newv := map (collapsed n indices m (rsqrt p) (amp_at 0 full)) (zrange 0 (2 ^ n))) in *.
    pose (b1 := fun w : wid => if inb w dgl then mkBackend n (slice (fst w) newv) (slice (fst w) full) else bs w).
    assert (Henv3 : forall w, In w dgl -> exists e es, env3 w = e :: es /\ es = skipn 3 (envs w)).
    { intros w Hw. destruct (He4 w Hw) as (e1 & e2 & e3 & e4 & es & Ee & _). exists e3, (e4 :: es). rewrite Ee. split; [|reflexivity]. assert (X := Hw). apply inb_ok in X. unfold env3. destruct (inb w oth) eqn:E.
      - apply inb_ok, Hoi in E. unfold env2. destruct (inb w [D a]) eqn:E2; [apply inb_ok in E2; destruct E2 as [<-|[]]; tauto|]. unfold env1. rewrite X, Ee. reflexivity.
      - apply inb_no in E. assert (w = D a) as ->. { destruct (wid_eqb w (D a)) eqn:E2; [apply wid_eqb_ok, E2|]. exfalso. apply E, Hoi. split; [exact Hw|]. intros E3. apply wid_eqb_ok in E3. congruence. }
        unfold env2. assert (Y : inb (D a) [D a] = true) by (apply inb_ok; left; reflexivity). rewrite Y. unfold env1. rewrite X, Ee. reflexivity. }
    destruct (rpc_local cap rsqrt ws cfg job room Hcap t6 L (do_measure_op mop m p false) dgl k4 env3 bs b1 (fun w => CProb m p) Hdn Hdin) as (t7 & G7 & S7).
    { discriminate. } { exact S6. }
    { intros w Hw. destruct (Henv3 w Hw) as (e & es & Ee & _). exists e, es. split; [exact Ee|]. destruct (Hst w (Hdin w Hw)) as (E1 & E2 & E3 & Eid & Hsl & Hlen). destruct (Hdd w Hw) as (_ & Hd & Hwa).
      cbn [worker_op do_measure_op]. unfold worker_measure. rewrite Eid. assert (Ein := Hw). apply inb_ok in Ein. unfold b1. rewrite Ein. destruct w as [wi wo]. cbn [fst snd] in *. subst wo. cbn [m_soft m_reduce m_top_k m_indices m_result mop option_map fst snd negb Z.eqb].
      unfold bk_measure. rewrite E1, E2. rewrite (measure_ok n indices Hn0 HI rsqrt _ _ (fst wi) (fst wi) (slice wi full) (bk_arena (bs (wi, wi))) (Some m) (Some p) m p); auto.
      - cbn [bind lift fst snd]. rewrite (measured_slice indices m (rsqrt p) wi full) by auto. reflexivity.
      - unfold slice_ok in *. lia.
      - cbn [bad_measured]. destruct (Z.leb_spec 0 m); [|lia]. destruct (Z.ltb_spec m (2 ^ zlen indices)); [reflexivity|lia].
      - cbn [bad_prob]. unfold rlt in Hp0. unfold rle in Hp1. rewrite Hp0, Hp1. reflexivity.
      - intros E. rewrite E in Hp0. exact (rlt_irrefl _ Hp0). }
    { intros w Hw. unfold b1. apply inb_no in Hw. rewrite Hw. reflexivity. }
    set (env4 := fun w => if inb w dgl then tl (env3 w) else env3 w) in *.
    (* the sync *)
    assert (Henv4 : forall w, In w ws -> env4 w <> [] /\ tl (env4 w) = skipn (if is_diagonal w then 4 else 1) (envs w)).
    { intros w Hw. unfold env4. destruct (inb w dgl) eqn:E.
      - apply inb_ok in E. destruct (Henv3 w E) as (e & es & -> & ->). destruct (He4 w E) as (e1 & e2 & e3 & e4 & es & -> & _). rewrite (proj1 (Hdd w E)). split; [discriminate|reflexivity].
      - assert (En := E). apply inb_no in En. assert (Hnd' : is_diagonal w = false). { destruct (is_diagonal w) eqn:X; [|reflexivity]. exfalso. apply En, Hdg. split; [exact Hw|]. apply range_eqb_ok, X. }
        destruct (He w Hw) as [Hl _]. rewrite Hnd' in *. unfold env3. destruct (inb w oth) eqn:E2; [apply inb_ok, Hoi in E2; tauto|]. unfold env2. destruct (inb w [D a]) eqn:E3; [apply inb_ok in E3; destruct E3 as [<-|[]]; contradiction|].
        unfold env1. rewrite E. destruct (envs w); [cbn in Hl; lia|]. split; [discriminate|reflexivity]. }
    assert (Hnl : zlen newv = 2 ^ n) by (unfold newv, zlen; rewrite map_length, zrange_length; pose proof (Z.pow_nonneg 2 n); lia).
    destruct (rpc_sync cap rsqrt ws rs cfg job sz room Hnd Hnr Hws Hcfg Hreg Hcap (sz_pos n bq Hbq) env4 b1 None eq_refl) with (s := t7) (L := L) (ow := true) (k := fun _ : list (conf K) => k (m, p)) as (t8 & G8 & S8).
    { intros w Hw. destruct (Hst w Hw) as (E1 & E2 & E3 & _ & _ & Hlen). apply Nat2Z.inj. fold (zlen (bk_state (b1 w))). unfold sz. rewrite Z2Nat.id by lia. unfold b1. destruct (inb w dgl); cbn [bk_state]; [|congruence]. apply slice_inside; [apply Hws, Hw|exact Hnl]. }
    { intros w Hw. apply Henv4, Hw. }
    { exact Hroom. } { exact S7. }
    exists t8, (fun w => set_state (b1 w) (synced cfg b1 true (fst w))). split; [do 8 (eapply go_trans; [eassumption|]); eassumption|]. split.
    { eapply phase_ext; [exact S8|]. intros w Hw. cbn beta. rewrite (proj2 (Henv4 w Hw)). reflexivity. }
    intros w Hw. destruct (Hst w Hw) as (E1 & E2 & E3 & _ & _ & Hlen). assert (Hw1 : In (fst w) rs) by (apply Hws, Hw). assert (Hwd : In (D (fst w)) dgl) by (apply Hdg; split; [apply Hws; auto|reflexivity]). apply inb_ok in Hwd.
    assert (Esy : synced cfg b1 true (fst w) = slice (fst w) newv). { unfold synced. change (L_Worker3.D (fst w)) with (D (fst w)). unfold b1. rewrite Hwd. reflexivity. }
    rewrite Esy. unfold holds, set_state. cbn [bk_n bk_state bk_arena]. rewrite (proj2 (slice_inside (fst w) newv Hw1 Hnl)). split; [|split; [reflexivity|]]; unfold b1; destruct (inb w dgl); cbn [bk_n bk_arena]; auto.
  Qed.

  Lemma mixed_steps draws (lb final : backend K) lops results : local_job rsqrt ws draws lb lops results final ->
    forall s L res freed envs bs, (L + length lops * sz + 1 <= room)%nat ->
    phase s L (manager_run0 n ws (map (fun o => (wop_of (fst o), snd o)) lops) res freed) (fun w => worker_run rsqrt (cfg w) (envs w) (bs w)) ->
    bk_n lb = n -> zlen (bk_state lb) = 2 ^ n -> zlen (bk_arena lb) = 2 ^ n -> (forall w, In w ws -> holds n (bk_state lb) w (bs w)) ->
    (forall o, In o lops -> lop_ok n (fst o)) ->
    (forall w, In w ws -> scheduled size (used_all (is_diagonal w) (map fst lops)) (envs w) /\ forall e, In e (envs w) -> e_acc0 e = 0%r) ->
    (forall a, In (a, a) ws -> draws a = map e_rand (envs (a, a))) ->
    exists t bs' envs', go s t /\ phase t (L + length lops * sz) (manager_run0 n ws [] (res ++ results) freed) (fun w => worker_run rsqrt (cfg w) (envs' w) (bs' w)) /\
      forall w, In w ws -> holds n (bk_state final) w (bs' w).
  Proof.
    assert (Hskip : forall k j (es : list (env K)), scheduled size (k + j) es -> scheduled size j (skipn k es)).
    { intros k j es [H1 H2]. split; [rewrite skipn_length; lia|]. intros e Hin. apply H2. rewrite <- (firstn_skipn k es). apply in_or_app. right. exact Hin. }
    assert (Hskip0 : forall k (es : list (env K)), (forall e, In e es -> e_acc0 e = 0%r) -> forall e, In e (skipn k es) -> e_acc0 e = 0%r).
    { intros k es H e Hin. apply H. rewrite <- (firstn_skipn k es). apply in_or_app. right. exact Hin. }
    induction 1 as [draws lb|draws lb lb1 lb2 mats sched r lops results Hk _ IH|draws lb lb1 lb2 indices r lops results a r2 m p Hin Hr2 Hdr Hme Hp1 _ IH]; intros s L res freed envs bs Hroom Hs Hn Hst Har Hh Hops He Hd.
    - exists s, bs, envs. split; [apply go_refl, eqv_refl|]. rewrite app_nil_r. cbn [length Nat.mul]. rewrite Nat.add_0_r. auto.
    - cbn [map fst snd length wop_of] in *. unfold bk_kronselect_dot in Hk. destruct (kronselect_dot mats (bk_state lb) (bk_n lb) (bk_arena lb) 0 0 (Cython sched)) as [out|] eqn:Ek; [|discriminate]. cbn [bind] in Hk. injection Hk as <-.
      destruct (Hops (LKron mats sched, r) (or_introl eq_refl)) as [Hm Hp]. cbn [fst snd] in Hm, Hp. rewrite Hn in Ek.
      assert (Hp' : Permutation sched (zrange 0 (zlen (bk_arena lb)))) by (rewrite Har; exact Hp).
      assert (Hacc := proj1 (kron_accept_c mats _ n _ 0 0 sched ltac:(lia) (Z.le_refl 0) (Z.le_refl 0) Hm Hp') (ex_intro _ out Ek)). destruct Hacc as [(_ & _ & Hsh) Hrect].
      assert (Eout := kron_partial_correct mats _ n _ 0 0 (Cython sched) out ltac:(lia) (Z.le_refl 0) (Z.le_refl 0) Hm Hp' Ek). rewrite Har in Eout.
      destruct (phase_recast cap ws job s L _ _ (pbind (send_kronprod ws (OKron mats)) (fun _ => manager_run0 n ws (map (fun o => (wop_of (fst o), snd o)) lops) (res ++ [None]) (freed ++ []))) (fun w => worker_run rsqrt (cfg w) (envs w) (bs w)) Hs) as (t0 & G0 & S0).
      { cbn [manager_run0 send_op]. eapply peq_trans; [apply bind_assoc|]. apply peq_refl. } { intros; apply peq_refl. }
      destruct (kron_step cap rsqrt cfg job room n bq pool Hbq Ht Hb Hcfg Hreg Hcap t0 L mats _ envs bs (bk_state lb) ltac:(unfold sz, size in Hroom; lia) S0 Hst Hh Hm Hsh Hrect) as (t1 & b1 & G1 & S1 & Hh1).
      { intros w Hw. destruct (He w Hw) as [[H1 H2] _]. cbn [used_all fold_right used] in H1. split; [lia|exact H2]. }
      destruct (IH t1 (L + sz)%nat (res ++ [None]) (freed ++ []) (fun w => skipn 2 (envs w)) b1) as (t & bs' & envs' & G & SS & Hh').
      { lia. } { eapply phase_ext; [exact S1|]. intros w Hw. cbn beta. destruct (envs w) as [|e1 [|e2 es]]; reflexivity. } { exact Hn. }
      { cbn [bk_state]. rewrite Eout. apply kron_result_zlen. pose proof (Z.pow_nonneg 2 n). lia. } { exact Hst. } { cbn [bk_state]. rewrite Eout. exact Hh1. }
      { intros o Ho. apply Hops. right. exact Ho. }
      { intros w Hw. destruct (He w Hw) as [H1 H2]. split; [apply (Hskip 2%nat), H1|apply Hskip0, H2]. }
      { intros a Ha. rewrite (Hd a Ha). apply skipn_map. }
      exists t, bs', envs'. split; [eapply go_trans; [exact G0|]; eapply go_trans; eassumption|]. split; [|exact Hh'].
      rewrite <- app_assoc, app_nil_r in SS. cbn [app] in SS. replace (L + S (length lops) * sz)%nat with (L + sz + length lops * sz)%nat by lia. exact SS.
    - cbn [map fst snd length wop_of] in *. assert (HI := Hops _ (or_introl eq_refl)). cbn [fst lop_ok] in HI. rewrite Hn in Hdr.
      assert (Hfb : full_backend lb) by (unfold full_backend; rewrite Hn; repeat split; [lia|exact Hst|exact Har]).
      destruct (measure_inv rsqrt 0%r 0%r lb lb1 indices (Some m) m p Hfb ltac:(rewrite Hn; exact HI) Hme) as (Hm & _ & Ep & Hp0 & (_ & Hst1 & Har1) & Hn1 & Est1).
      rewrite Hn1, Hn in Hst1, Har1. unfold outcome in Ep. rewrite Hn in Ep, Est1.
      assert (Hpp : rlt 0%r p) by (apply rlt_le_neq; split; [rewrite Ep; apply marginal_nonneg|congruence]).
      set (rest := map (fun o => (wop_of (fst o), snd o)) lops) in *.
      destruct (phase_recast cap ws job s L _ _ (pbind (send_measure r ws (mkMeasure indices None false false 0)) (fun mp => manager_run0 n ws rest (res ++ [Some (inl mp)]) (freed ++ []))) (fun w => worker_run rsqrt (cfg w) (envs w) (bs w)) Hs) as (t0 & G0 & S0).
      { cbn [manager_run0 send_op m_soft m_reduce m_top_k Z.eqb negb]. eapply peq_trans; [apply bind_assoc|]. apply peq_refl. } { intros; apply peq_refl. }
      destruct (meas_step t0 L indices r _ envs bs (bk_state lb) a r2 m p ltac:(lia) S0 Hst Hh HI) as (t1 & b1 & G1 & S1 & Hh1); auto.
      { intros w Hw. destruct (He w Hw) as [[H1 _] H2]. cbn [used_all fold_right used] in H1. split; [lia|exact H2]. }
      { rewrite <- (Hd a Hin). exact Hr2. }
      destruct (IH t1 (L + sz)%nat (res ++ [Some (inl (m, p))]) (freed ++ []) (fun w => skipn (if is_diagonal w then 4 else 1) (envs w)) b1) as (t & bs' & envs' & G & SS & Hh').
      { lia. } { exact S1. } { congruence. } { exact Hst1. } { exact Har1. } { rewrite Est1. exact Hh1. }
      { intros o Ho. apply Hops. right. exact Ho. }
      { intros w Hw. destruct (He w Hw) as [H1 H2]. split; [apply Hskip, H1|apply Hskip0, H2]. }
      { intros x Hx. rewrite (Hd x Hx), skipn_map. unfold is_diagonal. cbn [fst snd]. rewrite range_eqb_refl. reflexivity. }
      exists t, bs', envs'. split; [eapply go_trans; [exact G0|]; eapply go_trans; eassumption|]. split; [|exact Hh'].
      rewrite <- app_assoc, app_nil_r in SS. cbn [app] in SS. replace (L + S (length lops) * sz)%nat with (L + sz + length lops * sz)%nat by lia. exact SS.
  Qed.

  Lemma mixed_ends draws lops results envs bs (lb final : backend K) : (length lops * sz + 1 <= room)%nat -> local_job rsqrt ws draws lb lops results final ->
    bk_n lb = n -> zlen (bk_state lb) = 2 ^ n -> zlen (bk_arena lb) = 2 ^ n -> (forall w, In w ws -> holds n (bk_state lb) w (bs w)) ->
    (forall o, In o lops -> lop_ok n (fst o)) ->
    (forall w, In w ws -> scheduled size (used_all (is_diagonal w) (map fst lops)) (envs w) /\ forall e, In e (envs w) -> e_acc0 e = 0%r) ->
    (forall a, In (a, a) ws -> draws a = map e_rand (envs (a, a))) ->
    always_ends pid_eqb cap (job_net rsqrt n ws (map (fun o => (wop_of (fst o), snd o)) lops) cfg envs bs) (fun s' =>
      procs s' Mgr = Ret (EManager results ws) /\
      forall w, In w ws -> exists b, procs s' (Wk w) = Ret (EWorker b) /\ holds n (bk_state final) w b).
  Proof.
    intros Hroom Hl Hn Hst Har Hh Hops He Hd.
    destruct (mixed_steps draws lb final lops results Hl (job_net0 rsqrt n ws (map (fun o => (wop_of (fst o), snd o)) lops) cfg envs bs) 0 [] [] envs bs) as (t & bs' & envs' & G & SS & Hh'); auto.
    { apply start_phase. }
    cbn [manager_run0 app] in SS. destruct (close_step cap rsqrt cfg job room n bq pool Hbq Ht Hb Hcap t _ _ envs' bs' SS) as (t2 & G2 & S2).
    destruct (job_done cap ws job rsqrt n _ cfg envs bs t2 _ _ _ (go_trans _ _ _ _ _ G G2) S2) as (t3 & G3 & S3).
    eapply phase_ends; [exact G3|exact S3|]. intros t' H1 H2. split; [exact H1|]. intros w Hw. exists (bs' w). split; [apply H2, Hw|apply Hh', Hw].
  Qed.
End MeasStep.
