(** Distributed reduce_measure: outcomes with all amplitudes in the first block. *)
From Verif Require Import Base M_Bits S_Bits L_Bits M_Kron S_Kron L_Kron L_Kron2 L_Kron3 M_Feed M_Measure S_Measure L_Measure1 L_Measure2 L_Measure3 L_Measure4 M_Pool S_Pool M_Net S_Net L_Net M_Worker S_Worker L_Worker1 L_Worker2 L_Worker3 L_Worker4 L_Worker5 L_Worker6 L_Worker9 L_Worker10 L_Worker13 L_Job M_Top L_Reduce1 L_Reduce2 L_Reduce3 L_Reduce4.

Lemma filter_none {A} (f : A -> bool) l : (forall x, In x l -> f x = false) -> filter f l = [].
Proof. induction l as [|x l IH]; intros H; cbn [filter]; [reflexivity|]. rewrite (H x) by (left; reflexivity). apply IH. intros y Hy. apply H. right. exact Hy. Qed.

Section Inside.
  Context {K : Type} {OK : OrdRing K}.
  Notation C := (Cx K).
  Add Ring CRingR5 : (@rth C _).
  Notation msg := (msg K).
  Notation proc := (proc pid msg (ending K)).
  Variable cap : pid -> pid -> option nat.
  Notation go := (go pid_eqb cap).
  Context (rsqrt : K -> K) (cfg : wid -> worker_cfg) (job : Z) (room : nat) (n bq : Z) (pool : list entry).
  Let ws : list wid := map fst pool.
  Let size := 2 ^ bq.
  Let N := 2 ^ (n - bq).
  Let rs := blks size N.
  Hypothesis Hbq : 0 <= bq <= n.
  Hypothesis Ht : tiles (2 ^ n) pool.
  Hypothesis Hb : blocks (2 ^ bq) pool.
  Hypothesis Hcfg : configured job ws cfg.
  Hypothesis Hreg : connected ws cfg.
  Hypothesis Hcap : capacities cap ws room.
  Hypothesis Hroom : (Z.to_nat size + 1 <= room)%nat.
  Notation phase := (phase ws job).
  Let Hnd : NoDup ws := Hnd n bq pool Hbq Ht Hb.
  Let Hws : forall w : wid, In w ws <-> In (fst w) rs /\ In (snd w) rs := Hws n bq pool Hbq Ht Hb.
  Let Hsp : 0 < size := size_pos n bq Hbq.
  Let HN : N * size = 2 ^ n := Nsize n bq Hbq.
  Let HNp : 0 < N := N_pos n bq Hbq.
  Variables (indices : list Z) (r : K) (rest : list (wop K * K)) (envs : wid -> list (env K)) (bs : wid -> backend K) (full : list C) (a : range) (r2 : K) (m : Z) (p : K).
  Hypothesis HI : qubits_ok n indices.
  Let thr := reduce_threshold n indices.
  Let mop : measure_op K := mkMeasure indices None false true 0.
  Hypothesis Hf : zlen full = 2 ^ n.
  Hypothesis Hh : forall w, In w ws -> holds n full w (bs w).
  Hypothesis He : forall w, In w ws -> (4 <= length (envs w))%nat /\ forall e, In e (envs w) -> e_acc0 e = 0%r.
  Hypothesis Ha : In a rs.
  Hypothesis Hr2 : nth_error (map e_rand (envs (fw n pool indices a))) 1 = Some r2.
  Hypothesis Hdr : drawn n indices full r a r2 m.
  Hypothesis Ep : p = marginal n (measured_order n indices) (amp_at 0 full) m.
  Hypothesis Hp0 : rlt 0%r p.
  Hypothesis Hp1 : rle p 1%r.
  Let sj := job_net rsqrt n ws ((OMeasure mop, r) :: rest) cfg envs bs.
  Let als := al n pool indices.
  Hypothesis Hall : forall x, 0 <= x < 2 ^ n -> reg n (measured_order n indices) x = m -> x < 2 ^ bq.
  Hypothesis Hthr : thr <= size.
  Variable mask : Z.
  Hypothesis Em : make_row_mask indices n = Ok mask.
  Hypothesis HM : masked n indices mask.

  Definition pst (w : wid) : list C := part n indices rsqrt (fst (fst w)) (fst (snd w)) (slice (fst w) full) (bk_arena (bs w)) m p mask.
  Definition b1 (w : wid) : backend K := mkBackend n (pst w) (slice (fst w) full).
  Lemma Hal w : In w als <-> In w ws /\ fst (snd w) <= thr.
  Proof. exact (al_in n bq pool Hbq Ht Hb indices w). Qed.
  Lemma thr_pos : 0 < thr.
  Proof. assert (Hn0 : 0 <= n) by lia. assert (Hk := L_Measure1.k_range n indices mask Hn0 HI HM). apply Z.pow_pos_nonneg; lia. Qed.
  Lemma in_blk w : In w ws -> exists i j, 0 <= i < N /\ 0 <= j < N /\ w = (blk size i, blk size j).
  Proof. intros Hw. apply Hws in Hw. destruct Hw as [H1 H2]. apply blks_in in H1, H2. destruct H1 as (i & Hi & E1), H2 as (j & Hj & E2). exists i, j. split; [exact Hi|]. split; [exact Hj|]. destruct w. cbn in *. congruence. Qed.
  Lemma wsize w : In w ws -> zlen (slice (fst w) full) = size /\ zlen (bk_arena (bs w)) = size /\ length (bk_state (bs w)) = Z.to_nat size.
  Proof.
    intros Hw. destruct (Hh w Hw) as (_ & E2 & E3). destruct (slice_inside n bq Hbq (fst w) full) as [_ Hsl]; [apply Hws, Hw|exact Hf|]. fold size in Hsl. rewrite E2, Hsl in E3. split; [exact Hsl|]. split; [exact E3|]. rewrite E2. unfold zlen in Hsl. lia.
  Qed.
  Lemma pst_length w : In w ws -> length (pst w) = Z.to_nat size.
  Proof. intros Hw. destruct (wsize w Hw) as (_ & E & _). unfold pst, part. rewrite map_length, E. pose proof (zlen_zrange 0 size). unfold zlen in *. lia. Qed.
  Lemma wres_in w e : In w ws -> wres rsqrt cfg indices bs m p w e = Ok (b1 w, CProb m p).
  Proof.
    intros Hw. assert (Hn0 : 0 <= n) by lia. rewrite (wres_is rsqrt cfg job n pool Hcfg indices bs full m p Hh w e Hw). destruct (in_blk w Hw) as (i & j & Hi & Hj & Ew). destruct (wsize w Hw) as (E1 & E2 & _). destruct Hdr as (_ & Hm & _).
    rewrite (part_ok n indices Hn0 HI rsqrt _ _ _ _ _ _ m p Hm Hp0 Hp1) with (mask := mask); [reflexivity| |exact HM|exact Em|].
    - rewrite Ew. unfold blk. cbn [fst snd]. nia.
    - intros x Hx Ex. specialize (Hall x Hx Ex). rewrite E1, Ew. unfold blk. cbn [fst snd]. fold size in Hall. nia.
  Qed.

  Lemma reduce_synced tr (kk : list wid * list wid * (Z * K) -> proc) s : (forall w, In w als <-> In w ws /\ In (snd w) tr) -> NoDup tr -> incl tr rs ->
    phase s 0 (pbind (send_reduce_measure r n ws mop) kk) (fun w => worker_run rsqrt (cfg w) (envs w) (bs w)) ->
    let keep w := (snd (fst w) <=? thr) && (snd (snd w) <=? thr) in
    let done := filter (fun w => negb (keep w)) ws in
    exists t env', go s t /\ phase t (Z.to_nat size) (pbind (receive_from_each_of als) (fun _ => pbind (send_to_each_of OClose done) (fun _ => kk (filter keep ws, done, (m, p)))))
        (fun w => if inb w als then
                    if offd w then Send Mgr (MConf CDone) (worker_run rsqrt (cfg w) (env' w) (b1 w))
                    else pbind (send_state_up_to job (gathered pst (outs cfg) (fst w)) (c_reg (cfg w)) (fst w) thr)
                           (fun _ => Send Mgr (MConf CDone) (worker_run rsqrt (cfg w) (env' w) (set_state (b1 w) (gathered pst (outs cfg) (fst w)))))
                  else worker_run rsqrt (cfg w) (env' w) (bs w)) /\
      forall w, In w ws -> fst w <> snd w -> chans t (P w) (P (D (fst w))) = [].
  Proof.
    intros Htr Htn Hti S0 keep done.
    destruct (reduce_told cap rsqrt cfg job room n bq pool Hbq Ht Hb Hcfg Hcap indices r envs bs full a r2 m p HI Hf Hh He Ha Hr2 Hdr Ep kk s S0) as (t1 & env' & G1 & S1 & Hl).
    fold als in S1.
    assert (Hn : NoDup als) by exact (al_nodup n bq pool Hbq Ht Hb indices).
    assert (Hin : incl als ws) by (intros w Hw; apply Hal, Hw).
    destruct (rpc_end cap ws job room Hcap t1 0 als (fun _ => pbind (finish n pool indices m p) kk) _ (fun _ => CProb m p) (fun w => worker_run rsqrt (cfg w) (tl (env' w)) (b1 w)) Hn Hin S1) as (t2 & G2 & S2).
    { intros w Hw. assert (X := Hw). apply inb_ok in X. rewrite X, wres_in by (apply Hin, Hw). reflexivity. }
    pose (env2 := fun w => if inb w als then tl (env' w) else env' w). pose (b2 := fun w => if inb w als then b1 w else bs w).
    set (kf := fun _ : list (conf K) => pbind (send_to_each_of OClose done) (fun _ => kk (filter keep ws, done, (m, p)))).
    destruct (phase_recast cap ws job t2 0 _ _ (pbind (send_to_each_of (OSync (Some thr) false) als) (fun _ => pbind (receive_from_each_of als) kf)) (fun w => worker_run rsqrt (cfg w) (env2 w) (b2 w)) S2) as (t3 & G3 & S3).
    { unfold finish, map_workers_via_op. eapply peq_trans; [apply bind_assoc|]. eapply peq_trans; [apply bind_assoc|]. apply peq_bind; [apply peq_refl|]. intros ?. apply peq_bind; [apply peq_refl|]. intros ?. apply bind_assoc. }
    { intros w Hw. unfold env2, b2. destruct (inb w als) eqn:E; apply peq_refl. }
    destruct (rpc_begin cap rsqrt ws cfg job room Hcap t3 0 (OSync (Some thr) false) als _ env2 b2 Hn Hin S3) as (t4 & G4 & S4).
    destruct (sync_part cap rsqrt ws rs cfg job (Z.to_nat size) room Hnd Hws Hcfg Hreg Hcap ltac:(lia) als tr thr Htr Htn Hti) with (envs := env2) (b := b2) (pw := fun w => worker_run rsqrt (cfg w) (env2 w) (b2 w)) (s := t4) (L := 0%nat) (mp := pbind (receive_from_each_of als) kf) as (t5 & G5 & S5 & X5).
    { pose proof thr_pos. lia. }
    { intros w Hw Hd. destruct (in_blk w (Hin w Hw)) as (i & j & Hi & Hj & ->). unfold blk in *. cbn [fst snd] in *. assert (i <> j) by (intros ->; apply Hd; reflexivity).
      destruct (Z.leb_spec ((i + 1) * size) thr); [|reflexivity]. destruct (Z.leb_spec ((j + 1) * size) thr); [|reflexivity]. exfalso. assert (i = 0) by nia. assert (j = 0) by nia. lia. }
    { intros w Hw. unfold b2. destruct (inb w als); [apply pst_length, Hw|apply wsize, Hw]. }
    { intros w Hw. unfold env2. assert (X := Hw). apply inb_ok in X. rewrite X. specialize (Hl w (Hin w Hw)). destruct (env' w) as [|e1 [|e2 es]]; cbn in *; try lia. discriminate. }
    { exact Hroom. } { exact S4. }
    exists t5, (fun w => if inb w als then tl (env2 w) else env2 w). split; [do 4 (eapply go_trans; [eassumption|]); exact G5|]. split.
    - eapply phase_ext; [exact S5|]. intros w Hw. cbv beta. destruct (inb w als) eqn:E; [|unfold b2; rewrite E; reflexivity].
      assert (Eg : forall c, In c tr -> gathered (fun w => bk_state (b2 w)) (outs cfg) c = gathered pst (outs cfg) c).
      { intros c Hc. unfold gathered. assert (X : forall w, In w ws -> snd w = c -> bk_state (b2 w) = pst w). { intros x Hx Ex. unfold b2. assert (Y : In x als) by (apply Htr; subst c; auto). apply inb_ok in Y. rewrite Y. reflexivity. }
        rewrite (X (D c)); [|apply Hws; cbn; split; apply Hti, Hc|reflexivity]. assert (Y : forall x, In x (outs cfg c) -> bk_state (b2 x) = pst x). { intros x Hx. apply (outs_in ws rs cfg Hws Hreg) in Hx; [|apply Hti, Hc]. apply X; tauto. }
        revert Y. generalize (pst (D c)). induction (outs cfg c) as [|x l IH]; intros u Y; cbn [fold_left]; [reflexivity|]. rewrite (Y x) by (left; reflexivity). apply IH. intros y Hy. apply Y. right. exact Hy. }
      assert (Eb : b2 w = b1 w) by (unfold b2; rewrite E; reflexivity). rewrite Eb. destruct (offd w) eqn:Ed; [reflexivity|]. apply offd_false in Ed. apply inb_ok, Htr in E. destruct E as [_ E]. rewrite Ed in E. cbn [snd D] in E. rewrite (Eg _ E). reflexivity.
    - intros w Hw Hd. destruct (X5 w Hw Hd) as [_ Hlen]. destruct (chans t5 (P w) (P (D (fst w)))); [reflexivity|cbn in Hlen; lia].
  Qed.

  (** the local backend *)
  Lemma local_same u acc0 (local : backend K) : bk_n local = n -> bk_state local = full -> zlen (bk_arena local) = 2 ^ n ->
    bk_reduce_measure rsqrt u acc0 local indices (Some m) None 0 0 = Ok ((m, p), mkBackend n (part n indices rsqrt 0 0 full (bk_arena local) m p mask) full).
  Proof.
    intros En Es Ea. assert (Hn0 : 0 <= n) by lia. destruct Hdr as (_ & Hm & _). unfold bk_reduce_measure. rewrite En, Es.
    assert (E : reduce_measure rsqrt u acc0 indices n full (bk_arena local) 0 0 (Some m) None = reduce_measure rsqrt u acc0 indices n full (bk_arena local) 0 0 (Some m) (Some p)).
    { unfold reduce_measure. assert (B2 : bad_prob (Some p) = false). { cbn [bad_prob]. assert (X := Hp0). assert (Y := Hp1). unfold rlt in X. unfold rle in Y. rewrite X, Y. reflexivity. }
      rewrite B2. cbn [bad_prob choose]. rewrite (soft_forced n indices 0 full Hn0 HI) by (try exact Hm; split; lia). rewrite <- Ep. reflexivity. }
    rewrite E, (part_ok n indices Hn0 HI rsqrt u acc0 0 0 full (bk_arena local) m p Hm Hp0 Hp1 ltac:(lia) mask HM Em); [reflexivity|]. intros x Hx _. lia.
  Qed.

  Lemma zero_zip (l l' : list C) : length l = length l' -> (forall x, In x l' -> x = 0%r) -> zip_with (upd_fn false) l l' = l.
  Proof.
    revert l'. induction l as [|x l IH]; intros [|y l'] E H; cbn [length] in E; try lia; [reflexivity|]. change (upd_fn false x y :: zip_with (upd_fn false) l l' = x :: l). rewrite IH by (try lia; intros z Hz; apply H; right; exact Hz). f_equal. unfold upd_fn. rewrite (H y) by (left; reflexivity). ring.
  Qed.
  Lemma gathered_zero : gathered pst (outs cfg) (blk size 0) = pst (D (blk size 0)).
  Proof.
    assert (H0 : In (blk size 0) rs) by (apply blks_in; exists 0; split; [lia|reflexivity]).
    unfold gathered. assert (Hn0 : 0 <= n) by lia. destruct Hdr as (_ & Hm & _).
    assert (X : forall l, (forall w, In w l -> In w ws /\ snd w = blk size 0 /\ fst w <> blk size 0) -> forall u, length u = Z.to_nat size -> fold_left (fun vec w => zip_with (upd_fn false) vec (pst w)) l u = u).
    { induction l as [|w l IH]; intros Hl u Hu; cbn [fold_left]; [reflexivity|]. destruct (Hl w (or_introl eq_refl)) as (Hw & E1 & E2).
      rewrite zero_zip; [apply IH; [intros x Hx; apply Hl; right; exact Hx|exact Hu]|rewrite pst_length by exact Hw; exact Hu|].
      intros x Hx. unfold pst, part in Hx. apply in_map_iff in Hx. destruct Hx as (i & <- & Hi). apply in_zrange in Hi. destruct (in_blk w Hw) as (wi & wj & Hi1 & Hj1 & ->). cbn [fst snd] in *.
      assert (wi <> 0) by (intros ->; apply E2; reflexivity). rewrite E1. unfold blk. cbn [fst]. rewrite Z.mul_0_l, Z.add_0_r.
      destruct (row_ok n indices Hn0 HI m Hm mask i HM ltac:(lia)) as (R & R1 & _). assert (R2 := Hall _ R R1). fold size in R2.
      destruct (Z.ltb_spec (row n indices m mask i) (wi * size)); [reflexivity|nia]. }
    apply X; [|apply pst_length, Hws; cbn; auto]. intros w Hw. apply (outs_in ws rs cfg Hws Hreg) in Hw; auto.
  Qed.
  Lemma pst_local (arena : list C) : zlen arena = 2 ^ n -> pst (D (blk size 0)) = slice (blk size 0) (part n indices rsqrt 0 0 full arena m p mask).
  Proof.
    intros Ea. assert (Hn0 : 0 <= n) by lia. destruct Hdr as (_ & Hm & _). assert (H0 : In (D (blk size 0)) ws) by (apply Hws; cbn; split; apply blks_in; exists 0; split; auto; lia).
    assert (LP : zlen (part n indices rsqrt 0 0 full arena m p mask) = N * size) by (unfold part; rewrite zlen_map, zlen_zrange; lia).
    assert (L1 : zlen (pst (D (blk size 0))) = size) by (unfold zlen; rewrite (pst_length _ H0); lia).
    assert (L2 := slice_length (part n indices rsqrt 0 0 full arena m p mask) size 0 N Hsp LP ltac:(lia)).
    apply list_eq_znth with (d := 0%r); [lia|]. intros i Hi. rewrite L1 in Hi.
    destruct (wsize _ H0) as (_ & E2 & _).
    assert (X := slice_nth (part n indices rsqrt 0 0 full arena m p mask) size N 0 i Hsp LP ltac:(lia)). unfold amp_at in X. cbn [blk fst] in X. rewrite Z.mul_0_l, Z.sub_0_r in X.
    destruct (Z.leb_spec 0 i); [|lia]. destruct (Z.ltb_spec i ((0 + 1) * size)); [|lia]. cbn [andb] in X. fold (blk size 0) in X. etransitivity; [|symmetry; exact X].
    unfold pst, part. rewrite znth_map_zrange by lia. rewrite znth_map_zrange by nia. cbn [D fst snd]. change (fst (blk size 0)) with (0 * size). rewrite Z.mul_0_l, !Z.add_0_l, !Z.add_0_r, !Z.sub_0_r.
    destruct (row_ok n indices Hn0 HI m Hm mask i HM ltac:(lia)) as (R & R1 & _). assert (R2 := Hall _ R R1). fold size in R2.
    destruct (Z.ltb_spec (row n indices m mask i) 0); [lia|]. f_equal.
    assert (Y := slice_nth full size N 0 (row n indices m mask i) Hsp ltac:(congruence) ltac:(lia)). unfold amp_at in Y. cbn [blk fst] in Y. rewrite Z.mul_0_l, Z.sub_0_r in Y.
    destruct (Z.leb_spec 0 (row n indices m mask i)); [|lia]. destruct (Z.ltb_spec (row n indices m mask i) ((0 + 1) * size)); [|lia]. exact Y.
  Qed.
  Lemma up_to_skips u a0 : In a0 rs -> (forall w, In w (ins cfg a0) -> thr <= fst (snd w)) -> send_state_up_to job u (c_reg (cfg (D a0))) a0 thr = Ret tt :> M_Net.proc pid msg unit.
  Proof.
    intros Ha0 H. unfold send_state_up_to. change (input_workers (c_reg (cfg (D a0))) a0) with (ins cfg a0). induction (ins cfg a0) as [|w l IH]; cbn [pfold]; [reflexivity|].
    assert (X := H w (or_introl eq_refl)). apply Z.leb_le in X. match goal with |- context [pbind (if ?bb then _ else _) _] => replace bb with true by (symmetry; exact X) end. cbn [pbind]. apply IH. intros x Hx. apply H. right. exact Hx.
  Qed.
  Lemma ins_zero w : In w (ins cfg (blk size 0)) -> thr <= fst (snd w).
  Proof.
    intros Hw. assert (H0 : In (blk size 0) rs) by (apply blks_in; exists 0; split; [lia|reflexivity]). apply (ins_in ws rs cfg Hws Hreg) in Hw; [|exact H0]. destruct Hw as (Hw & E1 & E2). destruct (in_blk w Hw) as (i & j & Hi & Hj & ->). cbn [fst snd] in *.
    assert (j <> 0) by (intros ->; apply E2; reflexivity). unfold blk. cbn [fst]. nia.
  Qed.

  Definition ended (q : proc) : Prop := match q with Ret _ | Fail _ => True | _ => False end.
  Lemma manager_empty : forall ops res freed, ended (manager_run n [] ops res freed).
  Proof.
    induction ops as [|[op rr] ops IH]; intros res freed; cbn [manager_run]; [exact I|]. destruct op as [mats|mo| | |]; try exact I; [apply IH|]. cbn [send_op].
    destruct (m_soft mo); [exact I|]. destruct (m_reduce mo); [exact I|]. destruct (negb _); [|exact I]. destruct (2048 <? _); [exact I|].
    assert (E : send_measure_top [] mo = lift (combine_replies [] (m_top_k mo))) by reflexivity. rewrite E. destruct (combine_replies [] (m_top_k mo)); [apply IH|exact I].
  Qed.

  Lemma reduce_inside : thr < size ->
    always_ends pid_eqb cap sj (fun s' => procs s' Mgr = manager_run n [] rest [Some (inl (m, p))] ws /\
      forall w, In w ws -> exists b, procs s' (Wk w) = Ret (EWorker b) /\ (w = D (blk size 0) -> bk_state b = pst (D (blk size 0)))).
  Proof.
    intros Hlt. pose (k0 := fun x : list wid * list wid * mresult K => let '(w', d, res) := x in match w' with [] => Ret (EManager [res] d) | _ => Ret EIdle end : proc).
    pose (m0 := pbind (send_op r n ws (OMeasure mop)) k0).
    set (s := with_proc pid_eqb sj Mgr m0).
    assert (S0 : phase s 0 m0 (fun w => worker_run rsqrt (cfg w) (envs w) (bs w))).
    { destruct (start_phase rsqrt cfg job pool (manager_run n ws ((OMeasure mop, r) :: rest) [] []) envs bs) as [H1 H2 H3 H4 H5]. constructor; auto. }
    destruct (phase_recast cap ws job s 0 _ _ (pbind (send_reduce_measure r n ws mop) (fun x => let '(w', d, mp) := x in k0 (w', d, Some (inl mp)))) (fun w => worker_run rsqrt (cfg w) (envs w) (bs w)) S0) as (t0 & G0 & S1).
    { unfold m0, mop. cbn [send_op m_soft m_reduce]. eapply peq_trans; [apply bind_assoc|]. apply peq_bind; [apply peq_refl|]. intros [[u v] w]. apply peq_refl. } { intros; apply peq_refl. }
    assert (H0 : In (blk size 0) rs) by (apply blks_in; exists 0; split; [lia|reflexivity]).
    destruct (reduce_synced [blk size 0] (fun x => let '(w', d, mp) := x in k0 (w', d, Some (inl mp))) t0) as (t1 & env' & G1 & S2 & _); [| | |exact S1|].
    { intros w. rewrite Hal. cbn [In]. split.
      - intros [Hw Hle]. split; [exact Hw|]. left. destruct (in_blk w Hw) as (i & j & Hi & Hj & ->). cbn [snd]. unfold blk in Hle. cbn [fst snd] in Hle. assert (j = 0) by nia. subst j. reflexivity.
      - intros [Hw [E|[]]]. split; [exact Hw|]. rewrite <- E. unfold blk. cbn [fst]. pose proof thr_pos. lia. }
    { repeat constructor. intros []. } { intros c [<-|[]]. exact H0. }
    assert (Ek : filter (fun w => (snd (fst w) <=? thr) && (snd (snd w) <=? thr)) ws = [] /\ filter (fun w => negb ((snd (fst w) <=? thr) && (snd (snd w) <=? thr))) ws = ws).
    { assert (X : forall w, In w ws -> (snd (fst w) <=? thr) && (snd (snd w) <=? thr) = false).
      { intros w Hw. destruct (in_blk w Hw) as (i & j & Hi & Hj & ->). unfold blk. cbn [fst snd]. destruct (Z.leb_spec ((i + 1) * size) thr); [nia|reflexivity]. }
      split; [apply filter_none; exact X|apply filter_all; intros w Hw; apply negb_true_iff; exact (X w Hw)]. }
    destruct Ek as [Ek Ed]. cbv zeta in S2. rewrite Ek, Ed in S2. cbv beta iota in S2.
    assert (Hn : NoDup als) by exact (al_nodup n bq pool Hbq Ht Hb indices).
    assert (Hin : incl als ws) by (intros w Hw; apply Hal, Hw).
    pose (b3 := fun w => if inb w als then if offd w then b1 w else set_state (b1 w) (gathered pst (outs cfg) (fst w)) else bs w).
    destruct (rpc_end cap ws job room Hcap t1 (Z.to_nat size) als _ _ (fun _ => CDone) (fun w => worker_run rsqrt (cfg w) (env' w) (b3 w)) Hn Hin S2) as (t2 & G2 & S3).
    { intros w Hw. assert (X := Hw). apply inb_ok in X. unfold b3. rewrite X. destruct (offd w) eqn:Eo; [reflexivity|]. apply offd_false in Eo. apply Hal in Hw. destruct Hw as [Hw Hle].
      assert (E0 : fst w = blk size 0). { rewrite Eo in Hle. destruct (in_blk w Hw) as (i & j & Hi & Hj & E). rewrite E in *. cbn [fst snd D] in *. unfold blk in Hle. cbn [fst] in Hle. assert (i = 0) by nia. subst i. reflexivity. }
      rewrite Eo. cbn [fst D]. rewrite E0. rewrite up_to_skips; [reflexivity|exact H0|exact ins_zero]. }
    cbv beta in S3. eapply phase_ext in S3; [|intros w Hw; instantiate (1 := fun w => worker_run rsqrt (cfg w) (env' w) (b3 w)); cbv beta; unfold b3; destruct (inb w als); reflexivity].
    destruct (close_step cap rsqrt cfg job room n bq pool Hbq Ht Hb Hcap t2 (Z.to_nat size) _ env' b3 S3) as (t3 & G3 & S4).
    destruct (phase_with cap ws job (fun e q => match e with EManager rs' d => q = manager_run n [] rest rs' d | _ => True end) (fun e q => q = pbind (send_to_each_of OClose ws) (fun _ => Fail e)) s t3 (Z.to_nat size) (Ret (EManager [Some (inl (m, p))] ws)) (fun w => Ret (EWorker (b3 w))) (manager_run n ws ((OMeasure mop, r) :: rest) [] [])) as (mq & t' & G & S & Hq); [|exact S4| |].
    { eapply go_trans; [exact G0|]. eapply go_trans; [exact G1|]. eapply go_trans; eassumption. }
    { change (procs s Mgr) with m0. unfold m0. cbn [manager_run]. apply prel_try; [|reflexivity]. intros [[w' d] res]. unfold k0. destruct w'; constructor; reflexivity. }
    assert (Emq : mq = manager_run n [] rest [Some (inl (m, p))] ws) by (inversion Hq as [e0 q0 Hx| | |]; exact Hx). clear Hq. subst mq.
    assert (G' : go sj t'). { eapply go_eqv_l; [|exact G]. apply eqv_intro; [|reflexivity]. intros [|w]; reflexivity. }
    destruct G' as [l G']. destruct S as [X1 X2 X3 X4 X5]. apply (confluence pid_eqb pid_eqb_ok cap sj l t' _ G').
    - intros [|w]; unfold exec.
      + rewrite X1. assert (Y := manager_empty rest [Some (inl (m, p))] ws). destruct (manager_run n [] rest _ ws); try contradiction; reflexivity.
      + change (Wk w) with (P w). destruct (inb w ws) eqn:E; [apply inb_ok in E; rewrite X2 by exact E; reflexivity|]. apply inb_no in E. rewrite X3 by exact E. reflexivity.
    - intros t'' [Hp _]. split.
      + assert (E := Hp Mgr). rewrite X1 in E. assert (Y := manager_empty rest [Some (inl (m, p))] ws). destruct (manager_run n [] rest _ ws); try contradiction; inversion E; reflexivity.
      + intros w Hw. exists (b3 w). split.
        * assert (E := Hp (Wk w)). change (Wk w) with (P w) in E at 1. rewrite (X2 w Hw) in E. inversion E. reflexivity.
        * intros ->. unfold b3. assert (Y : inb (D (blk size 0)) als = true) by (apply inb_ok, Hal; split; [exact Hw|]; unfold blk; cbn [fst snd D]; pose proof thr_pos; lia). rewrite Y. unfold offd. cbn [D fst snd]. rewrite range_eqb_refl. cbn [negb]. exact gathered_zero.
  Qed.

  Lemma up_to_waits u x l : In x l -> (forall w, In w l -> thr <= fst (snd w) \/ w = x) -> fst (snd x) < thr ->
    exists k, pfold (fun _ w => if (thr <=? fst (snd w)) then Ret tt else send_state job u (Wk w)) l tt = Recv (Wk x) k :> M_Net.proc pid msg unit.
  Proof.
    induction l as [|w l IH]; intros Hx H E; [destruct Hx|]. destruct (Z_lt_le_dec (fst (snd w)) thr) as [Hlt|Hle].
    - destruct (H w (or_introl eq_refl)) as [| ->]; [lia|]. eexists. cbn [pfold]. apply Z.leb_gt in Hlt. match goal with |- context [pbind (if ?bb then _ else _) _] => replace bb with false by (symmetry; exact Hlt) end. unfold send_state. cbn [pbind]. reflexivity.
    - destruct Hx as [->|Hx]; [lia|]. destruct (IH Hx) as (k & Ek); [intros y Hy; apply H; right; exact Hy|exact E|]. exists k. cbn [pfold]. apply Z.leb_le in Hle. match goal with |- context [pbind (if ?bb then _ else _) _] => replace bb with true by (symmetry; exact Hle) end. cbn [pbind]. exact Ek.
  Qed.

  Lemma reduce_deadlock : thr = size -> 2 <= N ->
    always_ends pid_eqb cap sj (fun s' => exists k k' k'',
      procs s' Mgr = Recv (Wk (D (blk size 1))) k /\ chans s' (Wk (D (blk size 1))) Mgr = [] /\
      procs s' (Wk (D (blk size 1))) = Recv (Wk (blk size 1, blk size 0)) k' /\ chans s' (Wk (blk size 1, blk size 0)) (Wk (D (blk size 1))) = [] /\
      procs s' (Wk (blk size 1, blk size 0)) = Recv Mgr k'' /\ chans s' Mgr (Wk (blk size 1, blk size 0)) = []).
  Proof.
    intros Eq HN2.
    pose (m0 := pbind (send_op r n ws (OMeasure mop)) (fun _ => Ret EIdle : proc)).
    set (s := with_proc pid_eqb sj Mgr m0).
    assert (S0 : phase s 0 m0 (fun w => worker_run rsqrt (cfg w) (envs w) (bs w))).
    { destruct (start_phase rsqrt cfg job pool (manager_run n ws ((OMeasure mop, r) :: rest) [] []) envs bs) as [H1 H2 H3 H4 H5]. constructor; auto. }
    destruct (phase_recast cap ws job s 0 _ _ (pbind (send_reduce_measure r n ws mop) (fun x => let '(_, _, _) := x in Ret EIdle)) (fun w => worker_run rsqrt (cfg w) (envs w) (bs w)) S0) as (t0 & G0 & S1).
    { unfold m0, mop. cbn [send_op m_soft m_reduce]. eapply peq_trans; [apply bind_assoc|]. apply peq_bind; [apply peq_refl|]. intros [[u v] w]. apply peq_refl. } { intros; apply peq_refl. }
    assert (H0 : In (blk size 0) rs) by (apply blks_in; exists 0; split; [lia|reflexivity]).
    assert (H1' : In (blk size 1) rs) by (apply blks_in; exists 1; split; [lia|reflexivity]).
    assert (H01 : blk size 1 <> blk size 0) by (intros E; apply blk_inj in E; [lia|exact Hsp]).
    destruct (reduce_synced [blk size 0; blk size 1] (fun x => let '(_, _, _) := x in Ret EIdle) t0) as (t1 & env' & G1 & [H1 H2 H3 H4 H5] & Hemp); [| | |exact S1|].
    { intros w. rewrite Hal. cbn [In]. split.
      - intros [Hw Hle]. split; [exact Hw|]. destruct (in_blk w Hw) as (i & j & Hi & Hj & ->). cbn [snd]. unfold blk in Hle. cbn [fst snd] in Hle. assert (j = 0 \/ j = 1) as [-> | ->] by nia; auto.
      - intros [Hw [E|[E|[]]]]; (split; [exact Hw|]); rewrite <- E; unfold blk; cbn [fst]; pose proof thr_pos; lia. }
    { constructor; [intros [E|[]]; congruence|]. repeat constructor. intros []. } { intros c [<-|[<-|[]]]; assumption. }
    cbv zeta in H1.
    assert (Hn : NoDup als) by exact (al_nodup n bq pool Hbq Ht Hb indices).
    assert (Hin : incl als ws) by (intros w Hw; apply Hal, Hw).
    set (D1 := D (blk size 1)) in *. set (w10 := (blk size 1, blk size 0) : wid) in *.
    assert (HD1 : In D1 ws) by (apply Hws; cbn; auto). assert (Hw10 : In w10 ws) by (apply Hws; cbn; auto).
    assert (HD1a : In D1 als) by (apply Hal; split; [exact HD1|]; unfold D1, D, blk; cbn [fst snd]; lia).
    assert (Hw10a : In w10 als) by (apply Hal; split; [exact Hw10|]; unfold w10, blk; cbn [fst snd]; pose proof thr_pos; lia).
    assert (Hne : w10 <> D1) by (intros E; apply H01; unfold w10, D1, D in E; congruence).
    pose (b3 := fun w => if offd w then b1 w else set_state (b1 w) (gathered pst (outs cfg) (fst w))).
    assert (Hwait : exists k, procs t1 (P D1) = Recv (P w10) k).
    { rewrite (H2 D1 HD1). apply inb_ok in HD1a. rewrite HD1a. unfold offd, D1, D. cbn [fst snd]. rewrite range_eqb_refl. cbn [negb]. fold (D (blk size 1)).
      unfold send_state_up_to. change (input_workers (c_reg (cfg (D (blk size 1)))) (blk size 1)) with (ins cfg (blk size 1)).
      edestruct (up_to_waits (gathered pst (outs cfg) (blk size 1)) w10 (ins cfg (blk size 1))) as (k & Ek).
      - apply (ins_in ws rs cfg Hws Hreg); [exact H1'|]. split; [exact Hw10|]. split; [reflexivity|]. cbn [w10 snd]. congruence.
      - intros w Hw. apply (ins_in ws rs cfg Hws Hreg) in Hw; [|exact H1']. destruct Hw as (Hw & E1 & E2). destruct (in_blk w Hw) as (i & j & Hi & Hj & ->). cbn [fst snd] in *. destruct (Z.eq_dec j 0) as [->|]; [right; unfold w10; congruence|]. left. unfold blk. cbn [fst]. nia.
      - unfold w10, blk. cbn [fst snd]. pose proof thr_pos. lia.
      - eexists. match goal with |- pbind ?q _ = _ => replace q with (Recv (Wk w10) k : M_Net.proc pid msg unit) by (symmetry; exact Ek) end. cbn [pbind]. reflexivity. }
    destruct Hwait as (kw & Hwait).
    pose (good := fun w => negb (wid_eqb w D1)).
    match type of H1 with _ = pbind _ ?kk1 => destruct (manager_stuck cap ws room Hcap t1 als kk1 good (fun _ => CDone) (fun w => worker_run rsqrt (cfg w) (env' w) (b3 w)) D1) as (t2 & w0 & k' & G2 & Hw0 & E0 & P0 & C0 & Pg & Px & Cx) end.
    { exact Hn. } { exact Hin. } { exact H1. }
    { intros w Hw Eg. rewrite (H2 w (Hin w Hw)). assert (X := Hw). apply inb_ok in X. rewrite X. unfold b3. destruct (offd w) eqn:Eo; [reflexivity|]. apply offd_false in Eo. apply Hal in Hw. destruct Hw as [Hw Hle].
      assert (E0 : fst w = blk size 0). { rewrite Eo in Hle. destruct (in_blk w Hw) as (i & j & Hi & Hj & E). rewrite E in *. cbn [fst snd D] in *. unfold blk in Hle. cbn [fst] in Hle. assert (i = 0 \/ i = 1) as [-> | ->] by nia; [reflexivity|]. exfalso. unfold good in Eg. assert (Y : wid_eqb (blk size 1, blk size j) D1 = true) by (apply wid_eqb_ok; exact Eo). rewrite Y in Eg. discriminate. }
      rewrite Eo. cbn [fst D]. rewrite E0. rewrite up_to_skips; [reflexivity|exact H0|exact ins_zero]. }
    { intros w Hw. apply H4, Hin, Hw. } { exact HD1a. } { unfold good. rewrite (proj2 (wid_eqb_ok D1 D1) eq_refl). reflexivity. }
    assert (w0 = D1) as ->. { unfold good in E0. apply negb_false_iff in E0. apply wid_eqb_ok in E0. exact E0. }
    assert (PD1 : procs t2 (P D1) = Recv (P w10) kw). { rewrite Px; [exact Hwait|discriminate|]. intros w Hw Eg E. apply P_inj in E. subst w. congruence. }
    assert (CD1 : chans t2 (P w10) (P D1) = []). { rewrite Cx by discriminate. exact (Hemp w10 Hw10 H01). }
    assert (Hg10 : good w10 = true). { unfold good. apply negb_true_iff. destruct (wid_eqb w10 D1) eqn:E; [apply wid_eqb_ok in E; contradiction|reflexivity]. }
    destruct (go_with pid_eqb pid_eqb_ok cap (fun _ _ => True) (fun e q => q = pbind (send_to_each_of OClose ws) (fun _ => Fail e)) Mgr s t2 (manager_run n ws ((OMeasure mop, r) :: rest) [] [])) as (mq & G & Hmq).
    { eapply go_trans; [exact G0|]. eapply go_trans; eassumption. }
    { change (procs s Mgr) with m0. unfold m0. cbn [manager_run]. apply prel_try; [|reflexivity]. intros y. constructor. exact I. }
    rewrite P0 in Hmq. assert (Emq : exists k'', mq = Recv (P D1) k'') by (inversion Hmq; subst; eauto). destruct Emq as (k'' & ->).
    set (t := with_proc pid_eqb t2 Mgr (Recv (P D1) k'')) in *.
    assert (G' : go sj t). { eapply go_eqv_l; [|exact G]. apply eqv_intro; [|reflexivity]. intros [|w]; reflexivity. }
    destruct G' as [l G']. apply (confluence pid_eqb pid_eqb_ok cap sj l t _ G').
    - intros [|w]; unfold exec.
      + change (procs t Mgr) with (Recv (P D1) k'' : proc). assert (C0' : chans t (P D1) Mgr = []) by exact C0. cbv iota beta. rewrite C0'. reflexivity.
      + change (procs t (Wk w)) with (procs t2 (P w)). destruct (inb w als) eqn:E.
        * apply inb_ok in E. destruct (good w) eqn:Eg.
          -- rewrite (Pg w E Eg). rewrite worker_run_eq. change (chans t Mgr (Wk w)) with (chans t2 Mgr (P w)). rewrite Cx by discriminate. rewrite (proj1 (H4 w (Hin w E))). reflexivity.
          -- unfold good in Eg. apply negb_false_iff in Eg. apply wid_eqb_ok in Eg. subst w. rewrite PD1. change (chans t (P w10) (Wk D1)) with (chans t2 (P w10) (P D1)). rewrite CD1. reflexivity.
        * rewrite Px; [|discriminate|intros w' Hw' _ E'; apply P_inj in E'; subst w'; apply inb_no in E; contradiction]. destruct (inb w ws) eqn:Ew.
          -- apply inb_ok in Ew. rewrite (H2 w Ew), E, worker_run_eq. change (chans t Mgr (Wk w)) with (chans t2 Mgr (P w)). rewrite Cx by discriminate. rewrite (proj1 (H4 w Ew)). reflexivity.
          -- apply inb_no in Ew. rewrite (H3 w Ew). reflexivity.
    - intros t' [Hp Hc]. assert (E := Hp Mgr). change (procs t Mgr) with (Recv (P D1) k'' : proc) in E. inversion E. subst.
      assert (E2 := Hp (Wk D1)). change (procs t (Wk D1)) with (procs t2 (P D1)) in E2. rewrite PD1 in E2. inversion E2. subst.
      assert (E3 := Hp (Wk w10)). change (procs t (Wk w10)) with (procs t2 (P w10)) in E3. rewrite (Pg w10 Hw10a Hg10), worker_run_eq in E3. inversion E3. subst.
      do 3 eexists. split; [reflexivity|]. split; [rewrite <- Hc; exact C0|]. split; [reflexivity|]. split; [rewrite <- Hc; exact CD1|]. split; [reflexivity|]. rewrite <- Hc. change (chans t2 Mgr (P w10) = []). rewrite Cx by discriminate. apply H4, Hw10.
  Qed.
End Inside.
