(** Operations of the whole pool compute what one computer computes. *)
From Verif Require Import Base M_Bits L_Bits M_Kron S_Kron L_Kron L_Kron2 L_Kron3 M_Feed M_Measure M_Pool S_Pool M_Net S_Net L_Net M_Worker S_Worker L_Worker1 L_Worker2 L_Worker3 L_Worker4 L_Job.

(** ** The ranges of a pool *)
Definition blk (size i : Z) : range := (i * size, (i + 1) * size).
Definition blks (size N : Z) : list range := map (blk size) (zrange 0 N).
Lemma blk_inj size i j : 0 < size -> blk size i = blk size j -> i = j.
Proof. intros Hs E. unfold blk in E. injection E as E _. nia. Qed.
Lemma blk_at size i j : 0 < size -> j * size <= i * size < (j + 1) * size -> j = i.
Proof. intros Hs [H1 H2]. apply Z.mul_le_mono_pos_r in H1; [|exact Hs]. apply Z.mul_lt_mono_pos_r in H2; [|exact Hs]. lia. Qed.
Lemma blks_nodup size N : 0 < size -> NoDup (blks size N).
Proof. intros Hs. apply FinFun.Injective_map_NoDup; [|apply zrange_nodup]. intros i j. apply blk_inj, Hs. Qed.
Lemma blks_in size N r : In r (blks size N) <-> exists i, 0 <= i < N /\ r = blk size i.
Proof. unfold blks. rewrite in_map_iff. split; intros (i & H1 & H2); exists i; [rewrite in_zrange in H2; auto|rewrite in_zrange; auto]. Qed.

Section Geometry.
  Context (N size : Z) (pool : list entry).
  Hypothesis Hs : 0 < size.
  Hypothesis Ht : tiles (N * size) pool.
  Hypothesis Hb : blocks size pool.
  Lemma owns_corner e i j : en_in e = blk size i -> en_out e = blk size j -> owns e (j * size) (i * size).
  Proof. intros E1 E2. unfold owns. rewrite E1, E2. unfold blk. cbn [fst snd]. nia. Qed.
  Lemma blk_in_range i : 0 <= i < N -> 0 <= i * size < N * size.
  Proof. intros [H1 H2]. split; [apply Z.mul_nonneg_nonneg; lia|apply Z.mul_lt_mono_pos_r; lia]. Qed.
  Lemma blk_out_range i : 0 <= i * size < N * size -> 0 <= i < N.
  Proof. intros [H1 H2]. apply Z.mul_lt_mono_pos_r in H2; [|exact Hs]. split; [nia|exact H2]. Qed.
  Lemma pool_in w : In w (map fst pool) <-> In (fst w) (blks size N) /\ In (snd w) (blks size N).
  Proof.
    split.
    - intros H. apply in_map_iff in H. destruct H as (e & <- & He). destruct (Hb e He) as (i & j & E1 & E2). fold (blk size i) in E1. fold (blk size j) in E2.
      destruct (proj2 Ht e (j * size) (i * size) He (owns_corner e i j E1 E2)) as [B1 B2]. fold (en_in e). fold (en_out e). rewrite !blks_in.
      split; [exists i|exists j]; (split; [apply blk_out_range; assumption|assumption]).
    - rewrite !blks_in. intros [(i & Hi & E1) (j & Hj & E2)]. destruct (proj1 Ht (j * size) (i * size) (blk_in_range j Hj) (blk_in_range i Hi)) as (k & e & Ek & He & _).
      assert (Hin := nth_error_In _ _ Ek). destruct (Hb e Hin) as (i' & j' & F1 & F2). apply in_map_iff. exists e. split; [|exact Hin]. unfold owns in He. rewrite F1, F2 in He. cbn [fst snd] in He.
      assert (i' = i) by (eapply blk_at; [exact Hs|apply He..]). assert (j' = j) by (eapply blk_at; [exact Hs|apply He..]). subst i' j'. unfold en_in in F1. unfold en_out in F2. destruct w, (fst e). cbn [fst snd] in *. subst. reflexivity.
  Qed.
  Lemma pool_nodup : NoDup (map fst pool).
  Proof.
    apply NoDup_nth_error. intros k l Hk E. rewrite map_length in Hk.
    assert (E' : option_map fst (nth_error pool k) = option_map fst (nth_error pool l)) by (rewrite <- !nth_error_map; exact E). clear E. rename E' into E.
    destruct (nth_error pool k) as [e|] eqn:Ek; [|apply nth_error_None in Ek; exfalso; exact (Nat.lt_irrefl _ (Nat.lt_le_trans _ _ _ Hk Ek))]. destruct (nth_error pool l) as [e'|] eqn:El; [|cbn [option_map] in E; discriminate]. cbn [option_map] in E. assert (E0 : fst e = fst e') by congruence. clear E. rename E0 into E.
    assert (Hin := nth_error_In _ _ Ek). destruct (Hb e Hin) as (i & j & E1 & E2). fold (blk size i) in E1. fold (blk size j) in E2.
    assert (Ho := owns_corner e i j E1 E2). destruct (proj2 Ht _ _ _ Hin Ho) as [B1 B2].
    destruct (proj1 Ht _ _ B1 B2) as (q & x & Eq & _ & Hu).
    assert (Ho' : owns e' (j * size) (i * size)) by (unfold owns, en_in, en_out in *; rewrite <- E; exact Ho).
    rewrite (Hu k e Ek Ho), (Hu l e' El Ho'). reflexivity.
  Qed.
End Geometry.

Section JobL.
  Context {K : Type} {OK : OrdRing K}.
  Notation C := (Cx K).
  Add Ring CxRW5 : (@rth C _).

  Lemma slice_length (vec : list C) size i N : 0 < size -> zlen vec = N * size -> 0 <= i < N -> zlen (slice (blk size i) vec) = size.
  Proof. intros Hs Hv Hi. unfold slice, pyslice, blk, zlen in *. cbn [fst snd]. rewrite firstn_length, skipn_length. nia. Qed.
  Lemma slice_sum (vec : list C) size c : 0 < size -> forall N, 0 <= N -> zlen vec = N * size ->
    slice_at 0 vec c = sum (blks size N) (fun r => slice_at (fst r) (slice r vec) c).
  Proof.
    intros Hs N HN Hv. assert (G : forall k, (Z.of_nat k <= N) -> slice_at 0 (firstn (Z.to_nat (Z.of_nat k * size)) vec) c = sum (blks size (Z.of_nat k)) (fun r => slice_at (fst r) (slice r vec) c)).
    { induction k as [|k IH]; intros Hk; [cbn; apply slice_at_nil|]. unfold blks. replace (Z.of_nat (S k)) with (Z.of_nat k + 1) by lia. rewrite zrange_snoc by lia. rewrite map_app, sum_app. cbn [map sum].
      replace (Z.of_nat k + 1 - 1) with (Z.of_nat k) by lia.
      fold (blks size (Z.of_nat k)). rewrite <- IH by lia. replace (Z.to_nat ((Z.of_nat k + 1) * size)) with (Z.to_nat (Z.of_nat k * size) + Z.to_nat size)%nat by nia.
      rewrite firstn_skipn_add, slice_at_app. unfold slice, pyslice, blk. cbn [fst snd]. replace (Z.to_nat ((Z.of_nat k + 1) * size - Z.of_nat k * size)) with (Z.to_nat size) by nia.
      replace (0 + zlen (firstn (Z.to_nat (Z.of_nat k * size)) vec)) with (Z.of_nat k * size); [ring|]. unfold zlen in *. rewrite firstn_length. nia. }
    specialize (G (Z.to_nat N) ltac:(lia)). rewrite Z2Nat.id in G by exact HN. rewrite <- G, firstn_all2; [reflexivity|]. unfold zlen in Hv. lia.
  Qed.
  Lemma zip_znth (l l' : list C) i : length l = length l' -> znth 0%r (zip_with (upd_fn false) l l') i = (znth 0%r l i + znth 0%r l' i)%r.
  Proof.
    intros E. assert (Ez : zlen (zip_with (upd_fn false) l l') = zlen l) by (unfold zlen; rewrite zip_length; lia). assert (El : zlen l = zlen l') by (unfold zlen; lia).
    destruct (Z.ltb_spec i 0); [rewrite !znth_out by lia; ring|]. destruct (Z.ltb_spec i (zlen l)); [|rewrite !znth_out by lia; ring].
    unfold zip_with. rewrite (znth_map _ (0%r, 0%r)) by (unfold zip_with, zlen in *; rewrite map_length in Ez; lia). rewrite !znth_nth by lia. rewrite combine_nth by exact E. reflexivity.
  Qed.
  Lemma fold_zip_znth (v : wid -> list C) i l size : (forall w, In w l -> length (v w) = size) -> forall vec, length vec = size ->
    znth 0%r (fold_left (fun vec w => zip_with (upd_fn false) vec (v w)) l vec) i = (znth 0%r vec i + sum l (fun w => znth 0%r (v w) i))%r.
  Proof.
    induction l as [|w l IH]; intros Hl vec Hv; cbn [fold_left sum]; [ring|]. assert (Hw := Hl w (or_introl eq_refl)). rewrite IH; [|intros x Hx; apply Hl; right; exact Hx|rewrite zip_length; lia].
    rewrite zip_znth by lia. ring.
  Qed.
  (** the contributions of all workers with one output range *)
  Lemma gathered_result n (mats : mats_arg K) (full : list C) N size (v : wid -> list C) (l : list wid) (a : range) :
    0 < size -> 0 <= N -> zlen full = N * size -> In a (blks size N) -> NoDup l -> (forall w, In w l <-> In (fst w) (blks size N) /\ fst w <> a /\ snd w = a) ->
    (forall r, In r (blks size N) -> v (r, a) = kron_result n mats (slice r full) (fst r) (fst a) size) ->
    fold_left (fun vec w => zip_with (upd_fn false) vec (v w)) l (v (a, a)) = slice a (kron_result n mats full 0 0 (N * size)).
  Proof.
    intros Hs HN Hf Ha Hnd Hl Hv.
    assert (Hvl : forall r, In r (blks size N) -> length (v (r, a)) = Z.to_nat size) by (intros r Hr; rewrite Hv by exact Hr; unfold kron_result; rewrite map_length, zrange_length; f_equal; lia).
    assert (Hvw : forall w, In w l -> length (v w) = Z.to_nat size) by (intros [r a'] Hw; apply Hl in Hw; cbn in Hw; destruct Hw as (H1 & _ & ->); apply Hvl, H1).
    assert (Hlen : zlen (fold_left (fun vec w => zip_with (upd_fn false) vec (v w)) l (v (a, a))) = size).
    { unfold zlen. rewrite fold_zip_length with (size := Z.to_nat size) (ws := l); auto. lia. }
    apply blks_in in Ha. destruct Ha as (j & Hj & Ea). assert (Ha : In a (blks size N)) by (apply blks_in; eauto).
    apply list_eq_znth with (d := 0%r).
    - rewrite Hlen. symmetry. rewrite Ea. apply slice_length with (N := N); auto. unfold kron_result, zlen. rewrite map_length, zrange_length. nia.
    - rewrite Hlen. intros i Hi. rewrite fold_zip_znth with (size := Z.to_nat size) by auto.
      transitivity (sum (blks size N) (fun r => znth 0%r (v (r, a)) i)).
      { rewrite (sum_perm (blks size N) (a :: map fst l)).
        - cbn [sum]. f_equal. rewrite sum_map. apply sum_ext. intros [r a'] Hw. apply Hl in Hw. cbn in *. destruct Hw as (_ & _ & ->). reflexivity.
        - apply NoDup_Permutation; [apply blks_nodup, Hs| |].
          + constructor; [intros H; apply in_map_iff in H; destruct H as (w & E & Hw); apply Hl in Hw; tauto|].
            clear - Hnd Hl. assert (G : forall w, In w l -> snd w = a) by (intros w Hw; apply Hl in Hw; tauto). clear Hl. induction Hnd as [|[r a'] l Hn Hnd IH]; cbn [map]; constructor.
            * intros H. apply in_map_iff in H. destruct H as ([r' b'] & E & Hw). cbn in E. subst r'. assert (E1 := G _ (or_intror Hw)). assert (E2 := G _ (or_introl eq_refl)). cbn in *. subst. contradiction.
            * apply IH. intros w Hw. apply G. right. exact Hw.
          + intros r. cbn [In]. rewrite in_map_iff. split.
            * intros Hr. destruct (range_eqb a r) eqn:E; [left; apply range_eqb_ok, E|right]. exists (r, a). split; [reflexivity|]. apply Hl. cbn. split; [exact Hr|]. split; [intros ->|reflexivity].
              assert (range_eqb a a = true) by (apply range_eqb_ok; reflexivity). congruence.
            * intros [<-|(w & <- & Hw)]; [exact Ha|]. apply Hl in Hw. tauto. }
      transitivity (kron_apply n (mats_groups mats) (slice_at 0 full) (i + fst a)).
      { rewrite (kron_apply_ext n (mats_groups mats) (slice_at 0 full) (fun c => sum (blks size N) (fun r => slice_at (fst r) (slice r full) c))) by (intros c _; apply slice_sum; auto).
        rewrite kron_apply_sum. apply sum_ext. intros r Hr. rewrite Hv by exact Hr. unfold kron_result. rewrite znth_map_zrange by lia. reflexivity. }
      unfold slice, kron_result. rewrite pyslice_map. unfold pyslice. rewrite firstn_skipn_zrange by (rewrite Ea; unfold blk; cbn; nia).
      rewrite znth_map_zrange by (rewrite Ea; unfold blk; cbn; nia). f_equal. lia.
  Qed.
End JobL.

Lemma kron_result_zlen {K} {OK : OrdRing K} n (mats : mats_arg K) vec i o len : 0 <= len -> zlen (kron_result n mats vec i o len) = len.
Proof. intros H. unfold kron_result, zlen. rewrite map_length, zrange_length. lia. Qed.

Section RunL.
  Context {K : Type} {OK : OrdRing K}.
  Notation C := (Cx K).
  Notation msg := (msg K).
  Variable cap : pid -> pid -> option nat.
  Notation go := (go pid_eqb cap).
  Context (rsqrt : K -> K) (cfg : wid -> worker_cfg) (job : Z) (room : nat) (n bq : Z) (pool : list entry).
  Let ws : list wid := map fst pool.
  Let size := 2 ^ bq.
  Let N := 2 ^ (n - bq).
  Let rs := blks size N.
  Let sz := Z.to_nat size.
  Hypothesis Hbq : 0 <= bq <= n.
  Hypothesis Ht : tiles (2 ^ n) pool.
  Hypothesis Hb : blocks (2 ^ bq) pool.
  Hypothesis Hcfg : configured job ws cfg.
  Hypothesis Hreg : connected ws cfg.
  Hypothesis Hcap : capacities cap ws room.

  Lemma size_pos : 0 < size. Proof. apply Z.pow_pos_nonneg; lia. Qed.
  Lemma N_pos : 0 < N. Proof. apply Z.pow_pos_nonneg; lia. Qed.
  Lemma Nsize : N * size = 2 ^ n. Proof. unfold N, size. rewrite <- Z.pow_add_r by lia. f_equal. lia. Qed.
  Lemma sz_pos : (0 < sz)%nat. Proof. pose proof size_pos. unfold sz. lia. Qed.
  Lemma sz_Z : Z.of_nat sz = size. Proof. pose proof size_pos. unfold sz. lia. Qed.
  Lemma Hnd : NoDup ws. Proof. apply pool_nodup with (N := N) (size := size); [apply size_pos|rewrite Nsize; exact Ht|exact Hb]. Qed.
  Lemma Hnr : NoDup rs. Proof. apply blks_nodup, size_pos. Qed.
  Lemma Hws w : In w ws <-> In (fst w) rs /\ In (snd w) rs.
  Proof. apply pool_in; [apply size_pos|rewrite Nsize; exact Ht|exact Hb]. Qed.
  Notation phase := (phase ws job).

  Lemma holds_length (full : list C) w (b : backend K) : zlen full = 2 ^ n -> In w ws -> holds n full w b -> zlen (bk_state b) = size.
  Proof.
    intros Hf Hw (_ & E & _). rewrite E. apply Hws in Hw. destruct Hw as [Hw _]. apply blks_in in Hw. destruct Hw as (i & Hi & ->).
    apply slice_length with (N := N); [apply size_pos|rewrite Nsize; exact Hf|exact Hi].
  Qed.
  Lemma range_bounds a : In a rs -> 0 <= fst a /\ fst a + size <= 2 ^ n.
  Proof. intros H. apply blks_in in H. destruct H as (i & Hi & ->). unfold blk. cbn [fst]. rewrite <- Nsize. pose proof size_pos. nia. Qed.

  (** one kron operation: apply, then sync *)
  Lemma kron_step s L (mats : mats_arg K) k envs bs (full : list C) : (L + sz + 1 <= room)%nat ->
    phase s L (pbind (send_kronprod ws (OKron mats)) k) (fun w => worker_run rsqrt (cfg w) (envs w) (bs w)) ->
    zlen full = 2 ^ n -> (forall w, In w ws -> holds n full w (bs w)) -> mats_wf n mats -> (forall km, In km mats -> shape_ok km) -> rectangular (map fst (mats_groups mats)) = true ->
    (forall w, In w ws -> scheduled size 2 (envs w)) ->
    exists t bs', go s t /\ phase t (L + sz) (k tt) (fun w => worker_run rsqrt (cfg w) (tl (tl (envs w))) (bs' w)) /\
      forall w, In w ws -> holds n (kron_result n mats full 0 0 (2 ^ n)) w (bs' w).
  Proof.
    intros Hroom Hs Hf Hh Hm Hsh Hrect He.
    pose (b1 := fun w : wid => mkBackend n (kron_result n mats (slice (fst w) full) (fst (fst w)) (fst (snd w)) size) (slice (fst w) full)).
    pose (b1' := fun w : wid => if inb w ws then b1 w else bs w).
    set (k2 := fun _ : list (conf K) => pbind (map_workers_via_op (OSync (Some 0) false) ws) (fun _ => k tt)).
    destruct (phase_recast cap ws job s L _ _ (pbind (map_workers_via_op (OKron mats) ws) k2) (fun w => worker_run rsqrt (cfg w) (envs w) (bs w)) Hs) as (t0 & G0 & S0).
    { unfold send_kronprod, k2. eapply peq_trans; [apply bind_assoc|]. apply peq_bind; [apply peq_refl|]. intros c. eapply peq_trans; [apply bind_assoc|]. apply peq_refl. }
    { intros; apply peq_refl. }
    destruct (rpc_local cap rsqrt ws cfg job room Hcap t0 L (OKron mats) ws k2 envs bs b1' (fun _ => CDone) Hnd (incl_refl _) ltac:(discriminate) S0) as (t1 & G1 & S1).
    { intros w Hw. destruct (He w Hw) as [Hl Hp]. destruct (envs w) as [|e es]; [cbn in Hl; lia|]. exists e, es. split; [reflexivity|].
      unfold b1'. assert (Hi := Hw). apply inb_ok in Hi. rewrite Hi. cbn [worker_op]. unfold bk_kronselect_dot.
      destruct (Hh w Hw) as (E1 & E2 & E3). destruct (Hcfg w Hw) as (_ & Eid & _). rewrite Eid. assert (Hsl := holds_length full w _ Hf Hw (Hh w Hw)).
      apply Hws in Hw. destruct Hw as [Hw1 Hw2]. destruct (range_bounds _ Hw1) as [B1 B2]. destruct (range_bounds _ Hw2) as [B3 B4].
      rewrite E1, kronselect_dot_ok; [|lia|exact B1|exact B3|lia|lia|apply Hm|apply mats_wf_groups; auto|].
      - rewrite E3, Hsl, E2. reflexivity.
      - cbn. rewrite E3, Hsl. split; [apply Hp; left; reflexivity|exact Hrect]. }
    { intros w Hw. unfold b1'. apply inb_no in Hw. rewrite Hw. reflexivity. }
    apply phase_ext with (pw' := fun w => worker_run rsqrt (cfg w) (tl (envs w)) (b1 w)) in S1; [|intros w Hw; unfold b1'; apply inb_ok in Hw; rewrite Hw; reflexivity].
    destruct (rpc_sync cap rsqrt ws rs cfg job sz room Hnd Hnr Hws Hcfg Hreg Hcap sz_pos (fun w => tl (envs w)) b1 (Some 0) eq_refl) with (s := t1) (L := L) (ow := false) (k := fun _ : list (conf K) => k tt) as (t2 & G2 & S2).
    { intros w Hw. unfold b1, kron_result. cbn [bk_state]. rewrite map_length, zrange_length. unfold sz. f_equal. lia. }
    { intros w Hw. destruct (He w Hw) as [Hl _]. destruct (envs w) as [|e [|e' es]]; cbn in Hl; try lia. discriminate. }
    { exact Hroom. } { exact S1. }
    exists t2, (fun w => set_state (b1 w) (synced cfg b1 false (fst w))). split; [eapply go_trans; [exact G0|]; eapply go_trans; eassumption|]. split; [exact S2|].
    intros w Hw. assert (Ha : In (fst w) rs) by (apply Hws; exact Hw).
    assert (E : synced cfg b1 false (fst w) = slice (fst w) (kron_result n mats full 0 0 (2 ^ n))).
    { rewrite <- Nsize. apply (gathered_result n mats full N size (fun w => bk_state (b1 w)) (outs cfg (fst w)) (fst w)); [apply size_pos|pose proof N_pos; lia|rewrite Nsize; exact Hf|exact Ha| | |].
      - apply outs_nodup with (ws := ws) (rs := rs); [exact Hnd|exact Hws|exact Hreg|exact Ha].
      - intros x. rewrite (outs_in ws rs cfg Hws Hreg (fst w) x Ha), Hws. split; [intros ((H1 & H2) & H3 & H4); auto|intros (H1 & H2 & H3); rewrite H3; auto].
      - intros r Hr. reflexivity. }
    unfold holds, set_state. cbn [bk_n bk_state bk_arena]. split; [reflexivity|]. split; [exact E|]. rewrite E. unfold b1. cbn [bk_arena]. clearbody b1'. clear E.
    apply blks_in in Ha. destruct Ha as (i & Hi & ->). pose proof Nsize.
    rewrite (slice_length full size i N size_pos), (slice_length _ size i N size_pos); auto; [|congruence]. rewrite kron_result_zlen by lia. congruence.
  Qed.

  (** closing *)
  Lemma close_step s L res envs bs : phase s L (pbind (send_to_each_of OClose ws) (fun _ => Ret res)) (fun w => worker_run rsqrt (cfg w) (envs w) (bs w)) ->
    exists t, go s t /\ phase t L (Ret res) (fun w => Ret (EWorker (bs w))).
  Proof.
    intros Hs. destruct (rpc_begin cap rsqrt ws cfg job room Hcap s L OClose ws (fun _ => Ret res) envs bs Hnd (incl_refl _) Hs) as (t & G & S).
    exists t. split; [exact G|]. eapply phase_ext; [exact S|]. intros w Hw. apply inb_ok in Hw. cbn beta. rewrite Hw. reflexivity.
  Qed.
  Lemma phase_ends s t L (res : ending K) bs (Q : net pid msg (ending K) -> Prop) : go s t -> phase t L (Ret res) (fun w => Ret (EWorker (bs w))) ->
    (forall t', procs t' Mgr = Ret res -> (forall w, In w ws -> procs t' (Wk w) = Ret (EWorker (bs w))) -> Q t') -> always_ends pid_eqb cap s Q.
  Proof.
    intros [l G] [H1 H2 H3 H4 H5] HQ. apply (confluence pid_eqb pid_eqb_ok cap s l t _ G).
    - intros [|w]; unfold exec; [rewrite H1; reflexivity|]. change (Wk w) with (P w). destruct (inb w ws) eqn:E; [apply inb_ok in E; rewrite H2 by exact E; reflexivity|]. apply inb_no in E. rewrite H3 by exact E. reflexivity.
    - intros t' [He _]. apply HQ.
      + assert (H := He Mgr). rewrite H1 in H. inversion H. auto.
      + intros w Hw. assert (H := He (Wk w)). change (Wk w) with (P w) in H at 1. rewrite (H2 w Hw) in H. inversion H. auto.
  Qed.

  (** the operations of a job *)
  Lemma kron_steps lops : forall jops s L res freed envs bs (lb final : backend K), (L + length lops * sz + 1 <= room)%nat ->
    map fst jops = map (fun o => OKron (fst o)) lops ->
    phase s L (manager_run0 n ws jops res freed) (fun w => worker_run rsqrt (cfg w) (envs w) (bs w)) ->
    bk_n lb = n -> zlen (bk_state lb) = 2 ^ n -> zlen (bk_arena lb) = 2 ^ n -> (forall w, In w ws -> holds n (bk_state lb) w (bs w)) ->
    (forall o, In o lops -> mats_wf n (fst o) /\ Permutation (snd o) (zrange 0 (2 ^ n))) -> local_run lb lops = Ok final ->
    (forall w, In w ws -> scheduled size (2 * length lops) (envs w)) ->
    exists t bs' envs', go s t /\ phase t (L + length lops * sz) (manager_run0 n ws [] (res ++ map (fun _ => None) lops) freed) (fun w => worker_run rsqrt (cfg w) (envs' w) (bs' w)) /\
      forall w, In w ws -> holds n (bk_state final) w (bs' w).
  Proof.
    induction lops as [|[mats sched] lops IH]; intros jops s L res freed envs bs lb final Hroom Hj Hs Hn Hst Har Hh Hops Hl He.
    - destruct jops; [|discriminate]. injection Hl as <-. exists s, bs, envs. split; [apply go_refl, eqv_refl|]. rewrite app_nil_r. cbn [length Nat.mul]. rewrite Nat.add_0_r. auto.
    - destruct jops as [|[op r] jops]; [discriminate|]. cbn [map fst snd] in Hj. injection Hj as Ho Hj. subst op.
      unfold local_run in Hl. cbn [mfold fst snd] in Hl. unfold bk_kronselect_dot in Hl at 1. destruct (kronselect_dot mats (bk_state lb) (bk_n lb) (bk_arena lb) 0 0 (Cython sched)) as [out|] eqn:Ek; [|discriminate]. cbn [bind] in Hl.
      destruct (Hops (mats, sched) (or_introl eq_refl)) as [Hm Hp]. cbn [fst snd] in Hm, Hp. rewrite Hn in Ek.
      assert (Hp' : Permutation sched (zrange 0 (zlen (bk_arena lb)))) by (rewrite Har; exact Hp).
      assert (Hacc := proj1 (kron_accept_c mats _ n _ 0 0 sched ltac:(lia) (Z.le_refl 0) (Z.le_refl 0) Hm Hp') (ex_intro _ out Ek)). destruct Hacc as [(_ & _ & Hsh) Hrect].
      assert (Eout := kron_partial_correct mats _ n _ 0 0 (Cython sched) out ltac:(lia) (Z.le_refl 0) (Z.le_refl 0) Hm Hp' Ek). rewrite Har in Eout.
      cbn [length] in Hroom, He.
      destruct (phase_recast cap ws job s L _ _ (pbind (send_kronprod ws (OKron mats)) (fun _ => manager_run0 n ws jops (res ++ [None]) (freed ++ []))) (fun w => worker_run rsqrt (cfg w) (envs w) (bs w)) Hs) as (t0 & G0 & S0).
      { cbn [manager_run0 send_op]. eapply peq_trans; [apply bind_assoc|]. apply peq_refl. } { intros; apply peq_refl. }
      destruct (kron_step t0 L mats _ envs bs (bk_state lb) ltac:(lia) S0 Hst Hh Hm Hsh Hrect) as (t1 & b1 & G1 & S1 & Hh1).
      { intros w Hw. destruct (He w Hw) as [H1 H2]. split; [lia|exact H2]. }
      destruct (IH jops t1 (L + sz)%nat (res ++ [None]) (freed ++ []) (fun w => tl (tl (envs w))) b1 (mkBackend (bk_n lb) out (bk_state lb)) final) as (t & bs' & envs' & G & SS & Hh').
      { lia. } { exact Hj. } { exact S1. } { exact Hn. } { cbn [bk_state]. rewrite Eout. apply kron_result_zlen. pose proof Nsize. pose proof N_pos. pose proof size_pos. nia. } { exact Hst. } { cbn [bk_state]. rewrite Eout. exact Hh1. }
      { intros o Ho. apply Hops. right. exact Ho. } { exact Hl. }
      { intros w Hw. destruct (He w Hw) as [H1 H2]. destruct (envs w) as [|e1 [|e2 es]]; cbn [length] in H1; [lia|lia|]. cbn [tl]. split; [lia|]. intros e Hin. apply H2. right. right. exact Hin. }
      exists t, bs', envs'. split; [eapply go_trans; [exact G0|]; eapply go_trans; eassumption|]. split; [|exact Hh'].
      rewrite <- app_assoc, app_nil_r in SS. cbn [app] in SS. cbn [length map]. replace (L + S (length lops) * sz)%nat with (L + sz + length lops * sz)%nat by lia. exact SS.
  Qed.

  Lemma job_ends lops jops envs bs (lb final : backend K) : (length lops * sz + 1 <= room)%nat -> map fst jops = map (fun o => OKron (fst o)) lops ->
    bk_n lb = n -> zlen (bk_state lb) = 2 ^ n -> zlen (bk_arena lb) = 2 ^ n -> (forall w, In w ws -> holds n (bk_state lb) w (bs w)) ->
    (forall o, In o lops -> mats_wf n (fst o) /\ Permutation (snd o) (zrange 0 (2 ^ n))) -> local_run lb lops = Ok final ->
    (forall w, In w ws -> scheduled size (2 * length lops) (envs w)) ->
    always_ends pid_eqb cap (job_net rsqrt n ws jops cfg envs bs) (fun s' =>
      procs s' Mgr = Ret (EManager (map (fun _ => None) lops) ws) /\
      forall w, In w ws -> exists b, procs s' (Wk w) = Ret (EWorker b) /\ holds n (bk_state final) w b).
  Proof.
    intros Hroom Hj Hn Hst Har Hh Hops Hl He.
    destruct (kron_steps lops jops (job_net0 rsqrt n ws jops cfg envs bs) 0 [] [] envs bs lb final) as (t & bs' & envs' & G & S & Hh'); auto.
    { unfold job_net0. constructor; cbn [procs chans]; auto.
      - intros w Hw. unfold P. cbn beta iota. apply inb_ok in Hw. unfold inb in Hw. rewrite Hw. reflexivity.
      - intros w Hw. unfold P. cbn beta iota. apply inb_no in Hw. unfold inb in Hw. rewrite Hw. reflexivity.
      - intros w Hw Hd. repeat split; auto; apply Nat.le_refl. }
    cbn [manager_run0 app] in S. destruct (close_step t _ _ envs' bs' S) as (t2 & G2 & S2).
    destruct (job_done cap ws job rsqrt n _ cfg envs bs t2 _ _ _ (go_trans _ _ _ _ _ G G2) S2) as (t3 & G3 & S3).
    eapply phase_ends; [exact G3|exact S3|]. intros t' H1 H2. split; [exact H1|]. intros w Hw. exists (bs' w). split; [apply H2, Hw|apply Hh', Hw].
  Qed.
End RunL.
