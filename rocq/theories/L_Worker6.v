(** The sync operation alone, and the start of a job. *)
From Verif Require Import Base M_Bits L_Bits M_Kron S_Kron M_Feed S_Feed L_Feed M_Measure M_Pool S_Pool M_Net S_Net L_Net M_Worker S_Worker L_Worker1 L_Worker2 L_Worker3 L_Worker4 L_Worker5.

Section SyncL.
  Context {K : Type} {OK : OrdRing K}.
  Notation C := (Cx K).
  Notation msg := (msg K).
  Variable cap : pid -> pid -> option nat.
  Notation go := (go pid_eqb cap).
  Context (rsqrt : K -> K) (cfg : wid -> worker_cfg) (job : Z) (room : nat) (n bq : Z) (pool : list entry).
  Let ws : list wid := map fst pool.
  Let size := 2 ^ bq.
  Let N := 2 ^ (n - bq).
  Let rs := blks size N.
  Let sz := Z.to_nat size.
  Hypothesis Hbq : 0 <= bq <= n.
  Hypothesis Ht : tiles (2 ^ n) pool.
  Hypothesis Hb : blocks (2 ^ bq) pool.
  Hypothesis Hcfg : configured job ws cfg.
  Hypothesis Hreg : connected ws cfg.
  Hypothesis Hcap : capacities cap ws room.
  Notation phase := (phase ws job).
  Let Hnd : NoDup ws := Hnd n bq pool Hbq Ht Hb.
  Let Hws : forall w, In w ws <-> In (fst w) rs /\ In (snd w) rs := Hws n bq pool Hbq Ht Hb.
  Let Hnr : NoDup rs := Hnr n bq Hbq.

  Lemma synced_amp (b : wid -> backend K) ow a i : (forall w, In w ws -> zlen (bk_state (b w)) = size) -> In a rs ->
    length (synced cfg b ow a) = sz /\ znth 0%r (synced cfg b ow a) i = sync_amp ow ws (fun w => bk_state (b w)) a i.
  Proof.
    intros Hl Ha. assert (Hl' : forall w, In w ws -> length (bk_state (b w)) = sz) by (intros w Hw; specialize (Hl w Hw); unfold zlen in Hl; unfold sz; rewrite <- Hl; lia).
    assert (HD : In (a, a) ws) by (apply Hws; auto). assert (Ho : forall w, In w (outs cfg a) -> In w ws) by (intros w Hw; apply (outs_in ws rs cfg Hws Hreg a w Ha) in Hw; tauto).
    unfold synced, sync_amp. destruct ow; [split; [apply Hl', HD|reflexivity]|]. split.
    - unfold gathered. apply fold_zip_length with (ws := ws); auto.
    - unfold gathered. rewrite fold_zip_znth with (size := sz); [|intros w Hw; apply Hl', Ho, Hw|apply Hl', HD].
      rewrite (sum_perm (filter (fun w => range_eqb (snd w) a) ws) ((a, a) :: outs cfg a)); [reflexivity|].
      apply NoDup_Permutation; [apply NoDup_filter, Hnd|apply NoDup_cons|].
      + intros H. apply (outs_in ws rs cfg Hws Hreg a _ Ha) in H. cbn in H. tauto.
      + apply outs_nodup with (ws := ws) (rs := rs); auto.
      + intros [r o]. rewrite filter_In, range_eqb_ok. cbn [snd In]. rewrite (outs_in ws rs cfg Hws Hreg a _ Ha). cbn [fst snd]. split.
        * intros [H1 ->]. destruct (range_eqb r a) eqn:E; [apply range_eqb_ok in E; subst; auto|]. right. split; [exact H1|]. split; [reflexivity|]. intros ->. rewrite range_eqb_refl in E. discriminate.
        * intros [E|(H1 & H2 & _)]; [injection E as <- <-; auto|auto].
  Qed.

  Lemma start_phase mp (envs : wid -> list (env K)) b : phase (mkNet (fun p => match p with Mgr => mp | Wk w => if existsb (wid_eqb w) ws then worker_run rsqrt (cfg w) (envs w) (b w) else Ret EIdle end) (fun _ _ => [])) 0 mp
    (fun w => worker_run rsqrt (cfg w) (envs w) (b w)).
  Proof.
    constructor; cbn [procs chans]; auto.
    - intros w Hw. unfold P. cbn beta iota. apply inb_ok in Hw. unfold inb in Hw. rewrite Hw. reflexivity.
    - intros w Hw. unfold P. cbn beta iota. apply inb_no in Hw. unfold inb in Hw. rewrite Hw. reflexivity.
    - intros w Hw Hd. repeat split; auto; apply Nat.le_refl.
  Qed.

  Lemma sync_ends up_to ow envs (b : wid -> backend K) : (sz + 1 <= room)%nat -> threshold_of up_to = None ->
    (forall w, In w ws -> zlen (bk_state (b w)) = size) -> (forall w, In w ws -> envs w <> []) ->
    always_ends pid_eqb cap (sync_net rsqrt ws up_to ow cfg envs b) (fun s' =>
      procs s' Mgr = Ret (EManager [] ws) /\
      forall w, In w ws -> exists vec, procs s' (Wk w) = Ret (EWorker (set_state (b w) vec)) /\ zlen vec = size /\
        forall i, znth 0%r vec i = sync_amp ow ws (fun w => bk_state (b w)) (fst w) i).
  Proof.
    intros Hroom Hup Hl He.
    destruct (rpc_sync cap rsqrt ws rs cfg job sz room Hnd Hnr Hws Hcfg Hreg Hcap (sz_pos n bq Hbq) envs b up_to Hup) with (s := sync_net rsqrt ws up_to ow cfg envs b) (L := 0%nat) (ow := ow)
      (k := fun _ : list (conf K) => (pbind (send_to_each_of (OClose : wop K) ws) (fun _ => Ret (EManager [] ws)) : proc pid msg (ending K))) as (t & G & S1).
    { intros w Hw. specialize (Hl w Hw). unfold zlen in Hl. unfold sz. rewrite <- Hl. lia. } { exact He. } { lia. } { apply start_phase. }
    destruct (close_step cap rsqrt cfg job room n bq pool Hbq Ht Hb Hcap t _ _ _ _ S1) as (t2 & G2 & S2).
    eapply (phase_ends cap job pool); [eapply go_trans; [exact G|exact G2]|exact S2|]. intros t' H1 H2. split; [exact H1|]. intros w Hw.
    assert (Ha : In (fst w) rs) by (apply Hws; exact Hw). exists (synced cfg b ow (fst w)). split; [apply H2, Hw|].
    destruct (synced_amp b ow (fst w) 0 Hl Ha) as [E _]. split; [unfold zlen; rewrite E; apply sz_Z with (n := n); exact Hbq|]. intros i. apply synced_amp; assumption.
  Qed.

  (** nothing to do *)
  Lemma idle_ends envs (b : wid -> backend K) : always_ends pid_eqb cap (job_net rsqrt n ws [] cfg envs b) (fun s' =>
    procs s' Mgr = Ret (EManager [] ws) /\ forall w, In w ws -> procs s' (Wk w) = Ret (EWorker (b w))).
  Proof.
    destruct (close_step cap rsqrt cfg job room n bq pool Hbq Ht Hb Hcap (job_net rsqrt n ws [] cfg envs b) 0 (EManager [] ws) envs b (start_phase _ envs b)) as (t2 & G2 & S2).
    eapply (phase_ends cap job pool); [exact G2|exact S2|]. auto.
  Qed.
End SyncL.

Section StartL.
  Context {K : Type} {OK : OrdRing K}.
  Notation C := (Cx K).
  Lemma make_state_out junk n gs (fl : list (feed_t K)) i e os oe b : os <= oe -> make_state junk n gs fl i e None None = Ok b ->
    make_state junk n gs fl i e (Some os) (Some oe) = Ok (mkBackend (bk_n b) (bk_state b) (map junk (zrange 0 (oe - os)))).
  Proof.
    intros Ho. unfold make_state. cbn [default]. rewrite (proj2 (Z.ltb_ge (oe - os) 0)) by lia.
    destruct (_ <? 0); [discriminate|]. destruct (if zlen fl =? 0 then _ else _); [|discriminate]. cbn [bind]. destruct (gen_edit_indices gs (n - 1)) as [edits|]; [|discriminate]. cbn [bind].
    match goal with |- bind ?m _ = _ -> _ => destruct m end; [|discriminate]. cbn [bind]. destruct (_ <? 0); [discriminate|]. intros E. inversion E. reflexivity.
  Qed.
  (** the backends of the workers of a job whose client feeds [fs] *)
  Lemma start_holds n bq pool (fs : list (list Z * list C)) junk0 junk full (bs : wid -> backend K) : 0 <= bq <= n -> tiles (2 ^ n) pool -> blocks (2 ^ bq) pool ->
    fs <> [] -> feeds_ok n fs -> make_state junk0 n (fed_groups fs) (fed_list fs) None None None None = Ok full ->
    (forall w : wid, In w (map fst pool) -> make_state (junk w) n (fed_groups fs) (fed_list fs) (Some (fst (fst w))) (Some (snd (fst w))) (Some (fst (snd w))) (Some (snd (snd w))) = Ok (bs w)) ->
    bk_n full = n /\ zlen (bk_state full) = 2 ^ n /\ zlen (bk_arena full) = 2 ^ n /\ forall w : wid, In w (map fst pool) -> holds n (bk_state full) w (bs w).
  Proof.
    intros Hbq Ht Hb Hne Hf Hfull Hbs. assert (Hn : 0 <= n) by lia. assert (Hp : 0 < 2 ^ n) by (apply Z.pow_pos_nonneg; lia).
    rewrite make_state_fed_full in Hfull by auto. inversion Hfull as [Ef]. clear Hfull. cbn [bk_n bk_state bk_arena]. unfold zlen. rewrite !map_length, !zrange_length.
    split; [reflexivity|]. split; [lia|]. split; [lia|]. intros w Hw. specialize (Hbs w Hw).
    destruct (proj1 (Hws n bq pool Hbq Ht Hb w) Hw) as [H1 H2]. apply blks_in in H1, H2. destruct H1 as (i & Hi & E1), H2 as (j & Hj & E2).
    pose proof (Nsize n bq Hbq) as HN. assert (Hs : 0 < 2 ^ bq) by (apply Z.pow_pos_nonneg; lia).
    rewrite E1, E2 in Hbs. unfold blk in Hbs. cbn [fst snd] in Hbs.
    assert (B : 0 <= i * 2 ^ bq <= (i + 1) * 2 ^ bq /\ (i + 1) * 2 ^ bq <= 2 ^ n) by nia.
    assert (B2 : j * 2 ^ bq <= (j + 1) * 2 ^ bq) by nia. rewrite (make_state_out _ _ _ _ _ _ _ _ _ B2 (make_state_fed (junk w) n fs _ _ Hn Hne Hf (proj1 B) (proj2 B))) in Hbs. inversion Hbs as [Eb]. clear Hbs.
    unfold holds. cbn [bk_n bk_state bk_arena]. split; [reflexivity|]. split.
    - unfold slice. rewrite pyslice_map, E1. unfold blk. cbn [fst snd]. unfold pyslice. rewrite firstn_skipn_zrange by lia. reflexivity.
    - unfold zlen. rewrite !map_length, !zrange_length. f_equal. f_equal. nia.
  Qed.
  Lemma start_unfed n bq pool junk0 junk full (bs : wid -> backend K) : 0 <= bq < n -> tiles (2 ^ n) pool -> blocks (2 ^ bq) pool ->
    make_state junk0 n [] [] None None None None = Ok full ->
    (forall w : wid, In w (map fst pool) -> make_state (junk w) n [] [] (Some (fst (fst w))) (Some (snd (fst w))) (Some (fst (snd w))) (Some (snd (snd w))) = Ok (bs w)) ->
    forall w : wid, In w (map fst pool) -> bk_state (bs w) = slice (fst w) (bk_state full) <-> fst (fst w) = 0.
  Proof.
    intros Hbq Ht Hb Hfull Hbs w Hw. assert (Hn : 0 <= n) by lia. assert (Hbq' : 0 <= bq <= n) by lia. specialize (Hbs w Hw).
    destruct (proj1 (Hws n bq pool Hbq' Ht Hb w) Hw) as [H1 H2]. apply blks_in in H1, H2. destruct H1 as (i & Hi & E1), H2 as (j & Hj & E2).
    pose proof (Nsize n bq Hbq') as HN. assert (Hs : 0 < 2 ^ bq) by (apply Z.pow_pos_nonneg; lia).
    assert (B : 0 <= fst (fst w) < snd (fst w) /\ snd (fst w) <= 2 ^ n) by (rewrite E1; unfold blk; cbn [fst snd]; nia). assert (B2 : fst (snd w) <= snd (snd w)) by (rewrite E2; unfold blk; cbn [fst snd]; nia).
    destruct (make_state_empty_slice (junk w) n _ _ Hn (proj1 B) (proj2 B)) as (f & p & Ef & Ep & Hiff).
    rewrite (make_state_out _ _ _ _ _ _ _ _ _ B2 Ep) in Hbs. inversion Hbs as [Eb]. cbn [bk_state]. rewrite make_state_empty_full in Ef by exact Hn. rewrite make_state_empty_full in Hfull by exact Hn.
    inversion Ef. inversion Hfull. subst. cbn [bk_state] in *. exact Hiff.
  Qed.
End StartL.
