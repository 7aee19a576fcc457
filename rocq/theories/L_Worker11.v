(** Draws of a distributed measurement. *)
From Verif Require Import Base M_Bits S_Bits L_Bits M_Kron S_Kron M_Feed M_Measure S_Measure L_Measure1 L_Measure2 L_Measure3 L_Measure4 M_Pool S_Pool M_Net S_Net L_Net M_Worker S_Worker L_Worker1 L_Worker2 L_Worker3 L_Worker4 L_Worker5 L_Worker6 L_Worker9 L_Worker10 L_Job.

Section Draws.
  Context {K : Type} {OK : OrdRing K}.
  Notation C := (Cx K).
  Notation msg := (msg K).
  Add Ring KRingW11 : (@rth K _).
  Variable cap : pid -> pid -> option nat.
  Notation go := (go pid_eqb cap).
  Context (rsqrt : K -> K) (cfg : wid -> worker_cfg) (job : Z) (room : nat) (n bq : Z) (pool : list entry).
  Let ws : list wid := map fst pool.
  Let size := 2 ^ bq.
  Let N := 2 ^ (n - bq).
  Let rs := blks size N.
  Hypothesis Hbq : 0 <= bq <= n.
  Hypothesis Ht : tiles (2 ^ n) pool.
  Hypothesis Hb : blocks (2 ^ bq) pool.
  Notation phase := (phase ws job).
  Let Hws : forall w : wid, In w ws <-> In (fst w) rs /\ In (snd w) rs := Hws n bq pool Hbq Ht Hb.
  Let Hsp : 0 < size := size_pos n bq Hbq.
  Let HN : N * size = 2 ^ n := Nsize n bq Hbq.
  Let HNp : 0 < N := N_pos n bq Hbq.

  Lemma rle_plus (x y : K) : rle 0%r y -> rle x (x + y)%r.
  Proof. intros H. replace x with (x + 0)%r at 1 by ring. apply rle_add_l. exact H. Qed.
  Definition prefix (vec : list C) (i : Z) : K := tprob (slice (0, i * size) vec).
  Lemma prefix_succ (vec : list C) i : zlen vec = 2 ^ n -> 0 <= i < N -> prefix vec (i + 1) = (prefix vec i + tprob (slice (blk size i) vec))%r.
  Proof. intros Hv Hi. unfold prefix. rewrite (prefix_split vec (i * size)) by nia. rewrite tprob_app. reflexivity. Qed.
  Lemma prefix_mono (vec : list C) i j : zlen vec = 2 ^ n -> 0 <= i <= j -> j <= N -> rle (prefix vec i) (prefix vec j).
  Proof.
    intros Hv Hi Hj. unfold prefix. rewrite (prefix_split vec (i * size) (j * size)) by nia. rewrite tprob_app. apply rle_plus, tprob_nonneg.
  Qed.
  Lemma prefix_0 (vec : list C) : prefix vec 0 = 0%r.
  Proof. reflexivity. Qed.
  Lemma prefix_N (vec : list C) : zlen vec = 2 ^ n -> prefix vec N = tprob vec.
  Proof. intros Hv. unfold prefix. rewrite HN, <- Hv. unfold slice, pyslice, zlen. cbn [fst snd]. change (Z.to_nat 0) with O. cbn [skipn]. rewrite Z.sub_0_r, Nat2Z.id, firstn_all. reflexivity. Qed.
  Lemma find_prefix (vec : list C) r k : rlt 0%r r -> rle r (prefix vec (Z.of_nat k)) -> exists i, 0 <= i < Z.of_nat k /\ rlt (prefix vec i) r /\ rle r (prefix vec (i + 1)).
  Proof.
    intros Hr. induction k as [|k IH]; intros Hk.
    - exfalso. rewrite prefix_0 in Hk. apply (rlt_irrefl r). eapply rle_lt_trans; eassumption.
    - destruct (rle_lt_dec r (prefix vec (Z.of_nat k))) as [H|H].
      + destruct (IH H) as (i & Hi & X). exists i. split; [lia|exact X].
      + exists (Z.of_nat k). split; [lia|]. split; [exact H|]. replace (Z.of_nat k + 1) with (Z.of_nat (S k)) by lia. exact Hk.
  Qed.

  Lemma below_parts indices (vec : list C) m : zlen vec = 2 ^ n ->
    sum rs (fun a => below n (measured_order n indices) (amp_at (fst a) (slice a vec)) m) = below n (measured_order n indices) (amp_at 0 vec) m.
  Proof. intros Hv. unfold below. rewrite sum_swap. apply sum_ext. intros v _. apply (marginal_parts n _ vec size N v Hsp (Z.lt_le_incl _ _ HNp) HN Hv). Qed.

  (** a pair of draws in (0, total] x (0, 1] determines one block and one outcome *)
  Lemma drawn_exists indices (vec : list C) r (r2 : range -> K) : qubits_ok n indices -> zlen vec = 2 ^ n -> rlt 0%r r -> rle r (tprob vec) -> 
    (forall a, In (a, a) ws -> rlt 0%r (tprob (slice a vec)) -> draw_ok (r2 a) (tprob (slice a vec))) ->
    exists a m, In (a, a) ws /\ drawn n indices vec r a (r2 a) m /\ rlt 0%r (marginal n (measured_order n indices) (amp_at 0 vec) m).
  Proof.
    intros HI Hv Hr Hr' H2. destruct (find_prefix vec r (Z.to_nat N) Hr) as (i & Hi & P1 & P2); [rewrite Z2Nat.id by lia; rewrite prefix_N by exact Hv; exact Hr'|].
    rewrite Z2Nat.id in Hi by lia. set (a := blk size i).
    assert (Ha : In a rs) by (apply blks_in; exists i; auto).
    destruct (slice_inside n bq Hbq a vec Ha Hv) as [Hsl _]. assert (Hn0 : 0 <= n) by lia.
    assert (Tp : rlt 0%r (tprob (slice a vec))).
    { apply rlt_not_le. intros H. apply rlt_not_le in P1. apply P1. eapply rle_trans; [exact P2|]. rewrite prefix_succ by auto. replace (prefix vec i) with (prefix vec i + 0)%r at 2 by ring. apply rle_add_l. exact H. }
    destruct (H2 a ltac:(apply Hws; auto) Tp) as [Q1 Q2].
    destruct (born_exists n indices (fst a) (slice a vec) Hn0 HI Hsl (r2 a) Q1 Q2) as (m & p & E & Hp).
    apply (born n indices (fst a) (slice a vec) Hn0 HI Hsl (r2 a) Q1 Q2) in E. destruct E as (Hm & Ep & B1 & B2).
    exists a, m. split; [apply Hws; auto|]. split; [repeat split; auto; lia|].
    eapply rlt_le_trans; [exact Hp|]. rewrite Ep. rewrite <- (marginal_parts n _ vec size N m Hsp (Z.lt_le_incl _ _ HNp) HN Hv).
    fold rs. apply in_split in Ha. destruct Ha as (l1 & l2 & E). rewrite E, sum_app. cbn [sum].
    match goal with |- rle ?x (?s1 + (?x + ?s2))%r => replace (s1 + (x + s2))%r with (x + (s1 + s2))%r by ring end. apply rle_plus, rle_add_nonneg; apply sum_nonneg; intros; apply marginal_nonneg.
  Qed.
  Lemma drawn_unique indices (vec : list C) r (r2 : range -> K) a a' m m' : qubits_ok n indices -> zlen vec = 2 ^ n -> In (a, a) ws -> In (a', a') ws ->
    drawn n indices vec r a (r2 a) m -> drawn n indices vec r a' (r2 a') m' -> a = a' /\ m = m'.
  Proof.
    intros HI Hv Ha Ha' ((P1 & P2) & Hm & B1 & B2) ((P1' & P2') & Hm' & B1' & B2').
    assert (E : a = a').
    { apply Hws in Ha, Ha'. destruct Ha as [Ha _], Ha' as [Ha' _]. cbn [fst] in *. apply blks_in in Ha, Ha'. destruct Ha as (i & Hi & ->), Ha' as (j & Hj & ->). cbn [blk fst snd] in *.
      assert (G : forall i j, 0 <= i < N -> 0 <= j < N -> i < j -> rle r (prefix vec (i + 1)) -> rlt (prefix vec j) r -> False).
      { intros x y Hx Hy Hxy H1 H2. apply (rlt_irrefl r). eapply rle_lt_trans; [exact H1|]. eapply rle_lt_trans; [|exact H2]. apply prefix_mono; auto; lia. }
      destruct (Z.lt_total i j) as [H|[->|H]]; [exfalso; eapply G; [exact Hi|exact Hj|exact H|exact P2|exact P1']|reflexivity|exfalso; eapply G; [exact Hj|exact Hi|exact H|exact P2'|exact P1]]. }
    subst a'. split; [reflexivity|]. eapply (born_unique n indices (fst a) (slice a vec)); [ | |exact B1|exact B2|exact B1'|exact B2']; lia.
  Qed.

  (** no block is selected: the manager's draw is above the total probability *)
  Lemma select_none (f : wid -> K) l : forall i r, (forall w, In w l -> rle 0%r (f w)) -> rlt (sum l f) r -> select i (map (fun w => CProb 0 (f w)) l) r = None.
  Proof.
    induction l as [|x l IH]; intros i r Hp H1; cbn [map select conf_prob sum] in *; [reflexivity|].
    assert (Hx : rle 0%r (sum l f)) by (apply sum_nonneg; intros w Hw; apply Hp; right; exact Hw).
    assert (H2 : rlt (sum l f) (r - f x)%r). { apply rlt_not_le. intros H. apply rlt_not_le in H1. apply H1. replace r with (f x + (r - f x))%r by ring. apply rle_add_l. exact H. }
    assert (E : rleb (r - f x)%r 0%r = false). { destruct (rleb (r - f x)%r 0%r) eqn:E; [|reflexivity]. exfalso. apply (rlt_irrefl (r - f x)%r). eapply rle_lt_trans; [|exact H2]. eapply rle_trans; [exact E|exact Hx]. }
    rewrite E. apply IH; [intros w Hw; apply Hp; right; exact Hw|exact H2].
  Qed.
  Hypothesis Hcap : capacities cap ws 1.

  Lemma no_worker indices r rest envs bs (full : list C) : zlen full = 2 ^ n -> (forall w, In w ws -> holds n full w (bs w)) -> (forall w, In w ws -> exists e es, envs w = e :: es /\ e_acc0 e = 0%r) ->
    rlt (tprob full) r ->
    always_ends pid_eqb cap (job_net rsqrt n ws ((wop_of (LMeasure indices), r) :: rest) cfg envs bs) (fun s' =>
      procs s' Mgr = Fail AttributeError /\ forall w, In w ws -> procs s' (Wk w) = Ret (EWorker (bs w))).
  Proof.
    intros Hf Hh He Hr. set (sj := job_net rsqrt n ws ((wop_of (LMeasure indices), r) :: rest) cfg envs bs).
    pose (m0 := pbind (send_op r n ws (wop_of (LMeasure indices))) (fun _ => Ret EIdle : proc pid msg (ending K))).
    set (s := with_proc pid_eqb sj Mgr m0).
    assert (S0 : phase s 0 m0 (fun w => worker_run rsqrt (cfg w) (envs w) (bs w))).
    { destruct (start_phase rsqrt cfg job pool (manager_run n ws ((wop_of (LMeasure indices), r) :: rest) [] []) envs bs) as [H1 H2 H3 H4 H5]. constructor; auto. }
    assert (Hdg := dg_in n bq pool Hbq Ht Hb).
    assert (Edl : diagonal_workers ws = dg n bq) by exact (diagonal_is n bq pool Hbq Ht Hb).
    assert (X : exists k1 : list (conf K) -> proc pid msg (ending K), peq m0 (pbind (map_workers_via_op OTotalProb (dg n bq)) k1) /\
      forall confs, select 0 confs r = None -> k1 confs = Fail AttributeError).
    { eexists. split.
      - unfold m0. cbn [send_op m_soft m_reduce m_top_k wop_of Z.eqb negb]. unfold send_measure. cbv zeta. rewrite Edl. eapply peq_trans; [apply bind_assoc|]. eapply peq_trans; [apply bind_assoc|]. apply peq_refl.
      - intros confs E. cbv beta. rewrite E. reflexivity. }
    destruct X as (k1 & Epq & Ek1).
    destruct (phase_recast cap ws job s 0 _ _ _ (fun w => worker_run rsqrt (cfg w) (envs w) (bs w)) S0 Epq) as (t0 & G0 & S1). { intros; apply peq_refl. }
    pose (tp := fun w : wid => tprob (slice (fst w) full)).
    destruct (rpc_local cap rsqrt ws cfg job 1 Hcap t0 0 OTotalProb (dg n bq) k1 envs bs bs (fun w => CProb 0 (tp w)) (dg_nodup n bq Hbq)) as (t1 & G1 & S2).
    { intros w Hw. apply Hdg, Hw. } { discriminate. } { exact S1. }
    { intros w Hw. assert (Hw' : In w ws) by (apply Hdg; exact Hw). destruct (He w Hw') as (e & es & Ee & A). exists e, es. split; [exact Ee|]. cbn [worker_op]. unfold bk_total_prob. rewrite A, prob_magnitude_0. destruct (Hh w Hw') as (_ & -> & _). reflexivity. }
    { reflexivity. }
    rewrite Ek1 in S2.
    2:{ apply select_none; [intros; apply tprob_nonneg|]. unfold dg. rewrite sum_map. unfold tp. cbn [fst]. fold rs. change (rlt (sum rs (fun a => tprob (slice a full))) r).
        assert (E := prefix_sum full size N Hsp ltac:(lia) (Z.to_nat N) ltac:(lia)). rewrite Z2Nat.id in E by lia. fold rs in E. rewrite <- E. change (rlt (prefix full N) r). rewrite prefix_N by exact Hf. exact Hr. }
    destruct (phase_with cap ws job (fun _ _ => True) (fun e q => q = pbind (send_to_each_of OClose ws) (fun _ => Fail e)) s t1 0 _ _ (manager_run n ws ((wop_of (LMeasure indices), r) :: rest) [] []) (go_trans _ _ _ _ _ G0 G1) S2) as (mq & t2 & G2 & S3 & Hmq).
    { change (procs s Mgr) with m0. unfold m0. cbn [manager_run]. apply prel_try; [|reflexivity]. intros a. constructor. exact I. }
    assert (Emq : mq = pbind (send_to_each_of OClose ws) (fun _ => Fail AttributeError)) by (inversion Hmq; auto). rewrite Emq in S3.
    destruct (rpc_begin cap rsqrt ws cfg job 1 Hcap t2 0 OClose ws _ _ bs (L_Worker5.Hnd n bq pool Hbq Ht Hb) (incl_refl _) S3) as (t3 & G3 & [H1 H2 H3 H4 H5]).
    assert (G : go sj t3).
    { eapply go_eqv_l; [|eapply go_trans; [exact G2|exact G3]]. apply eqv_intro; [|reflexivity]. intros [|w]; reflexivity. }
    assert (H2' : forall w, In w ws -> procs t3 (P w) = Ret (EWorker (bs w))) by (intros w Hw; rewrite (H2 w Hw); apply inb_ok in Hw; rewrite Hw; reflexivity).
    destruct G as [l G]. apply (confluence pid_eqb pid_eqb_ok cap sj l t3 _ G).
    - intros [|w]; unfold exec; [rewrite H1; reflexivity|]. change (Wk w) with (P w). destruct (inb w ws) eqn:E.
      + apply inb_ok in E. rewrite (H2' w E). reflexivity.
      + apply inb_no in E. rewrite H3 by exact E. reflexivity.
    - intros t' [Hp _]. split.
      + assert (E := Hp Mgr). rewrite H1 in E. inversion E. auto.
      + intros w Hw. assert (E := Hp (Wk w)). change (Wk w) with (P w) in E at 1. rewrite (H2' w Hw) in E. inversion E. auto.
  Qed.
End Draws.
