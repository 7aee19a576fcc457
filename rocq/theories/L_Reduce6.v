(** Distributed reduce_measure: the cases together. *)
From Verif Require Import Base M_Bits S_Bits L_Bits M_Kron S_Kron L_Kron L_Kron2 L_Kron3 M_Feed M_Func S_Func L_Func2 M_Measure S_Measure L_Measure1 L_Measure2 L_Measure3 L_Measure4 L_Measure6 M_Pool S_Pool M_Net S_Net L_Net M_Worker S_Worker L_Worker1 L_Worker2 L_Worker3 L_Worker4 L_Worker5 L_Worker6 L_Worker9 L_Worker10 L_Worker11 M_Client S_Client L_Client S_Reduce L_Reduce1 L_Reduce2 L_Reduce3 L_Reduce5.

(** a basis state outside the first block with a given outcome *)
Lemma outside_unmeasured n bq indices q m : 0 <= bq <= n -> qubits_ok n indices -> 0 <= q < n - bq -> ~ In q indices -> 0 <= m < 2 ^ zlen indices ->
  exists x, 0 <= x < 2 ^ n /\ reg n (measured_order n indices) x = m /\ 2 ^ bq <= x.
Proof.
  intros Hbq HI Hq Hin Hm. assert (Hn : 0 <= n) by lia. destruct (make_row_mask_ok n indices Hn HI) as (mask & _ & HM).
  set (mo := measured_order n indices).
  assert (Hmo : qubits_ok n mo). { split; [apply NoDup_filter, zrange_nodup|]. intros x Hx. apply filter_In in Hx. destruct Hx as [Hx _]. apply in_zrange in Hx. lia. }
  assert (Lmo : zlen mo = zlen indices) by exact (zlen_mo n indices HI).
  assert (Hqm : ~ In q mo). { intros H. apply filter_In in H. destruct H as [_ H]. apply existsb_exists in H. destruct H as (y & Hy & E). apply Z.eqb_eq in E. subst y. contradiction. }
  set (x := setreg n [q] (setreg n mo 0 m) 1). assert (Hx : 0 <= x < 2 ^ n) by (apply setreg_range; lia).
  exists x. split; [exact Hx|]. split.
  - unfold x. rewrite reg_setreg_disj; [rewrite reg_setreg; [reflexivity|exact Hmo|rewrite Lmo; exact Hm]|]. intros y Hy. split; [apply Hmo, Hy|]. intros [<-|[]]. contradiction.
  - assert (E : qbit n x q = true).
    { assert (Hq1 : qubits_ok n [q]). { split; [repeat constructor; intros []|]. intros y [E|[]]. subst y. lia. } assert (X : reg n [q] x = 1) by (unfold x; apply reg_setreg; [exact Hq1|change (2 ^ zlen [q]) with 2; lia]). unfold reg in X. cbn [map] in X. destruct (qbit n x q); [reflexivity|discriminate X]. }
    unfold qbit in E. assert (H : 2 ^ bq <= 2 ^ (n - 1 - q)) by (apply Z.pow_le_mono_r; lia). destruct (Z_lt_le_dec x (2 ^ (n - 1 - q))) as [Hlt|Hge]; [|lia].
    exfalso. destruct (Z.eq_dec x 0) as [E0|E0]; [rewrite E0, Z.bits_0 in E; discriminate|]. rewrite Z.bits_above_log2 in E; [discriminate|lia|]. apply Z.log2_lt_pow2; lia.
Qed.

Section Cases.
  Context {K : Type} {OK : OrdRing K}.
  Notation C := (Cx K).
  Add Ring KRingR6 : (@rth K _).
  Context (cap : pid -> pid -> option nat) (rsqrt : K -> K) (cfg : wid -> worker_cfg) (job : Z) (n bq : Z) (pool : list entry).
  Let ws : list wid := map fst pool.
  Variables (indices : list Z) (measured : option Z) (prob : option K) (r : K) (calls : list (call K * K)) (envs : wid -> list (env K)) (bs : wid -> backend K) (local : backend K) (m : Z).
  Hypothesis Hbq : 0 <= bq <= n.
  Hypothesis Ht : tiles (2 ^ n) pool.
  Hypothesis Hb : blocks (2 ^ bq) pool.
  Hypothesis Hcfg : configured job ws cfg.
  Hypothesis Hl : full_backend local.
  Hypothesis Hln : bk_n local = n.
  Hypothesis HI : qubits_ok n indices.
  Hypothesis Hh : forall w, In w ws -> holds n (bk_state local) w (bs w).
  Hypothesis He : four_asked ws envs.
  Hypothesis Hdr : reduce_drawn n indices ws envs (bk_state local) r m.
  Hypothesis Hp1 : rle (outcome local indices m) 1%r.
  Let p := outcome local indices m.
  Let sj := client_net rsqrt n ws ((CReduceMeasure indices measured prob, r) :: calls) cfg envs bs.

  Lemma drawn_parts : exists a r2, In a (blks (2 ^ bq) (2 ^ (n - bq))) /\ nth_error (map e_rand (envs (fw n pool indices a))) 1 = Some r2 /\ drawn n indices (bk_state local) r a r2 m.
  Proof.
    destruct Hdr as (a & w & r2 & H1 & H2 & H3 & H4). exists a, r2. split; [apply (Hws n bq pool Hbq Ht Hb) in H1; apply H1|]. split; [|exact H4].
    unfold fw. assert (E : find (sel (reduce_threshold n indices) a) (map fst pool) = Some w) by exact H2. rewrite E. exact H3.
  Qed.
  Lemma p_is : p = marginal n (measured_order n indices) (amp_at 0 (bk_state local)) m.
  Proof. unfold p, outcome. rewrite Hln. reflexivity. Qed.
  Lemma full_len : zlen (bk_state local) = 2 ^ n /\ zlen (bk_arena local) = 2 ^ n.
  Proof. destruct Hl as (_ & H1 & H2). rewrite Hln in *. auto. Qed.
  Lemma p_pos : rlt 0%r p.
  Proof.
    destruct drawn_parts as (a & r2 & Ha & _ & (_ & Hm & B1 & B2)). destruct full_len as [Hv _]. rewrite p_is.
    assert (Hp : rlt 0%r (marginal n (measured_order n indices) (amp_at (fst a) (slice a (bk_state local))) m)).
    { apply rlt_not_le. intros H. assert (X := rlt_le_trans _ _ _ B1 B2). rewrite below_succ in X by lia. apply rlt_not_le in X. apply X. match goal with |- rle _ ?y => apply (rle_add_l _ _ y) in H; replace (y + 0)%r with y in H by ring end. exact H. }
    eapply rlt_le_trans; [exact Hp|]. rewrite <- (marginal_parts n _ (bk_state local) (2 ^ bq) (2 ^ (n - bq)) m (size_pos n bq Hbq) (Z.lt_le_incl _ _ (N_pos n bq Hbq)) (Nsize n bq Hbq) Hv).
    apply in_split in Ha. destruct Ha as (l1 & l2 & E). rewrite E, sum_app. cbn [sum].
    match goal with |- rle ?x (?s1 + (?x + ?s2))%r => replace (s1 + (x + s2))%r with (x + (s1 + s2))%r by ring end. apply rle_plus, rle_add_nonneg; apply sum_nonneg; intros; apply marginal_nonneg.
  Qed.
  Lemma mask_of : exists mask, make_row_mask indices n = Ok mask /\ masked n indices mask.
  Proof. apply make_row_mask_ok; [lia|exact HI]. Qed.
  Lemma local_answers u acc0 : exists mask, make_row_mask indices n = Ok mask /\ masked n indices mask /\
    bk_reduce_measure rsqrt u acc0 local indices (Some m) None 0 0 = Ok ((m, p), mkBackend n (part n indices rsqrt 0 0 (bk_state local) (bk_arena local) m p mask) (bk_state local)).
  Proof.
    destruct mask_of as (mask & Em & HM). exists mask. split; [exact Em|]. split; [exact HM|]. destruct drawn_parts as (a & r2 & _ & _ & Hd). destruct full_len as [L1 L2].
    apply (local_same rsqrt (Z.to_nat (2 ^ bq) + 1) n bq Hbq (Nat.le_refl _) indices r (bk_state local) a r2 m p HI L1 Hd p_is p_pos Hp1 mask Em HM); auto.
  Qed.

  Lemma outside_case : capacities cap ws 1 -> (exists x, 0 <= x < 2 ^ n /\ reg n (measured_order n indices) x = m /\ 2 ^ bq <= x) ->
    (forall u acc0, exists final, bk_reduce_measure rsqrt u acc0 local indices (Some m) None 0 0 = Ok ((m, p), final)) /\
    always_ends pid_eqb cap sj (fun s' => exists w k, In w ws /\ procs s' Mgr = Recv (Wk w) k /\ chans s' (Wk w) Mgr = [] /\ procs s' (Wk w) = Fail OOB).
  Proof.
    intros Hcap (x & Hx & Ex & Hge). split; [intros u acc0; destruct (local_answers u acc0) as (mask & _ & _ & E); eauto|].
    destruct drawn_parts as (a & r2 & Ha & Hr2 & Hd). destruct full_len as [L1 _].
    exact (reduce_outside cap rsqrt cfg job 1 n bq pool Hbq Ht Hb Hcfg Hcap indices r (requests calls) envs bs (bk_state local) a r2 m p HI L1 Hh He Ha Hr2 Hd p_is p_pos Hp1 x Hx Ex Hge).
  Qed.
  Lemma unmeasured_case q : capacities cap ws 1 -> 0 <= q < n - bq -> ~ In q indices ->
    (forall u acc0, exists final, bk_reduce_measure rsqrt u acc0 local indices (Some m) None 0 0 = Ok ((m, p), final)) /\
    always_ends pid_eqb cap sj (fun s' => exists w k, In w ws /\ procs s' Mgr = Recv (Wk w) k /\ chans s' (Wk w) Mgr = [] /\ procs s' (Wk w) = Fail OOB).
  Proof.
    intros Hcap Hq Hin. apply outside_case; [exact Hcap|]. destruct drawn_parts as (a & r2 & _ & _ & (_ & Hm & _)). apply (outside_unmeasured n bq indices q m); auto.
  Qed.

  Hypothesis Hreg : connected ws cfg.
  Hypothesis Hcap : capacities cap ws (Z.to_nat (2 ^ bq) + 1).
  Hypothesis Hall : forall x, 0 <= x < 2 ^ n -> reg n (measured_order n indices) x = m -> x < 2 ^ bq.

  Lemma inside_case : n - bq < zlen indices ->
    exists final, (forall u acc0, bk_reduce_measure rsqrt u acc0 local indices (Some m) None 0 0 = Ok ((m, p), final)) /\
    always_ends pid_eqb cap sj (fun s' => procs s' Mgr = manager_run n [] (requests calls) [Some (inl (m, p))] ws /\
      forall w, In w ws -> exists b, procs s' (Wk w) = Ret (EWorker b) /\ (w = ((0, 2 ^ bq), (0, 2 ^ bq)) -> bk_state b = slice (0, 2 ^ bq) (bk_state final))).
  Proof.
    intros Hk. destruct drawn_parts as (a & r2 & Ha & Hr2 & Hd). destruct full_len as [L1 L2]. destruct mask_of as (mask & Em & HM).
    assert (Hk' := L_Measure1.k_range n indices mask ltac:(lia) HI HM).
    assert (Hthr : reduce_threshold n indices < 2 ^ bq) by (apply Z.pow_lt_mono_r; lia).
    exists (mkBackend n (part n indices rsqrt 0 0 (bk_state local) (bk_arena local) m p mask) (bk_state local)). split.
    - intros u acc0. destruct (local_answers u acc0) as (mask' & Em' & _ & E). congruence.
    - eapply always_weaken; [|exact (reduce_inside cap rsqrt cfg job _ n bq pool Hbq Ht Hb Hcfg Hreg Hcap (Nat.le_refl _) indices r (requests calls) envs bs (bk_state local) a r2 m p HI L1 Hh He Ha Hr2 Hd p_is p_pos Hp1 Hall ltac:(lia) mask Em HM Hthr)].
      intros s' [Y1 Y2]. split; [exact Y1|]. intros w Hw. destruct (Y2 w Hw) as (b & Z1 & Z2). exists b. split; [exact Z1|].
      intros E. assert (E' : w = D (blk (2 ^ bq) 0)) by (rewrite E; unfold D, blk; rewrite Z.mul_0_l, Z.add_0_l, Z.mul_1_l; reflexivity). rewrite (Z2 E').
      rewrite (pst_local rsqrt _ n bq pool Hbq Ht Hb (Nat.le_refl _) indices r bs (bk_state local) a r2 m p HI L1 Hh Hd Hall mask HM (bk_arena local) L2). cbn [bk_state]. unfold blk. rewrite Z.mul_0_l, Z.add_0_l, Z.mul_1_l. reflexivity.
  Qed.
  Lemma deadlock_case : n - bq = zlen indices -> bq < n ->
    (forall u acc0, exists final, bk_reduce_measure rsqrt u acc0 local indices (Some m) None 0 0 = Ok ((m, p), final)) /\
    always_ends pid_eqb cap sj (fun s' => exists b1 b2 k k' k'', In (b1, b1) ws /\ In (b1, b2) ws /\ b1 <> b2 /\
      procs s' Mgr = Recv (Wk (b1, b1)) k /\ chans s' (Wk (b1, b1)) Mgr = [] /\
      procs s' (Wk (b1, b1)) = Recv (Wk (b1, b2)) k' /\ chans s' (Wk (b1, b2)) (Wk (b1, b1)) = [] /\
      procs s' (Wk (b1, b2)) = Recv Mgr k'' /\ chans s' Mgr (Wk (b1, b2)) = []).
  Proof.
    intros Hk Hlt. split; [intros u acc0; destruct (local_answers u acc0) as (mask & _ & _ & E); eauto|].
    destruct drawn_parts as (a & r2 & Ha & Hr2 & Hd). destruct full_len as [L1 L2]. destruct mask_of as (mask & Em & HM).
    assert (Hthr : reduce_threshold n indices = 2 ^ bq) by (unfold reduce_threshold; f_equal; lia).
    assert (HN2 : 2 <= 2 ^ (n - bq)) by (change 2 with (2 ^ 1) at 1; apply Z.pow_le_mono_r; lia).
    eapply always_weaken; [|exact (reduce_deadlock cap rsqrt cfg job _ n bq pool Hbq Ht Hb Hcfg Hreg Hcap (Nat.le_refl _) indices r (requests calls) envs bs (bk_state local) a r2 m p HI L1 Hh He Ha Hr2 Hd p_is p_pos Hp1 Hall ltac:(lia) mask Em HM Hthr HN2)].
    intros s' (k & k' & k'' & Y).
    assert (H0 : In (blk (2 ^ bq) 0) (blks (2 ^ bq) (2 ^ (n - bq)))) by (apply blks_in; exists 0; split; [lia|reflexivity]).
    assert (H1' : In (blk (2 ^ bq) 1) (blks (2 ^ bq) (2 ^ (n - bq)))) by (apply blks_in; exists 1; split; [lia|reflexivity]).
    exists (blk (2 ^ bq) 1), (blk (2 ^ bq) 0), k, k', k''. split; [apply (Hws n bq pool Hbq Ht Hb); cbn; auto|]. split; [apply (Hws n bq pool Hbq Ht Hb); cbn; auto|]. split; [|exact Y].
    intros E. apply blk_inj in E; [lia|exact (size_pos n bq Hbq)].
  Qed.
  Lemma inside_alone : calls = [] -> n - bq < zlen indices ->
    exists final, (forall u acc0, bk_reduce_measure rsqrt u acc0 local indices (Some m) None 0 0 = Ok ((m, p), final)) /\
    always_ends pid_eqb cap sj (fun s' =>
      (exists reply, procs s' Mgr = Ret (EManager [reply] ws) /\ response (CReduceMeasure indices measured prob) reply = VOutcome m p) /\
      (forall w, In w ws -> exists b, procs s' (Wk w) = Ret (EWorker b) /\ (w = ((0, 2 ^ bq), (0, 2 ^ bq)) -> bk_state b = slice (0, 2 ^ bq) (bk_state final)))).
  Proof.
    intros E Hk. destruct (inside_case Hk) as (final & H1 & H2). exists final. split; [exact H1|]. eapply always_weaken; [|exact H2]. intros s' [Y1 Y2]. split; [|exact Y2].
    exists (Some (inl (m, p))). split; [|reflexivity]. rewrite Y1, E. cbn. rewrite app_nil_r. reflexivity.
  Qed.
  Lemma inside_then indices' measured' prob' r' calls' : calls = (CMeasure indices' measured' prob', r') :: calls' -> n - bq < zlen indices ->
    always_ends pid_eqb cap sj (fun s' => procs s' Mgr = Fail AttributeError /\ forall w, In w ws -> exists b, procs s' (Wk w) = Ret (EWorker b)).
  Proof.
    intros E Hk. destruct (inside_case Hk) as (final & H1 & H2). eapply always_weaken; [|exact H2]. intros s' [Y1 Y2]. split; [|intros w Hw; destruct (Y2 w Hw) as (b & Z1 & _); eauto].
    rewrite Y1, E. reflexivity.
  Qed.
End Cases.

Section Unsupported.
  Context {K : Type} {OK : OrdRing K}.
  Lemma requests_app (c1 c2 : list (call K * K)) : requests (c1 ++ c2) = requests c1 ++ requests c2.
  Proof. unfold requests. rewrite map_app, concat_app. reflexivity. Qed.
  Lemma unsupported rsqrt n workers (c : call K) r calls1 calls2 cfg envs (bs : wid -> backend K) e : request c = Raise e ->
    client_net rsqrt n workers (calls1 ++ (c, r) :: calls2) cfg envs bs = client_net rsqrt n workers (calls1 ++ calls2) cfg envs bs.
  Proof. intros E. unfold client_net. f_equal. rewrite !requests_app. f_equal. unfold requests. cbn. rewrite E. reflexivity. Qed.
End Unsupported.
Lemma no_soft_measure : forall {K} {OK : OrdRing K} (local : backend K) rand indices measured,
  full_backend local -> qubits_ok (bk_n local) indices -> draw_ok rand (tprob (bk_state local)) ->
  (exists m p, bk_soft_measure rand 0%r local indices None 0 = Ok (m, p)) /\
  request (CSoftMeasure indices measured) = Raise TypeError :> res (wop K) /\
  forall rsqrt n workers r calls1 calls2 cfg envs (bs : wid -> backend K),
    client_net rsqrt n workers (calls1 ++ (CSoftMeasure indices measured, r) :: calls2) cfg envs bs = client_net rsqrt n workers (calls1 ++ calls2) cfg envs bs.
Proof.
  intros K OK local rand indices measured HB HI HD. split; [|split; [reflexivity|]].
  - destruct (proj1 (soft_positive local rand indices HB HI HD)) as (m & p & E & _). eauto.
  - intros. eapply unsupported. reflexivity.
Qed.
Lemma no_func_apply : forall {K} {OK : OrdRing K} m sched (local : backend K) reg1 reg2 f func io oo,
  full_backend local -> qubits_ok (bk_n local) (reg1 ++ reg2) -> zlen (others (bk_n local) reg1 reg2) = zlen reg2 ->
  Permutation sched (zrange 0 (2 ^ zlen reg1)) -> (forall x, 0 <= x < 2 ^ zlen reg1 -> func x = Ok (f x)) ->
  (exists b', bk_func_apply m sched local reg1 reg2 func io oo = Ok b' /\
    forall x, 0 <= x < 2 ^ bk_n local -> amp_at 0 (bk_state b') (fxor (bk_n local) reg1 reg2 f x) = amp_at 0 (bk_state local) x) /\
  request (CFuncApply reg1 reg2 func) = Raise TypeError :> res (wop K) /\
  forall rsqrt n workers r calls1 calls2 cfg envs (bs : wid -> backend K),
    client_net rsqrt n workers (calls1 ++ (CFuncApply reg1 reg2 func, r) :: calls2) cfg envs bs = client_net rsqrt n workers (calls1 ++ calls2) cfg envs bs.
Proof.
  intros K OK m sched local reg1 reg2 f func io oo HB HI HL HS HF. split; [|split; [reflexivity|]].
  - destruct (bk_func_ok m sched local reg1 reg2 f func io oo HB HI (or_introl HL) HS HF) as (b' & E & _ & _ & H & _). eauto.
  - intros. eapply unsupported. reflexivity.
Qed.
