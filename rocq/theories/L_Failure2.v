(** Lemmas: the confirmations a job leaves unread when a worker is lost, and who reads them. *)
From Verif Require Import Base M_Kron M_Feed M_Measure M_Proto M_Pool S_Pool M_Net S_Net L_Net M_Worker S_Worker M_Failure L_Worker1 L_Worker2 L_Worker3 L_Worker4 L_Worker5 L_Worker6 L_Worker10 L_Job L_Alg L_Lost L_Connect4 L_Failure1.

Section Unread.
  Context {K : Type} {OK : OrdRing K}.
  Notation msg := (msg K).
  Notation proc := (proc pid msg (ending K)).
  Variable cap : pid -> pid -> option nat.
  Notation go := (go pid_eqb cap).
  Lemma fits_room c (l : list msg) : fits c (S (length l)) -> has_room c l = true.
  Proof. destruct c as [c|]; cbn; [|reflexivity]. intros H. apply Nat.ltb_lt. lia. Qed.
  Lemma go_exec (s : net pid msg (ending K)) i s' : exec pid_eqb cap s i = Some s' -> go s s'.
  Proof. intros H. exists [i]. cbn. exists s'. split; [exact H|apply eqv_refl]. Qed.
  Lemma lost_step e (t : net pid msg (ending K)) read m : procs t (Wk e) = lost read -> chans t Mgr (Wk e) = [m] -> chans t (Wk e) Mgr = [] -> fits (cap (Wk e) Mgr) 1 ->
    exists t' left, go t t' /\ procs t' (Wk e) = Ret EIdle /\ chans t' (Wk e) Mgr = [gone] /\ chans t' Mgr (Wk e) = left /\ (length left <= 1)%nat /\
      (forall x, x <> Wk e -> procs t' x = procs t x) /\ (forall x y, x <> Wk e -> y <> Wk e -> chans t' x y = chans t x y).
  Proof.
    intros Ep Ec Ec' Hf. destruct read; unfold lost in Ep.
    - eexists. exists []. split; [eapply go_trans; eapply go_exec|].
      + unfold exec. rewrite Ep, Ec. reflexivity.
      + unfold exec. cbn [procs chans]. rewrite set1_same, set2_other, Ec' by (left; discriminate). rewrite fits_room by exact Hf. reflexivity.
      + cbn [procs chans]. rewrite !set1_same, !set2_same. rewrite (set2_other _ (Wk e) Mgr Mgr (Wk e)) by (left; discriminate). rewrite set2_same. split; [reflexivity|]. split; [reflexivity|]. split; [reflexivity|]. split; [cbn; lia|].
        split; intros; [rewrite !set1_other by assumption; reflexivity|rewrite !set2_other by auto; reflexivity].
    - eexists. exists [m]. split; [eapply go_exec; unfold exec; rewrite Ep, Ec', fits_room by exact Hf; reflexivity|]. cbn [procs chans]. rewrite set1_same, set2_same, set2_other by (left; discriminate). split; [reflexivity|]. split; [reflexivity|]. split; [exact Ec|]. split; [cbn; lia|].
        split; intros; [rewrite !set1_other by assumption; reflexivity|rewrite !set2_other by auto; reflexivity].
  Qed.
  Lemma fits_le c a b : fits c b -> (a <= b)%nat -> fits c a.
  Proof. destruct c; cbn; [lia|trivial]. Qed.

  Lemma unread (rsqrt : K -> K) n pre e post mats r rest cfg envs (b : wid -> backend K) read :
    let ws := pre ++ e :: post in NoDup ws ->
    (forall w, In w ws -> fits (cap Mgr (Wk w)) 2 /\ fits (cap (Wk w) Mgr) 1) ->
    (forall w, In w ws -> w <> e -> exists ev es b', envs w = ev :: es /\
       bk_kronselect_dot (e_sched ev) (b w) mats (fst (fst (c_id (cfg w)))) (fst (snd (c_id (cfg w)))) = Ok b') ->
    always_ends pid_eqb cap (failing_net rsqrt n ws ((OKron mats, r) :: rest) cfg envs b e read) (fun s' =>
      procs s' Mgr = Fail GenericException /\ (forall w, In w ws -> w <> e -> exists b', procs s' (Wk w) = Ret (EWorker b')) /\
      (forall w, In w pre -> chans s' (Wk w) Mgr = []) /\ (forall w, In w post -> chans s' (Wk w) Mgr = [MConf CDone])).
  Proof.
    intros ws Hnd Hcap Hk. set (sj := failing_net rsqrt n ws ((OKron mats, r) :: rest) cfg envs b e read).
    pose (m0 := pbind (send_op r n ws (OKron mats)) (fun _ => Ret EIdle : proc)).
    set (s := with_proc pid_eqb sj Mgr m0).
    pose (k1 := fun confs : list (conf K) => pbind (pbind (map_workers_via_op (OSync (Some 0) false) ws) (fun _ => Ret tt)) (fun _ => Ret EIdle : proc)).
    assert (Epq : peq m0 (pbind (send_to_each_of (OKron mats) ws) (fun _ => pbind (receive_from_each_of ws) k1))).
    { unfold m0. cbn [send_op]. unfold send_kronprod, map_workers_via_op. eapply peq_trans; [apply bind_assoc|]. eapply peq_trans; [apply bind_assoc|]. eapply peq_trans; [apply bind_assoc|]. apply peq_refl. }
    destruct (recast pid_eqb pid_eqb_ok cap s Mgr _ Epq) as (t0 & G0 & P0 & Q0 & C0).
    assert (Eo : forall w, In w ws -> w <> e -> procs s (Wk w) = worker_run rsqrt (cfg w) (envs w) (b w)).
    { intros w Hw Hne. unfold s, sj. cbn [with_proc failing_net procs job_net]. unfold set1. cbn [pid_eqb]. destruct (wid_eqb w e) eqn:E; [apply wid_eqb_ok in E; contradiction|].
      replace (existsb (wid_eqb w) ws) with true; [reflexivity|]. symmetry. apply existsb_exists. exists w. split; [exact Hw|apply wid_eqb_ok; reflexivity]. }
    assert (Ee : procs s (Wk e) = lost read).
    { unfold s, sj. cbn [with_proc failing_net procs]. unfold set1. cbn [pid_eqb]. replace (wid_eqb e e) with true by (symmetry; apply wid_eqb_ok; reflexivity). reflexivity. }
    assert (Hne : forall w, In w (pre ++ post) -> In w ws /\ w <> e).
    { intros w Hw. split; [unfold ws; apply in_app_iff in Hw; apply in_app_iff; destruct Hw; [left|right; right]; assumption|]. intros ->. apply NoDup_remove_2 in Hnd. contradiction. }
    assert (Hin : forall w, In w ws -> w <> e -> In w (pre ++ post)).
    { intros w Hw Hn'. unfold ws in Hw. apply in_app_iff in Hw. apply in_app_iff. destruct Hw as [Hw|[Hw|Hw]]; [left|congruence|right]; assumption. }
    assert (Hndo : NoDup (pre ++ post)) by (apply NoDup_remove_1 in Hnd; exact Hnd).
    assert (Hinp : In e ws) by (unfold ws; apply in_app_iff; right; left; reflexivity).
    (* the operation is sent *)
    destruct (each_sent cap (OKron mats) ws Hnd t0 _ P0) as (t1 & G1 & P1 & Q1 & C1 & D1).
    { intros w Hw. rewrite C0. cbn. eapply fits_le; [apply Hcap, Hw|lia]. }
    (* and received *)
    destruct (each_receives cap (fun w m => match m with MOp op => body rsqrt cfg w (envs w) (b w) op | _ => Fail GenericException end) (fun _ => MOp (OKron mats)) (pre ++ post) Hndo t1) as (t2 & G2 & PC2 & Q2 & D2).
    { intros w Hw. destruct (Hne w Hw) as [Hw' Hn']. rewrite Q1, Q0 by discriminate. split; [rewrite <- worker_run_eq; apply Eo; assumption|]. rewrite C1 by exact Hw'. rewrite C0. reflexivity. }
    assert (PC2' : forall w, In w (pre ++ post) -> exists es b', procs t2 (Wk w) = Send Mgr (MConf CDone) (worker_run rsqrt (cfg w) es b')).
    { intros w Hw. destruct (Hne w Hw) as [Hw' Hn']. destruct (Hk w Hw' Hn') as (ev & es & b' & E1 & E2). exists es, b'. rewrite (proj1 (PC2 w Hw)). cbn [body]. rewrite E1. cbn [worker_op]. rewrite E2. reflexivity. }
    assert (PF : exists F : wid -> list (env K) * backend K, forall w, In w (pre ++ post) -> procs t2 (Wk w) = Send Mgr (MConf CDone) (worker_run rsqrt (cfg w) (fst (F w)) (snd (F w)))).
    { clear - b PC2'. revert PC2'. generalize (pre ++ post). intros l. induction l as [|x l IH]; intros H; [exists (fun w => ([], b w)); intros w []|].
      destruct IH as (F & HF); [intros w Hw; apply H; right; exact Hw|]. destruct (H x (or_introl eq_refl)) as (es & b' & E). exists (fun w => if wid_eqb w x then (es, b') else F w).
      intros w [<-|Hw]; [replace (wid_eqb x x) with true by (symmetry; apply wid_eqb_ok; reflexivity); exact E|]. destruct (wid_eqb w x) eqn:Ew; [apply wid_eqb_ok in Ew; subst w; exact E|apply HF, Hw]. }
    destruct PF as (F & HF).
    destruct (each_replies cap (fun w => worker_run rsqrt (cfg w) (fst (F w)) (snd (F w))) (fun _ => MConf CDone) (pre ++ post) Hndo t2) as (t3 & G3 & PC3 & Q3 & D3).
    { intros w Hw. split; [apply HF, Hw|]. rewrite D2, D1, C0 by (intros; discriminate). split; [reflexivity|]. apply Hcap, Hne, Hw. }
    (* the lost worker *)
    assert (Hen : forall w, In w (pre ++ post) -> w <> e) by (intros w Hw; apply Hne, Hw).
    assert (Ee3 : procs t3 (Wk e) = lost read).
    { rewrite Q3 by (intros w Hw X'; injection X' as <-; apply (Hen e Hw); reflexivity). rewrite Q2 by (intros w Hw X'; injection X' as <-; apply (Hen e Hw); reflexivity). rewrite Q1, Q0 by discriminate. exact Ee. }
    assert (Ce3 : chans t3 Mgr (Wk e) = [MOp (OKron mats)]).
    { rewrite D3 by (intros; discriminate). rewrite D2 by (intros w Hw X'; injection X' as <-; apply (Hen e Hw); reflexivity). rewrite C1 by exact Hinp. rewrite C0. reflexivity. }
    assert (Ce3' : chans t3 (Wk e) Mgr = []).
    { rewrite D3 by (intros w Hw X'; injection X' as <-; apply (Hen e Hw); reflexivity). rewrite D2, D1, C0 by (intros; discriminate). reflexivity. }
    destruct (lost_step e t3 read _ Ee3 Ce3 Ce3' (proj2 (Hcap e Hinp))) as (t4 & left & G4 & E4 & C4 & L4 & Ll & Q4 & D4).
    (* the manager reads the confirmations up to the lost worker *)
    assert (PM4 : procs t4 Mgr = pbind (receive_from_each_of ws) k1).
    { rewrite Q4 by discriminate. rewrite Q3, Q2 by (intros; discriminate). exact P1. }
    pose (rcv := fun (confs : list (conf K)) w => Recv (Wk w) (fun m => match m with MConf c => Ret (confs ++ [c]) | _ => Fail GenericException end) : M_Net.proc pid msg (list (conf K))).
    assert (Efold : forall l1 l2 acc, peq (pfold rcv (l1 ++ l2) acc) (pbind (pfold rcv l1 acc) (pfold rcv l2))).
    { induction l1 as [|x l1 IH]; intros l2 acc; [apply peq_refl|]. cbn [app pfold]. eapply peq_trans; [|apply peq_sym, bind_assoc]. apply peq_bind; [apply peq_refl|]. intros a. apply IH. }
    assert (Epq4 : peq (procs t4 Mgr) (pbind (pfold rcv pre []) (fun acc => pbind (pfold rcv (e :: post) acc) k1))).
    { rewrite PM4. eapply peq_trans; [apply peq_bind; [apply (Efold pre (e :: post) [])|intros; apply peq_refl]|]. apply bind_assoc. }
    destruct (recast pid_eqb pid_eqb_ok cap t4 Mgr _ Epq4) as (t5 & G5 & P5 & Q5 & C5).
    assert (Hndp : NoDup pre) by (apply NoDup_app_inv in Hnd; apply Hnd).
    assert (Hpre : forall w, In w pre -> In w (pre ++ post)) by (intros; apply in_app_iff; auto).
    destruct (each_confirmed cap (fun _ => CDone) pre Hndp t5 [] _ P5) as (t6 & G6 & P6 & Q6 & C6 & D6).
    { intros w Hw. rewrite C5, D4; [|intros X'; injection X' as X'; exact (Hen w (Hpre w Hw) X')|discriminate]. apply PC3, Hpre, Hw. }
    cbn [app pfold] in P6.
    assert (Ce6 : chans t6 (Wk e) Mgr = [gone]). { rewrite D6, C5; [exact C4|]. intros w Hw X'. injection X' as <-. exact (Hen e (Hpre e Hw) eq_refl). }
    assert (G7 : exists t7, go t6 t7 /\ procs t7 Mgr = Fail GenericException /\ (forall x, x <> Mgr -> procs t7 x = procs t6 x) /\ chans t7 (Wk e) Mgr = [] /\ (forall x y, x <> Wk e \/ y <> Mgr -> chans t7 x y = chans t6 x y)).
    { eexists. split; [eapply go_exec; unfold exec; rewrite P6; cbn [rcv pbind]; rewrite Ce6; reflexivity|]. cbn [procs chans]. rewrite set1_same, set2_same. split; [reflexivity|]. split; [intros; apply set1_other; assumption|]. split; [reflexivity|]. intros; apply set2_other; assumption. }
    destruct G7 as (t7 & G7 & P7 & Q7 & C7 & D7).
    (* the handler *)
    assert (GA : go s t7) by (eapply go_trans; [exact G0|]; eapply go_trans; [exact G1|]; eapply go_trans; [exact G2|]; eapply go_trans; [exact G3|]; eapply go_trans; [exact G4|]; eapply go_trans; [exact G5|]; eapply go_trans; [exact G6|exact G7]).
    destruct (go_with pid_eqb pid_eqb_ok cap (fun _ _ => True) (fun x q => q = pbind (send_to_each_of OClose ws) (fun _ => Fail x)) Mgr s t7 (manager_run n ws ((OKron mats, r) :: rest) [] []) GA) as (q' & G8 & Hq).
    { unfold s. cbn [with_proc procs]. rewrite set1_same. unfold m0. cbn [manager_run]. apply prel_try; [|reflexivity]. intros a. constructor. exact I. }
    rewrite P7 in Hq. assert (Eq : q' = pbind (send_to_each_of OClose ws) (fun _ => Fail GenericException)) by (inversion Hq; auto). subst q'.
    set (t8 := with_proc pid_eqb t7 Mgr (pbind (send_to_each_of OClose ws) (fun _ => Fail GenericException))) in *.
    assert (Cm : forall w, In w (pre ++ post) -> chans t8 Mgr (Wk w) = []).
    { intros w Hw. unfold t8. cbn [with_proc chans]. rewrite D7 by (left; discriminate). rewrite D6 by (intros; discriminate). rewrite C5, D4 by (try discriminate; intros X'; injection X' as X'; exact (Hen w Hw X')). rewrite D3 by (intros; discriminate). apply PC2, Hw. }
    assert (Ce8 : chans t8 Mgr (Wk e) = left).
    { unfold t8. cbn [with_proc chans]. rewrite D7 by (left; discriminate). rewrite D6 by (intros; discriminate). rewrite C5. exact L4. }
    destruct (each_sent cap OClose ws Hnd t8 (fun _ => Fail GenericException)) as (t9 & G9 & P9 & Q9 & C9 & D9).
    { unfold t8. cbn [with_proc procs]. apply set1_same. }
    { intros w Hw. destruct (wid_dec w e) as [->|Hn']; [rewrite Ce8|rewrite (Cm w (Hin w Hw Hn'))]; (eapply fits_le; [apply Hcap, Hw|cbn; lia]). }
    assert (Pw9 : forall w, In w (pre ++ post) -> procs t9 (Wk w) = worker_run rsqrt (cfg w) (fst (F w)) (snd (F w))).
    { intros w Hw. rewrite Q9 by discriminate. unfold t8. cbn [with_proc procs]. rewrite set1_other by discriminate. rewrite Q7, Q6, Q5, Q4 by (try discriminate; intros X'; injection X' as X'; exact (Hen w Hw X')). apply PC3, Hw. }
    destruct (each_receives cap (fun w m => match m with MOp op => body rsqrt cfg w (fst (F w)) (snd (F w)) op | _ => Fail GenericException end) (fun _ => MOp OClose) (pre ++ post) Hndo t9) as (t10 & G10 & PC10 & Q10 & D10).
    { intros w Hw. rewrite <- worker_run_eq. split; [apply Pw9, Hw|]. rewrite C9 by apply Hne, Hw. rewrite Cm by exact Hw. reflexivity. }
    assert (G : go sj t10).
    { eapply go_eqv_l; [|eapply go_trans; [exact G8|]; eapply go_trans; [exact G9|exact G10]]. apply eqv_intro; [|reflexivity]. intros [|w]; unfold s; cbn [with_proc procs]; [rewrite set1_same; reflexivity|rewrite !set1_other by discriminate; reflexivity]. }
    assert (Pm : procs t10 Mgr = Fail GenericException) by (rewrite Q10 by (intros; discriminate); exact P9).
    assert (Po : forall w, In w (pre ++ post) -> procs t10 (Wk w) = Ret (EWorker (snd (F w)))) by (intros w Hw; rewrite (proj1 (PC10 w Hw)); reflexivity).
    assert (Pe : procs t10 (Wk e) = Ret EIdle).
    { rewrite Q10 by (intros w Hw X'; injection X' as <-; exact (Hen e Hw eq_refl)). rewrite Q9 by discriminate. unfold t8. cbn [with_proc procs]. rewrite set1_other by discriminate. rewrite Q7, Q6, Q5 by discriminate. exact E4. }
    assert (Pi : forall w, ~ In w ws -> procs t10 (Wk w) = Ret EIdle).
    { intros w Hw. assert (Hw' : forall v, In v (pre ++ post) -> Wk w <> Wk v) by (intros v Hv X'; injection X' as <-; apply Hw, Hne, Hv). assert (Hwe : Wk w <> Wk e) by (intros X'; injection X' as ->; contradiction).
      rewrite Q10 by exact Hw'. rewrite Q9 by discriminate. unfold t8. cbn [with_proc procs]. rewrite set1_other by discriminate. rewrite Q7, Q6, Q5 by discriminate. rewrite Q4 by exact Hwe. rewrite Q3, Q2 by exact Hw'. rewrite Q1, Q0 by discriminate.
      unfold s, sj. cbn [with_proc failing_net procs job_net]. rewrite set1_other by discriminate. cbn [pid_eqb]. destruct (wid_eqb w e) eqn:E; [apply wid_eqb_ok in E; congruence|].
      destruct (existsb (wid_eqb w) ws) eqn:E'; [|reflexivity]. apply existsb_exists in E'. destruct E' as (v & Hv & E'). apply wid_eqb_ok in E'. subst v. contradiction. }
    assert (Hwe : forall w, In w (pre ++ post) -> Wk w <> Wk e) by (intros w Hw X'; injection X' as X'; exact (Hen w Hw X')).
    destruct G as [l G]. apply (confluence pid_eqb pid_eqb_ok cap sj l t10 _ G).
    - intros [|w]; unfold exec; [rewrite Pm; reflexivity|]. destruct (in_dec wid_dec w ws) as [Hw|Hw]; [|rewrite Pi by exact Hw; reflexivity]. destruct (wid_dec w e) as [->|Hn']; [rewrite Pe; reflexivity|]. rewrite Po by (apply Hin; assumption). reflexivity.
    - intros t' [Hp Hc]. split; [|split; [|split]].
      + assert (E := Hp Mgr). rewrite Pm in E. inversion E. auto.
      + intros w Hw Hn'. exists (snd (F w)). assert (E := Hp (Wk w)). rewrite Po in E by (apply Hin; assumption). inversion E. auto.
      + intros w Hw. rewrite <- Hc. rewrite D10, D9 by (intros; discriminate). unfold t8. cbn [with_proc chans]. rewrite D7 by (left; apply Hwe, Hpre, Hw). apply C6, Hw.
      + intros w Hw. assert (Hw' : In w (pre ++ post)) by (apply in_app_iff; auto). rewrite <- Hc. rewrite D10, D9 by (intros; discriminate). unfold t8. cbn [with_proc chans]. rewrite D7 by (left; apply Hwe, Hw').
        rewrite D6, C5, D4; [apply PC3, Hw'|apply Hwe, Hw'|discriminate|]. intros v Hv X'. injection X' as <-. apply NoDup_app_inv in Hndo. destruct Hndo as (_ & _ & Hd). exact (Hd w Hv Hw).
  Qed.
End Unread.

(** ** The next job *)
Lemma insert_in w l x : In x (insert_n w l) <-> x = w \/ In x l.
Proof. induction l as [|y l IH]; cbn [insert_n]; [cbn; intuition congruence|]. destruct (_ <? _); cbn [In]; [|rewrite IH]; intuition congruence. Qed.
Lemma sort_in l x : In x (sort_n l) <-> In x l.
Proof.
  unfold sort_n. assert (G : forall acc, In x (fold_left (fun acc w => insert_n w acc) l acc) <-> In x l \/ In x acc).
  { induction l as [|y l IH]; intros acc; cbn [fold_left In]; [tauto|]. rewrite IH, insert_in. cbn [In]. intuition congruence. }
  rewrite G. cbn [In]. tauto.
Qed.
Lemma drawn_again n l w : 0 <= n <= 62 -> n <= wk_n w -> (forall x, In x l -> wk_n x <= wk_n w) ->
  exists msgs, make_pool n (l ++ [w]) = Ok ([((0, 2 ^ n), (0, 2 ^ n), w)], msgs, sort_n l).
Proof.
  intros Hn Hw Hl. assert (E : sort_n (l ++ [w]) = sort_n l ++ [w]).
  { unfold sort_n at 1. rewrite fold_left_app. cbn [fold_left]. fold (sort_n l). rewrite <- (app_nil_r (sort_n l)) at 1. rewrite insert_above; [reflexivity|]. apply Forall_forall. intros x Hx. apply Hl, sort_in, Hx. }
  unfold make_pool, draw_workers. rewrite E. unfold pop. rewrite rev_app_distr. cbn [rev app bind fst snd]. rewrite rev_involutive.
  assert (Er : required_for n (wk_n w) = 1) by (unfold required_for; rewrite Z.max_r by lia; reflexivity). rewrite Er.
  assert (Ed : draw_loop (length (l ++ [w])) n [w] (sort_n l) (wk_n w) 1 = Ok ([w], sort_n l, wk_n w, 1)).
  { destruct (length (l ++ [w])); reflexivity. }
  rewrite Ed. cbn [bind]. assert (Ez : zlen (l ++ [w]) <? 1 = false) by (apply Z.ltb_ge; unfold zlen; rewrite app_length; cbn; lia). rewrite Ez. cbn [bind].
  unfold allocate_workers. rewrite Z.min_r by lia. unfold worker_ranges. replace (n <? 0) with false by (symmetry; apply Z.ltb_ge; lia). rewrite Z.sub_diag.
  change (zrange 0 (2 ^ 0 + 1)) with [0; 1]. cbn [map removelast tl combine bind mfold]. unfold pop. cbn [rev app bind fst snd mfold].
  rewrite !Z.shiftl_mul_pow2 by lia. rewrite Z.mul_0_l, Z.mul_1_l. change (negb (zlen (@nil worker) =? 0)) with false. cbn [bind mfold].
  assert (P : 1 <= 2 ^ n <= 2 ^ 62). { split; [|apply Z.pow_le_mono_r; lia]. assert (0 < 2 ^ n) by (apply Z.pow_pos_nonneg; lia). lia. }
  unfold check_ranges, en_in, en_out. cbn [fst snd]. assert (I0 : int64 0 = Ok 0) by reflexivity. assert (I1 : int64 (2 ^ n) = Ok (2 ^ n)).
  { unfold int64. replace (- 2 ^ 63 <=? 2 ^ n) with true by (symmetry; apply Z.leb_le; lia). replace (2 ^ n <? 2 ^ 63) with true; [reflexivity|]. symmetry. apply Z.ltb_lt. change (2 ^ 63) with (2 * 2 ^ 62). lia. }
  rewrite I0, I1. cbn [bind]. eexists. reflexivity.
Qed.

(** ** A job without failures *)
Lemma mixed_clean {K} {OK : OrdRing K} cap (rsqrt : K -> K) cfg job room n bq pool draws lops results envs bs (lb final : backend K) :
  0 <= bq <= n -> tiles (2 ^ n) pool -> blocks (2 ^ bq) pool ->
  configured job (map fst pool) cfg -> connected (map fst pool) cfg -> capacities cap (map fst pool) room ->
  (length lops * Z.to_nat (2 ^ bq) + 1 <= room)%nat ->
  local_job rsqrt (map fst pool) draws lb lops results final ->
  bk_n lb = n -> zlen (bk_state lb) = 2 ^ n -> zlen (bk_arena lb) = 2 ^ n ->
  (forall w : wid, In w (map fst pool) -> holds n (bk_state lb) w (bs w)) ->
  (forall o, In o lops -> lop_ok n (fst o)) ->
  (forall w : wid, In w (map fst pool) ->
     scheduled (2 ^ bq) (used_all (is_diagonal w) (map fst lops)) (envs w) /\ forall e, In e (envs w) -> e_acc0 e = 0%r) ->
  (forall a : range, In (a, a) (map fst pool) -> draws a = map e_rand (envs (a, a))) ->
  always_ends pid_eqb cap (job_net rsqrt n (map fst pool) (map (fun o => (wop_of (fst o), snd o)) lops) cfg envs bs) (fun s' =>
    procs s' Mgr = Ret (EManager results (map fst pool)) /\
    forall w : wid, In w (map fst pool) -> (exists b, procs s' (Wk w) = Ret (EWorker b)) /\ chans s' Mgr (Wk w) = [] /\ chans s' (Wk w) Mgr = []).
Proof.
  intros Hbq Ht Hb Hc Hr Hcap Hroom Hl Hn Hst Har Hh Hops He Hd. set (ws := map fst pool) in *.
  destruct (mixed_steps cap rsqrt cfg job room n bq pool Hbq Ht Hb Hc Hr Hcap draws lb final lops results Hl (job_net0 rsqrt n ws (map (fun o => (wop_of (fst o), snd o)) lops) cfg envs bs) 0 [] [] envs bs) as (t & bs' & envs' & G & SS & Hh'); auto.
  { apply start_phase. }
  cbn [manager_run0 app] in SS. destruct (close_step cap rsqrt cfg job room n bq pool Hbq Ht Hb Hcap t _ _ envs' bs' SS) as (t2 & G2 & S2).
  destruct (job_done cap ws job rsqrt n _ cfg envs bs t2 _ _ _ (go_trans _ _ _ _ _ G G2) S2) as (t3 & [l G3] & [H1 H2 H3 H4 H5]).
  apply (confluence pid_eqb pid_eqb_ok cap _ l t3 _ G3).
  - intros [|w]; unfold exec; [rewrite H1; reflexivity|]. change (Wk w) with (P w). destruct (inb w ws) eqn:E; [apply inb_ok in E; rewrite H2 by exact E; reflexivity|]. apply inb_no in E. rewrite H3 by exact E. reflexivity.
  - intros t' [He' Hc']. split.
    + assert (H := He' Mgr). rewrite H1 in H. inversion H. auto.
    + intros w Hw. split; [|rewrite <- !Hc'; exact (H4 w Hw)]. exists (bs' w). assert (H := He' (Wk w)). change (Wk w) with (P w) in H at 1. rewrite (H2 w Hw) in H. inversion H. auto.
Qed.
