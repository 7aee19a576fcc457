(** Distributed top-k measurement. *)
From Verif Require Import Base M_Bits S_Bits L_Bits M_Kron S_Kron M_Feed M_Measure S_Measure L_Measure1 L_Measure2 L_Measure3 L_Measure4 L_Measure5 L_Measure6 M_Pool S_Pool M_Top S_Top L_Top M_Net S_Net L_Net M_Worker S_Worker L_Worker1 L_Worker2 L_Worker3 L_Worker4 L_Worker5 L_Worker6 L_Worker9 L_Worker10 L_Job.

(** ** A part of a state is too short for measure_top_probabilities *)
Definition only_oob {A} (x : res A) : Prop := forall e, x = Raise e -> e = OOB.
Lemma oob_ok {A} (a : A) : only_oob (Ok a).
Proof. intros e E. discriminate. Qed.
Lemma oob_cget {A} (l : list A) i : only_oob (cget l i).
Proof. intros e E. unfold cget in E. destruct (i <? 0); [congruence|]. destruct (nth_error l (Z.to_nat i)); congruence. Qed.
Lemma oob_cset {A} (l : list A) i v : only_oob (cset l i v).
Proof. intros e E. unfold cset in E. destruct (_ || _); congruence. Qed.
Lemma oob_bind {A B} (x : res A) (f : A -> res B) : only_oob x -> (forall a, x = Ok a -> only_oob (f a)) -> only_oob (bind x f).
Proof. intros H1 H2 e E. destruct x as [a|e']; cbn [bind] in E; [exact (H2 a eq_refl e E)|]. apply H1. congruence. Qed.
Lemma oob_mfold {S I} (f : S -> I -> res S) (Inv : S -> Prop) : (forall s i, Inv s -> only_oob (f s i) /\ forall s', f s i = Ok s' -> Inv s') -> forall l s, Inv s -> only_oob (mfold f l s).
Proof.
  intros H. induction l as [|i l IH]; intros s Hs; cbn [mfold]; [apply oob_ok|]. destruct (H s i Hs) as [H1 H2]. apply oob_bind; [exact H1|]. intros a E. apply IH, H2, E.
Qed.
Lemma mfold_each {S I} (f : S -> I -> res S) l : forall s s', mfold f l s = Ok s' -> forall i, In i l -> exists t t', f t i = Ok t'.
Proof.
  induction l as [|x l IH]; intros s s' E i Hi; [destruct Hi|]. cbn [mfold] in E. destruct (f s x) as [t|] eqn:Ef; [|discriminate]. cbn [bind] in E.
  destruct Hi as [<-|Hi]; [eauto|]. eapply IH; eassumption.
Qed.
Lemma cget_inv {A} (l : list A) i a : cget l i = Ok a -> 0 <= i < zlen l.
Proof.
  unfold cget, zlen. destruct (Z.ltb_spec i 0); [discriminate|]. destruct (nth_error l (Z.to_nat i)) eqn:E; [|discriminate]. intros _.
  assert (Z.to_nat i < length l)%nat by (apply nth_error_Some; congruence). lia.
Qed.

Section Short.
  Context {K : Type} {OK : OrdRing K}.
  Notation C := (Cx K).
  Lemma oob_bubble : forall fuel (ms : list Z) (ps : list K) pos, (Z.to_nat pos <= fuel)%nat -> only_oob (bubble fuel ms ps pos).
  Proof.
    induction fuel as [|fuel IH]; intros ms ps pos Hf; cbn [bubble]; (destruct (Z.leb_spec pos 0) as [Hp|Hp]; [apply oob_ok|]); [lia|].
    apply oob_bind; [apply oob_cget|]. intros a _. apply oob_bind; [apply oob_cget|]. intros b _. destruct (rleb a b); [apply oob_ok|].
    do 6 (apply oob_bind; [first [apply oob_cget|apply oob_cset]|]; intros ? _). apply IH. rewrite Z.shiftr_div_pow2 by lia. change (2 ^ 1) with 2. assert ((pos - 1) / 2 <= pos - 1) by (apply Z.div_le_upper_bound; lia). lia.
  Qed.
  Lemma top_short n indices (vec : list C) top_k : 0 <= n -> qubits_ok n indices -> 1 <= top_k -> zlen vec < 2 ^ n -> measure_top_probabilities indices n top_k vec = Raise OOB.
  Proof.
    intros Hn HI Hk Hv. rewrite top_unfold. cbv zeta. set (k := zlen indices). set (L := Z.min top_k (2 ^ k)).
    destruct (make_row_mask_ok n indices Hn HI) as (mask & Em & HM).
    assert (Hkp : 0 < 2 ^ k) by (apply Z.pow_pos_nonneg; unfold k, zlen; lia).
    destruct (Z.ltb_spec L 0); [lia|].
    match goal with |- bind ?x _ = _ => assert (Ho : only_oob x); [|destruct x as [st|e] eqn:Est] end.
    - apply (oob_mfold _ (fun st => 0 <= snd st)); [|cbn; lia]. intros [[ms ps] he] m He. cbn [snd] in He. unfold top_step. rewrite Em. cbn [bind]. fold k.
      match goal with |- only_oob (bind ?x ?f) /\ _ => assert (Hx : only_oob x) end.
      { apply (oob_mfold _ (fun _ => True)); [|exact I]. intros s j _. split; [|auto]. apply oob_bind; [apply oob_cget|]. intros; apply oob_ok. }
      split.
      + apply oob_bind; [exact Hx|]. intros vp _. apply oob_bind; [apply oob_cget|]. intros old _. apply oob_bind; [|intros; apply oob_ok].
        destruct (rleb old vp); [|apply oob_ok]. apply oob_bind; [apply oob_cset|]. intros ms' _. apply oob_bind; [apply oob_cset|]. intros ps' _. apply oob_bubble. lia.
      + intros s' E. destruct (mfold _ _ _) as [vp|]; [|discriminate]. cbn [bind] in E. destruct (cget ps he) as [old|]; [|discriminate]. cbn [bind] in E.
        match goal with E : bind ?x _ = _ |- _ => destruct x as [mps|]; [|discriminate] end. cbn [bind] in E. inversion E. cbn [snd]. destruct (he <? L); lia.
    - exfalso. set (x := 2 ^ n - 1). assert (Hnp : 0 < 2 ^ n) by (apply Z.pow_pos_nonneg; lia). assert (Hx : 0 <= x < 2 ^ n) by (unfold x; lia).
      destruct (mfold_each _ _ _ _ Est (reg n (measured_order n indices) x)) as ([[ms ps] he] & t' & E).
      { apply in_zrange. eapply reg_mo_range; eassumption. }
      unfold top_step in E. rewrite Em in E. cbn [bind] in E. match type of E with bind ?y _ = _ => destruct y as [vp|] eqn:Ev; [|discriminate] end.
      destruct (mfold_each _ _ _ _ Ev (reg n (unmeasured_order n indices) x)) as (s & s' & E2).
      { apply in_zrange. eapply reg_uo_range; eassumption. }
      destruct (cget vec _) as [y|] eqn:Ec; [|discriminate]. apply cget_inv in Ec. rewrite (ent_of n indices mask Hn HI HM x Hx) in Ec. unfold x in Ec. lia.
    - cbn [bind]. rewrite (Ho e eq_refl). reflexivity.
  Qed.
End Short.

Section Single.
  Context {K : Type} {OK : OrdRing K}.
  Add Ring KRingW13 : (@rth K _).
  Lemma combine_split {A B} (l : list (A * B)) : combine (map fst l) (map snd l) = l.
  Proof. induction l as [|[a b] l IH]; cbn [map combine fst snd]; [reflexivity|]. rewrite IH. reflexivity. Qed.
  (** one reply with all outcomes: sorted, nothing added, errors 0 *)
  Lemma combine_single (f : Z -> K) l0 M top_k : 0 < M -> M <= top_k -> Permutation l0 (map (fun m => (m, f m)) (zrange 0 M)) ->
    exists l errs, combine_replies [(map fst l0, map snd l0)] top_k = Ok (map fst l, map snd l, errs) /\ Permutation l (map (fun m => (m, f m)) (zrange 0 M)) /\ decreasing (map snd l) /\ forall e, In e errs -> e = 0%r.
  Proof.
    intros HM Hk Hp. set (c := (map fst l0, map snd l0) : reply K).
    assert (Hfst : Permutation (map fst l0) (zrange 0 M)). { eapply perm_trans; [apply Permutation_map; exact Hp|]. rewrite map_map. cbn [fst]. rewrite map_id. apply Permutation_refl. }
    assert (Hin : forall m, In m (fst c) <-> 0 <= m < M). { intros m. rewrite <- in_zrange. split; apply Permutation_in; [|apply Permutation_sym]; exact Hfst. }
    destruct (combine_ok (M - 1) [c] top_k) as (mins & l & Hm & Ec & Hd & Hn & Hl).
    - discriminate.
    - intros c' [<-|[]]. split; [|split].
      + eapply Permutation_NoDup; [apply Permutation_sym; exact Hfst|]. apply zrange_nodup.
      + cbn [c fst snd]. rewrite !map_length. reflexivity.
      + intros E. assert (H0 : In 0 (fst c)) by (apply Hin; lia). rewrite E in H0. destruct H0.
    - intros c' [<-|[]]. split; [apply Hin; lia|]. intros m Hm. apply Hin in Hm. lia.
    - assert (Hf : forall m, 0 <= m < M -> reply_prob c m = f m).
      { intros m Hm'. unfold reply_prob, c. cbn [fst snd]. rewrite combine_split. rewrite (sum_perm _ _ _ Hp), sum_map. cbn [fst snd].
        rewrite (sum_ext _ _ (fun x => if x =? m then f m else 0%r)); [|intros x _; destruct (Z.eqb_spec x m); [subst|]; reflexivity]. rewrite (sum_single _ m); [rewrite Z.eqb_refl; reflexivity|apply zrange_nodup|apply in_zrange; exact Hm'|]. intros x _ Hx. destruct (Z.eqb_spec x m); [contradiction|reflexivity]. }
      assert (Hlist : forall t, In t l <-> exists m, 0 <= m < M /\ t = (m, f m, 0%r)).
      { intros [[m p] e]. rewrite Hl. split.
        - intros ((c' & [<-|[]] & Hmc) & -> & ->). assert (Hm' := Hmc). apply Hin in Hm'. exists m. split; [exact Hm'|]. cbn [sum]. rewrite Hf by exact Hm'. inversion Hm as [|? mn ? ms ? Hms]; subst. inversion Hms; subst. cbn [combine sum]. unfold err_of. cbn [fst].
          assert (Ex : existsb (Z.eqb m) (map fst l0) = true) by (apply existsb_eqb; exact Hmc). change (fst c) with (map fst l0). rewrite Ex. f_equal; [f_equal; ring|ring].
        - intros (m' & Hm' & E). inversion E; subst m' p e. split; [exists c; split; [left; reflexivity|apply Hin; exact Hm']|]. cbn [sum]. rewrite Hf by exact Hm'. split; [ring|]. inversion Hm as [|? mn ? ms ? Hms]; subst. inversion Hms; subst. cbn [combine sum]. unfold err_of. cbn [fst].
          assert (Ex : existsb (Z.eqb m) (map fst l0) = true) by (apply existsb_eqb; apply Hin; exact Hm'). change (fst c) with (map fst l0). rewrite Ex. ring. }
      assert (Hpl : Permutation (map fst l) (map (fun m => (m, f m)) (zrange 0 M))).
      { apply NoDup_Permutation.
        - apply (NoDup_map_inv fst). rewrite map_map. exact Hn.
        - apply (NoDup_map_inv fst). rewrite map_map. cbn [fst]. rewrite map_id. apply zrange_nodup.
        - intros [m p]. rewrite !in_map_iff. split.
          + intros (t & E & Ht). apply Hlist in Ht. destruct Ht as (m' & Hm' & ->). exists m'. split; [exact E|]. apply in_zrange. exact Hm'.
          + intros (m' & E & Hm'). apply in_zrange in Hm'. exists (m', f m', 0%r). split; [exact E|]. apply Hlist. exists m'. auto. }
      assert (Hlen : (length l <= Z.to_nat top_k)%nat). { apply Permutation_length in Hpl. rewrite !map_length, zrange_length in Hpl. lia. }
      exists (map fst l), (map snd l). split; [|split; [exact Hpl|split]].
      + eapply eq_trans; [exact Ec|]. rewrite !firstn_all2 by (rewrite map_length; exact Hlen). rewrite !map_map. reflexivity.
      + rewrite map_map. exact Hd.
      + intros e He. apply in_map_iff in He. destruct He as (t & <- & Ht). apply Hlist in Ht. destruct Ht as (m & _ & ->). reflexivity.
  Qed.
End Single.

Section TopJob.
  Context {K : Type} {OK : OrdRing K}.
  Notation C := (Cx K).
  Notation msg := (msg K).
  Variable cap : pid -> pid -> option nat.
  Notation go := (go pid_eqb cap).
  Context (rsqrt : K -> K) (cfg : wid -> worker_cfg) (n bq : Z) (pool : list entry).
  Let ws : list wid := map fst pool.
  Let size := 2 ^ bq.
  Let N := 2 ^ (n - bq).
  Let rs := blks size N.
  Hypothesis Hbq : 0 <= bq <= n.
  Hypothesis Ht : tiles (2 ^ n) pool.
  Hypothesis Hb : blocks (2 ^ bq) pool.
  Hypothesis Hcap : capacities cap ws 1.
  Notation phase := (phase ws 0).
  Let Hws : forall w : wid, In w ws <-> In (fst w) rs /\ In (snd w) rs := Hws n bq pool Hbq Ht Hb.
  Let Hsp : 0 < size := size_pos n bq Hbq.
  Let HN : N * size = 2 ^ n := Nsize n bq Hbq.
  Let HNp : 0 < N := N_pos n bq Hbq.
  Let dgl : list wid := dg n bq.
  Let Hdg : forall w : wid, In w dgl <-> In w ws /\ fst w = snd w := dg_in n bq pool Hbq Ht Hb.
  Let Hdn : NoDup dgl := dg_nodup n bq Hbq.

  Variables (indices : list Z) (top_k : Z) (r : K) (rest : list (wop K * K)) (envs : wid -> list (env K)) (bs : wid -> backend K) (full : list C).
  Let op : wop K := OMeasure (mkMeasure indices None false false top_k).
  Hypothesis Hf : zlen full = 2 ^ n.
  Hypothesis Hh : forall w, In w ws -> holds n full w (bs w).
  Hypothesis HI : qubits_ok n indices.

  (** more than 2048 outcomes *)
  Lemma top_many : 2048 < top_k ->
    always_ends pid_eqb cap (job_net rsqrt n ws ((op, r) :: rest) cfg envs bs) (fun s' =>
      procs s' Mgr = Fail GenericException /\ forall w, In w ws -> procs s' (Wk w) = Ret (EWorker (bs w))).
  Proof.
    intros Hk. set (sj := job_net rsqrt n ws ((op, r) :: rest) cfg envs bs).
    assert (S0 := start_phase rsqrt cfg 0 pool (manager_run n ws ((op, r) :: rest) [] []) envs bs).
    assert (Em : manager_run n ws ((op, r) :: rest) [] [] = pbind (send_to_each_of OClose ws) (fun _ => Fail GenericException)).
    { unfold op. cbn [manager_run send_op m_soft m_reduce m_top_k]. assert (X : (top_k =? 0) = false) by lia. assert (Y : (2048 <? top_k) = true) by lia. rewrite X, Y. reflexivity. }
    fold ws in S0. change (phase sj 0 (manager_run n ws ((op, r) :: rest) [] []) (fun w => worker_run rsqrt (cfg w) (envs w) (bs w))) in S0. rewrite Em in S0.
    destruct (rpc_begin cap rsqrt ws cfg 0 1 Hcap sj 0 OClose ws _ _ bs (L_Worker5.Hnd n bq pool Hbq Ht Hb) (incl_refl _) S0) as (t3 & G3 & [H1 H2 H3 H4 H5]).
    assert (H2' : forall w, In w ws -> procs t3 (P w) = Ret (EWorker (bs w))) by (intros w Hw; rewrite (H2 w Hw); apply inb_ok in Hw; rewrite Hw; reflexivity).
    destruct G3 as [l G]. apply (confluence pid_eqb pid_eqb_ok cap sj l t3 _ G).
    - intros [|w]; unfold exec; [rewrite H1; reflexivity|]. change (Wk w) with (P w). destruct (inb w ws) eqn:E.
      + apply inb_ok in E. rewrite (H2' w E). reflexivity.
      + apply inb_no in E. rewrite H3 by exact E. reflexivity.
    - intros t' [Hp _]. split.
      + assert (E := Hp Mgr). rewrite H1 in E. inversion E. auto.
      + intros w Hw. assert (E := Hp (Wk w)). change (Wk w) with (P w) in E at 1. rewrite (H2' w Hw) in E. inversion E. auto.
  Qed.

  (** several blocks *)
  Hypothesis Hk : 1 <= top_k <= 2048.
  Hypothesis He : forall w, In w ws -> envs w <> [].
  Lemma mgr_top : exists k : list (conf K) -> proc pid msg (ending K),
    peq (pbind (send_op r n ws op) (fun _ => Ret EIdle)) (pbind (send_to_each_of op dgl) (fun _ => pbind (receive_from_each_of dgl) k)).
  Proof.
    unfold op. cbn [send_op m_soft m_reduce m_top_k]. assert (X : (top_k =? 0) = false) by lia. assert (Y : (2048 <? top_k) = false) by lia. rewrite X, Y. cbn [negb]. unfold send_measure_top.
    assert (Edl : diagonal_workers ws = dgl) by exact (diagonal_is n bq pool Hbq Ht Hb). rewrite Edl. eexists.
    eapply peq_trans; [apply bind_assoc|]. eapply peq_trans; [apply bind_assoc|]. unfold map_workers_via_op. apply bind_assoc.
  Qed.
  Lemma top_blocks : bq < n ->
    always_ends pid_eqb cap (job_net rsqrt n ws ((op, r) :: rest) cfg envs bs) (fun s' =>
      (exists w k, procs s' Mgr = Recv (Wk w) k /\ chans s' (Wk w) Mgr = []) /\
      forall w, In w ws -> fst w = snd w -> procs s' (Wk w) = Fail OOB).
  Proof.
    intros Hlt. set (sj := job_net rsqrt n ws ((op, r) :: rest) cfg envs bs).
    pose (m0 := pbind (send_op r n ws op) (fun _ => Ret EIdle : proc pid msg (ending K))).
    set (s := with_proc pid_eqb sj Mgr m0).
    assert (S0 : phase s 0 m0 (fun w => worker_run rsqrt (cfg w) (envs w) (bs w))).
    { destruct (start_phase rsqrt cfg 0 pool (manager_run n ws ((op, r) :: rest) [] []) envs bs) as [H1 H2 H3 H4 H5]. constructor; auto. }
    destruct mgr_top as (k & Epq). fold m0 in Epq.
    destruct (phase_recast cap ws 0 s 0 _ _ _ (fun w => worker_run rsqrt (cfg w) (envs w) (bs w)) S0 Epq) as (t0 & G0 & S1). { intros; apply peq_refl. }
    destruct (rpc_begin cap rsqrt ws cfg 0 1 Hcap t0 0 op dgl _ envs bs Hdn (fun w Hw => proj1 (proj1 (Hdg w) Hw)) S1) as (t1 & G1 & S2).
    destruct (phase_with cap ws 0 (fun _ _ => True) (fun e q => q = pbind (send_to_each_of OClose ws) (fun _ => Fail e)) s t1 0 _ _ (manager_run n ws ((op, r) :: rest) [] []) (go_trans _ _ _ _ _ G0 G1) S2) as (mq & t2 & G2 & [H1 H2 H3 H4 H5] & Hmq).
    { change (procs s Mgr) with m0. unfold m0. cbn [manager_run]. apply prel_try; [|reflexivity]. intros a. constructor. exact I. }
    assert (Hfail : forall w, In w dgl -> body rsqrt cfg w (envs w) (bs w) op = Fail OOB).
    { intros w Hw. apply Hdg in Hw. destruct Hw as [Hw _]. destruct (envs w) as [|e es] eqn:Ee; [destruct (He w Hw Ee)|]. unfold body, op. cbn [worker_op]. unfold worker_measure. destruct (c_id (cfg w)) as [input output].
      cbn [m_soft m_reduce m_top_k m_indices]. assert (X : (top_k =? 0) = false) by lia. rewrite X. cbn [negb]. unfold bk_measure_probabilities. rewrite X. destruct (Hh w Hw) as (E1 & E2 & _). rewrite E1, E2.
      rewrite top_short; [reflexivity|lia|exact HI|lia|]. apply Hws in Hw. destruct (slice_inside n bq Hbq (fst w) full (proj1 Hw) Hf) as [_ ->]. apply Z.pow_lt_mono_r; lia. }
    assert (Hd0 : exists w l, dgl = w :: l).
    { unfold dgl, dg. fold size N. assert (H0 : In 0 (zrange 0 N)) by (apply in_zrange; lia). unfold blks. destruct (zrange 0 N); [destruct H0|]. cbn [map]. eauto. }
    destruct Hd0 as (w0 & l0 & Ed). assert (Hin0 : In w0 dgl) by (rewrite Ed; left; reflexivity).
    assert (Emq : exists k', mq = Recv (Wk w0) k').
    { rewrite Ed in Hmq. unfold receive_from_each_of in Hmq. cbn [pfold pbind] in Hmq. inversion Hmq; subst. eauto. }
    destruct Emq as (k' & ->).
    assert (G : go sj t2). { eapply go_eqv_l; [|exact G2]. apply eqv_intro; [|reflexivity]. intros [|w]; reflexivity. }
    assert (Hw0 : chans t2 (Wk w0) Mgr = []) by (apply (H4 w0); apply Hdg, Hin0).
    destruct G as [l G]. apply (confluence pid_eqb pid_eqb_ok cap sj l t2 _ G).
    - intros [|w]; unfold exec; [rewrite H1, Hw0; reflexivity|]. change (Wk w) with (P w). destruct (inb w ws) eqn:E.
      + apply inb_ok in E. rewrite (H2 w E). destruct (inb w dgl) eqn:E'; [apply inb_ok in E'; rewrite (Hfail w E'); reflexivity|]. rewrite worker_run_eq. rewrite (proj1 (H4 w E)). reflexivity.
      + apply inb_no in E. rewrite H3 by exact E. reflexivity.
    - intros t' [Hp Hc]. split.
      + assert (E := Hp Mgr). rewrite H1 in E. inversion E. exists w0. eexists. split; [reflexivity|]. rewrite <- Hc. exact Hw0.
      + intros w Hw Hd. assert (E := Hp (Wk w)). change (Wk w) with (P w) in E at 1. rewrite (H2 w Hw) in E. assert (Hw' : In w dgl) by (apply Hdg; auto). assert (X := Hw'). apply inb_ok in X. rewrite X, (Hfail w Hw') in E. inversion E. auto.
  Qed.

  (** one worker *)
  Lemma top_single : bq = n -> rest = [] -> 2 ^ zlen indices <= top_k ->
    exists l errs, Permutation l (map (fun m => (m, marginal n (measured_order n indices) (amp_at 0 full) m)) (zrange 0 (2 ^ zlen indices))) /\ decreasing (map snd l) /\ (forall e, In e errs -> e = 0%r) /\
    always_ends pid_eqb cap (job_net rsqrt n ws ((op, r) :: rest) cfg envs bs) (fun s' =>
      procs s' Mgr = Ret (EManager [Some (inr (map fst l, map snd l, errs))] ws) /\
      forall w, In w ws -> procs s' (Wk w) = Ret (EWorker (bs w))).
  Proof.
    intros Hbn Er Hkk. assert (Hn : 0 <= n) by lia.
    destruct (top_all n indices full Hn HI Hf top_k Hkk) as (l0 & E0 & Hp0 & _).
    destruct (combine_single (fun m => marginal n (measured_order n indices) (amp_at 0 full) m) l0 (2 ^ zlen indices) top_k) as (l & errs & Ec & Hp & Hd & Hz); [apply Z.pow_pos_nonneg; unfold zlen; lia|exact Hkk|exact Hp0|].
    exists l, errs. split; [exact Hp|]. split; [exact Hd|]. split; [exact Hz|].
    assert (Ed : dgl = [((0, 2 ^ n), (0, 2 ^ n))]).
    { unfold dgl, dg. rewrite Hbn, Z.sub_diag. unfold blks, blk. change (zrange 0 (2 ^ 0)) with [0]. cbn [map]. rewrite Z.mul_0_l, Z.add_0_l, Z.mul_1_l. reflexivity. }
    assert (Eall : forall w, In w ws -> w = ((0, 2 ^ n), (0, 2 ^ n))).
    { intros w Hw. apply Hws in Hw. unfold rs, size, N in Hw. rewrite Hbn, Z.sub_diag in Hw. unfold blks, blk in Hw. change (zrange 0 (2 ^ 0)) with [0] in Hw. cbn [map] in Hw. rewrite Z.mul_0_l, Z.add_0_l, Z.mul_1_l in Hw. destruct w as [a b]. cbn [fst snd] in Hw. destruct Hw as [[<-|[]] [<-|[]]]. reflexivity. }
    rewrite Er. set (s := job_net0 rsqrt n ws [(op, r)] cfg envs bs).
    assert (S0 : phase s 0 (manager_run0 n ws [(op, r)] [] []) (fun w => worker_run rsqrt (cfg w) (envs w) (bs w))).
    { exact (start_phase rsqrt cfg 0 pool (manager_run0 n ws [(op, r)] [] []) envs bs). }
    set (w1 := ((0, 2 ^ n), (0, 2 ^ n)) : wid) in *.
    assert (Hin : In w1 ws). { apply Hdg. rewrite Ed. left. reflexivity. }
    pose (k1 := fun confs : list (conf K) => pbind (lift (combine_replies (map (fun c => match c with CTop is ps => (is, ps) | _ => ([], []) end) confs) top_k) : proc pid msg _)
       (fun x => pbind (send_to_each_of OClose ws) (fun _ => Ret (EManager [Some (inr x)] ws)) : proc pid msg (ending K))).
    destruct (phase_recast cap ws 0 s 0 _ _ (pbind (map_workers_via_op op dgl) k1) (fun w => worker_run rsqrt (cfg w) (envs w) (bs w)) S0) as (t0 & G0 & S1).
    { unfold op. cbn [manager_run0 send_op m_soft m_reduce m_top_k]. assert (X : (top_k =? 0) = false) by lia. assert (Y : (2048 <? top_k) = false) by lia. rewrite X, Y. cbn [negb]. unfold send_measure_top.
      assert (Edl : diagonal_workers ws = dgl) by exact (diagonal_is n bq pool Hbq Ht Hb). rewrite Edl.
      eapply peq_trans; [apply bind_assoc|]. eapply peq_trans; [apply bind_assoc|]. apply peq_bind; [apply peq_refl|]. intros confs. unfold k1. apply peq_bind; [apply peq_refl|]. intros x. apply peq_refl. }
    { intros; apply peq_refl. }
    destruct (rpc_local cap rsqrt ws cfg 0 1 Hcap t0 0 op dgl k1 envs bs bs (fun _ => CTop (map fst l0) (map snd l0)) Hdn (fun w Hw => proj1 (proj1 (Hdg w) Hw)) ltac:(discriminate) S1) as (t1 & G1 & S2).
    { intros w Hw. apply Hdg in Hw. destruct Hw as [Hw _]. destruct (envs w) as [|e es] eqn:Ee; [destruct (He w Hw Ee)|]. exists e, es. split; [reflexivity|]. unfold op. cbn [worker_op]. unfold worker_measure. destruct (c_id (cfg w)) as [input output].
      cbn [m_soft m_reduce m_top_k m_indices]. assert (X : (top_k =? 0) = false) by lia. rewrite X. cbn [negb]. unfold bk_measure_probabilities. rewrite X. destruct (Hh w Hw) as (E1 & E2 & _). rewrite E1, E2.
      assert (Esl : slice (fst w) full = full). { rewrite (Eall w Hw). unfold slice, pyslice. cbn [w1 fst snd]. rewrite Z.sub_0_r. change (Z.to_nat 0) with O. cbn [skipn]. apply firstn_all2. unfold zlen in Hf. lia. }
      rewrite Esl, E0. reflexivity. }
    { reflexivity. }
    rewrite Ed in S2. cbn [map] in S2. unfold k1 in S2. cbn [map] in S2. rewrite Ec in S2. cbn [lift] in S2.
    change (pbind (Ret (map fst l, map snd l, errs)) ?f) with (f (map fst l, map snd l, errs)) in S2. cbv beta in S2.
    destruct (close_step cap rsqrt cfg 0 1 n bq pool Hbq Ht Hb Hcap t1 0 _ _ bs S2) as (t2 & G2 & S3).
    destruct (job_done cap ws 0 rsqrt n [(op, r)] cfg envs bs t2 0 _ _ (go_trans _ _ _ _ _ (go_trans _ _ _ _ _ G0 G1) G2) S3) as (t3 & G3 & S4).
    eapply phase_ends; [exact G3|exact S4|]. intros t' H1 H2. split; auto.
  Qed.
End TopJob.
