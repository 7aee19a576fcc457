From Verif Require Import Base M_Bits S_Bits M_Kron S_Kron M_Feed S_Feed M_Measure S_Measure L_Measure1 L_Measure2 L_Measure5 L_Measure6 M_Pool S_Pool M_Top S_Top M_Net S_Net M_Worker S_Worker L_Worker10 L_Worker13 M_Client S_Client.

Section L_Client.
  Context {K : Type} {OK : OrdRing K}.

  Lemma requests_asked (calls : list (call K * K)) lops : Forall2 (fun c o => asks (fst c) (fst o) /\ snd c = snd o) calls lops ->
    requests calls = map (fun o => (wop_of (fst o), snd o)) lops.
  Proof.
    induction 1 as [|[c r] [o r'] calls lops [H E] _ IH]; [reflexivity|]. unfold requests in *. cbn [map concat fst snd] in *. subst r'. rewrite IH.
    destruct o as [mats sched|indices]; cbn in H; [subst c; reflexivity|]. destruct H as (m & p & ->). reflexivity.
  Qed.

  Lemma answers rsqrt ws draws (b : backend K) lops results final : local_job rsqrt ws draws b lops results final ->
    forall calls, Forall2 (fun c o => asks (fst c) (fst o) /\ snd c = snd o) calls lops ->
    map (fun cr => response (fst (fst cr)) (snd cr)) (combine calls results) = map answer results.
  Proof.
    induction 1 as [|draws b b1 b2 mats sched r ops results Hk H IH|draws b b1 b2 indices r ops results a r2 m p Ha Hd Hdr Hm Hp H IH]; intros calls Hc; inversion Hc as [|[c r0] o l l' [Ha0 _] Hl]; subst; [reflexivity| |]; cbn [combine map fst snd] in *; rewrite (IH _ Hl); f_equal.
    - cbn in Ha0. subst. reflexivity.
    - destruct Ha0 as (m' & p' & ->). reflexivity.
  Qed.

  Lemma always_weaken cap (s : net pid (msg K) (ending K)) (Q Q' : _ -> Prop) : (forall s', Q s' -> Q' s') -> always_ends pid_eqb cap s Q -> always_ends pid_eqb cap s Q'.
  Proof. intros H [b Hb]. exists b. intros sched s' E. destruct (Hb sched s' E) as [? [|]]; auto. Qed.

  Lemma forced_ignored cap (rsqrt : K -> K) cfg job room n bq pool draws calls lops results envs bs local final :
    0 <= bq <= n -> tiles (2 ^ n) pool -> blocks (2 ^ bq) pool ->
    configured job (map fst pool) cfg -> connected (map fst pool) cfg -> capacities cap (map fst pool) room ->
    (length lops * Z.to_nat (2 ^ bq) + 1 <= room)%nat ->
    Forall2 (fun c o => asks (fst c) (fst o) /\ snd c = snd o) calls lops ->
    local_job rsqrt (map fst pool) draws local lops results final ->
    bk_n local = n -> zlen (bk_state local) = 2 ^ n -> zlen (bk_arena local) = 2 ^ n ->
    (forall w : wid, In w (map fst pool) -> holds n (bk_state local) w (bs w)) ->
    (forall o, In o lops -> lop_ok n (fst o)) ->
    (forall w : wid, In w (map fst pool) ->
       scheduled (2 ^ bq) (used_all (is_diagonal w) (map fst lops)) (envs w) /\ forall e, In e (envs w) -> e_acc0 e = 0%r) ->
    (forall a : range, In (a, a) (map fst pool) -> draws a = map e_rand (envs (a, a))) ->
    always_ends pid_eqb cap (client_net rsqrt n (map fst pool) calls cfg envs bs) (fun s' =>
      exists replies, procs s' Mgr = Ret (EManager replies (map fst pool)) /\
        map (fun cr => response (fst (fst cr)) (snd cr)) (combine calls replies) = map answer results /\
      forall w : wid, In w (map fst pool) -> exists b, procs s' (Wk w) = Ret (EWorker b) /\ holds n (bk_state final) w b).
  Proof.
    intros Hb Ht Hbl Hc Hr Hcap Hroom Hcl Hj H1 H2 H3 H4 H5 H6 H7. unfold client_net. rewrite (requests_asked calls lops Hcl).
    assert (E := mixed_ends cap rsqrt cfg job room n bq pool Hb Ht Hbl Hc Hr Hcap draws lops results envs bs local final).
    eapply always_weaken; [|apply E; auto]. intros s' [Hm Hw]. exists results. split; [exact Hm|]. split; [|exact Hw]. eapply answers; eauto.
  Qed.

  Lemma request_probs indices top_k (r : K) calls : requests ((CMeasureProbabilities indices top_k, r) :: calls)
    = (OMeasure (mkMeasure indices None false false (asked_for indices top_k)), r) :: requests calls.
  Proof. reflexivity. Qed.

  Lemma probs_many cap (rsqrt : K -> K) cfg n bq pool indices top_k r calls envs bs local :
    0 <= bq <= n -> tiles (2 ^ n) pool -> blocks (2 ^ bq) pool -> capacities cap (map fst pool) 1 ->
    full_backend local -> bk_n local = n -> qubits_ok n indices ->
    (forall w : wid, In w (map fst pool) -> holds n (bk_state local) w (bs w)) ->
    2048 < asked_for indices top_k ->
    (exists probs, bk_measure_probabilities local indices 0 = Ok (inl probs)) /\
    always_ends pid_eqb cap (client_net rsqrt n (map fst pool) ((CMeasureProbabilities indices top_k, r) :: calls) cfg envs bs) (fun s' =>
      procs s' Mgr = Fail GenericException /\ forall w : wid, In w (map fst pool) -> procs s' (Wk w) = Ret (EWorker (bs w))).
  Proof.
    intros Hb Ht Hbl Hcap Hf En HI Hh Hk. split; [eexists; apply probs_ok; [exact Hf|rewrite En; exact HI]|].
    unfold client_net. rewrite request_probs. destruct Hf as (_ & E & _). rewrite En in E.
    exact (top_many cap rsqrt cfg n bq pool Hb Ht Hbl Hcap indices _ r (requests calls) envs bs Hk).
  Qed.

  Lemma probs_blocks cap (rsqrt : K -> K) cfg n bq pool indices top_k r calls envs bs local :
    0 <= bq < n -> tiles (2 ^ n) pool -> blocks (2 ^ bq) pool -> capacities cap (map fst pool) 1 ->
    full_backend local -> bk_n local = n -> qubits_ok n indices ->
    (forall w : wid, In w (map fst pool) -> holds n (bk_state local) w (bs w)) -> (forall w : wid, In w (map fst pool) -> envs w <> []) ->
    1 <= asked_for indices top_k <= 2048 ->
    (exists probs, bk_measure_probabilities local indices 0 = Ok (inl probs)) /\
    always_ends pid_eqb cap (client_net rsqrt n (map fst pool) ((CMeasureProbabilities indices top_k, r) :: calls) cfg envs bs) (fun s' =>
      (exists w k, procs s' Mgr = Recv (Wk w) k /\ chans s' (Wk w) Mgr = []) /\
      forall w : wid, In w (map fst pool) -> fst w = snd w -> procs s' (Wk w) = Fail OOB).
  Proof.
    intros Hb Ht Hbl Hcap Hf En HI Hh He Hk. split; [eexists; apply probs_ok; [exact Hf|rewrite En; exact HI]|].
    unfold client_net. rewrite request_probs. destruct Hf as (_ & E & _). rewrite En in E.
    exact (top_blocks cap rsqrt cfg n bq pool ltac:(lia) Ht Hbl Hcap indices _ r (requests calls) envs bs (bk_state local) E Hh HI Hk He ltac:(lia)).
  Qed.

  Lemma probs_single cap (rsqrt : K -> K) cfg n pool indices top_k r envs bs local :
    0 <= n -> tiles (2 ^ n) pool -> blocks (2 ^ n) pool -> capacities cap (map fst pool) 1 ->
    full_backend local -> bk_n local = n -> qubits_ok n indices ->
    (forall w : wid, In w (map fst pool) -> holds n (bk_state local) w (bs w)) -> (forall w : wid, In w (map fst pool) -> envs w <> []) ->
    2 ^ zlen indices <= asked_for indices top_k <= 2048 ->
    exists l, Permutation l (map (fun m => (m, marginal n (measured_order n indices) (amp_at 0 (bk_state local)) m)) (zrange 0 (2 ^ zlen indices))) /\
      decreasing (map snd l) /\
    always_ends pid_eqb cap (client_net rsqrt n (map fst pool) [(CMeasureProbabilities indices top_k, r)] cfg envs bs) (fun s' =>
      (exists reply, procs s' Mgr = Ret (EManager [reply] (map fst pool)) /\ response (CMeasureProbabilities indices top_k) reply = VProbs (map fst l) (map snd l)) /\
      forall w : wid, In w (map fst pool) -> procs s' (Wk w) = Ret (EWorker (bs w))).
  Proof.
    intros Hb Ht Hbl Hcap Hf En HI Hh He Hk. destruct Hf as (_ & E & _). rewrite En in E.
    assert (Hp : 0 < 2 ^ zlen indices) by (apply Z.pow_pos_nonneg; unfold zlen; lia).
    destruct (top_single cap rsqrt cfg n n pool ltac:(lia) Ht Hbl Hcap indices (asked_for indices top_k) r [] envs bs (bk_state local) E Hh HI ltac:(lia) He eq_refl eq_refl ltac:(lia)) as (l & errs & Hl & Hd & _ & Ha).
    exists l. split; [exact Hl|]. split; [exact Hd|]. eapply always_weaken; [|exact Ha]. intros s' [Hm Hw]. split; [|exact Hw]. eexists. split; [exact Hm|]. reflexivity.
  Qed.
End L_Client.
