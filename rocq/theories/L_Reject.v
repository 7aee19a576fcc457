(** An operation a worker rejects never ends. *)
From Verif Require Import Base M_Bits M_Kron S_Kron L_Kron3 M_Feed M_Measure M_Pool S_Pool M_Net S_Net L_Net M_Worker S_Worker L_Worker1 L_Worker5 L_Worker10 M_Client L_Connect4.

Section Reject.
  Context {K : Type} {OK : OrdRing K} (e : wid) (cap : pid -> pid -> option nat) (ws : list wid) (cfg : wid -> worker_cfg) (rsqrt : K -> K).
  Notation msg := (msg K).
  Notation proc := (proc pid msg).
  Notation stt := (net pid msg (ending K)).
  Hypothesis Hnd : NoDup ws.
  Hypothesis He : In e ws.
  Context (mats : mats_arg K) (envs : wid -> list (env K)) (b : wid -> backend K).
  Let kron : wop K := OKron mats.
  Hypothesis Hrej : forall ev envs', envs e = ev :: envs' -> exists x, bk_kronselect_dot (e_sched ev) (b e) mats (fst (fst (c_id (cfg e)))) (fst (snd (c_id (cfg e)))) = Raise x.

  Definition starts (p : proc (ending K)) : Prop := p = worker_run rsqrt (cfg e) (envs e) (b e).
  Definition failed (p : proc (ending K)) : Prop := exists x, p = Fail x.
  Definition rstages (s : stt) : Prop :=
    stage e s [SA (MOp kron); RA] [] [] starts \/ stage e s [RA] [MOp kron] [] starts \/ stage e s [RA] [] [] failed.
  Lemma exec_rstages s i s' : base2 cfg s -> rstages s -> exec pid_eqb cap s i = Some s' -> rstages s'.
  Proof.
    intros B St Hx. destruct (pid_eqb i Mgr) eqn:Ei.
    { apply pid_eqb_ok in Ei. subst i. unfold rstages in *. destruct St as [St|[St|St]];
        destruct (exec_mgr e cap cfg s s' _ _ _ _ _ B St Hx) as [H|[(m & E & H)|(c' & ce' & E & E' & H)]]; try discriminate E; try discriminate E'; try (injection E as <-); cbn [app] in H; auto. }
    destruct i as [|w]; [discriminate|]. destruct (wid_eqb w e) eqn:Ew.
    2:{ assert (Hw : w <> e). { intros ->. assert (wid_eqb e e = true) by (apply wid_eqb_ok; reflexivity). congruence. }
        unfold rstages in *. destruct St as [St|[St|St]]; assert (H := exec_other e cap s w s' _ _ _ _ Hw St Hx); auto. }
    apply wid_eqb_ok in Ew. subst w. unfold exec in Hx. unfold rstages in *.
    assert (Ew : worker_run rsqrt (cfg e) (envs e) (b e) = Recv Mgr (fun m => match m with MOp OClose => Ret (EWorker (b e)) | MOp op => match envs e with [] => Fail OutOfFuel | ev :: envs => pbind (worker_op rsqrt (cfg e) ev (b e) op) (fun bc => Send Mgr (MConf (snd bc)) (worker_run rsqrt (cfg e) envs (fst bc))) end | _ => Fail GenericException end)) by (destruct (envs e); reflexivity).
    destruct St as [St|[St|St]]; destruct St as (T & C1 & C2 & Pe).
    - unfold starts in Pe. rewrite Pe, Ew, C1 in Hx. discriminate.
    - unfold starts in Pe. rewrite Pe, Ew, C1 in Hx. injection Hx as <-.
      right. right. unfold stage. cbn [procs chans]. rewrite set1_same, set1_other, set2_same, set2_other by (discriminate || (left; discriminate)). split; [exact T|]. split; [reflexivity|]. split; [exact C2|].
      destruct (envs e) as [|ev envs'] eqn:Ee; [eexists; reflexivity|]. destruct (Hrej ev envs' eq_refl) as (x & Ex). unfold kron. cbn [worker_op]. rewrite Ex. cbn [lift pbind]. eexists. reflexivity.
    - destruct Pe as (x & Pe). rewrite Pe in Hx. discriminate.
  Qed.
  Lemma runs_rstages : forall sched s s', base2 cfg s -> rstages s -> runs pid_eqb cap s sched = Some s' -> rstages s'.
  Proof.
    induction sched as [|i sched IH]; intros s s' B St H; cbn [runs] in H; [injection H as <-; exact St|]. destruct (exec pid_eqb cap s i) as [t|] eqn:E; [|discriminate].
    apply (IH t); [eapply exec_base2; eassumption|eapply exec_rstages; eassumption|exact H].
  Qed.
  Lemma reject n r rest sched s' : runs pid_eqb cap (job_net rsqrt n ws ((kron, r) :: rest) cfg envs b) sched = Some s' ->
    (forall x, procs s' Mgr <> Ret x) /\ (forall x, procs s' Mgr <> Fail x).
  Proof.
    intros H. apply runs_rstages in H.
    - assert (X : exists a tr, talk e (a :: tr) (procs s' Mgr)) by (destruct H as [St|[St|St]]; destruct St as (T & _); eauto).
      destruct X as (a & tr & T). split; intros x E; rewrite E in T; inversion T.
    - split.
      + intros w. cbn [job_net procs]. destruct (existsb (wid_eqb w) ws); [apply ok_run; reflexivity|constructor].
      + intros w m Hm. destruct Hm.
    - left. split; [|split; [reflexivity|split; [reflexivity|]]].
      + cbn [job_net procs manager_run]. assert (D : does e ([SA (MOp kron); RA] ++ [SA (MOp (OSync (Some 0) false)); RA]) (send_op r n ws kron)).
        { unfold kron. cbn [send_op]. unfold send_kronprod. apply (does_bind e ([SA (MOp (OKron mats)); RA] ++ [SA (MOp (OSync (Some 0) false)); RA]) []); [|intros; constructor]. apply does_bind; [apply does_map; assumption|]. intros _.
          apply (does_bind e [SA (MOp (OSync (Some 0) false)); RA] []); [apply does_map; assumption|]. intros; constructor. }
        apply (talk_prefix e [SA (MOp kron); RA] [SA (MOp (OSync (Some 0) false)); RA]). apply does_try. exact D.
      + cbn [job_net procs]. replace (existsb (wid_eqb e) ws) with true; [reflexivity|]. symmetry. apply existsb_exists. exists e. split; [exact He|]. apply wid_eqb_ok. reflexivity.
  Qed.
End Reject.

Section Client.
  Context {K : Type} {OK : OrdRing K}.
  Lemma rejected_call cap (rsqrt : K -> K) cfg job n bq pool mats r calls envs bs (local : backend K) sched x :
    0 <= bq <= n -> tiles (2 ^ n) pool -> blocks (2 ^ bq) pool -> configured job (map fst pool) cfg ->
    bk_n local = n -> zlen (bk_state local) = 2 ^ n -> zlen (bk_arena local) = 2 ^ n ->
    (forall w : wid, In w (map fst pool) -> holds n (bk_state local) w (bs w)) ->
    (forall w : wid, In w (map fst pool) -> scheduled (2 ^ bq) 1 (envs w)) ->
    mats_wf n mats -> Permutation sched (zrange 0 (2 ^ n)) -> bk_kronselect_dot sched local mats 0 0 = Raise x ->
    forall sched' s', runs pid_eqb cap (client_net rsqrt n (map fst pool) ((CKronselectDot mats, r) :: calls) cfg envs bs) sched' = Some s' ->
      (forall y, procs s' Mgr <> Ret y) /\ (forall y, procs s' Mgr <> Fail y).
  Proof.
    intros Hbq Ht Hb Hcfg Hn Hv Ha Hh Hs Hwf HP Hx sched' s' H.
    assert (Hnd := Hnd n bq pool Hbq Ht Hb). assert (Hws := Hws n bq pool Hbq Ht Hb).
    assert (Hne : exists w : wid, In w (map fst pool)).
    { exists (blk (2 ^ bq) 0, blk (2 ^ bq) 0). apply Hws. cbn [fst snd]. assert (In (blk (2 ^ bq) 0) (blks (2 ^ bq) (2 ^ (n - bq)))); [|tauto]. apply blks_in. exists 0. split; [|reflexivity]. split; [lia|apply Z.pow_pos_nonneg; lia]. }
    destruct Hne as (e & He). assert (Hc := Hcfg e He). destruct Hc as (_ & Hid & _). destruct (Hh e He) as (Hn' & Hst & Har).
    unfold client_net, requests in H. cbn [map concat request fst snd app] in H.
    apply (reject e cap (map fst pool) cfg rsqrt Hnd He mats envs bs) with (n := n) (r := r) (rest := concat (map (fun c => match request (fst c) with Ok op => [(op, snd c)] | Raise _ => [] end) calls)) (sched := sched'); [|exact H].
    intros ev envs' Ee. rewrite Hid. destruct (Hs e He) as [_ Hsc]. assert (He' := proj1 (Hws e) He). destruct He' as [Hi Ho].
    destruct (slice_inside n bq Hbq (fst e) (bk_state local) Hi Hv) as [Hin Hsl]. fold (2 ^ bq) in Hsl.
    destruct (bk_kronselect_dot (e_sched ev) (bs e) mats (fst (fst e)) (fst (snd e))) as [b'|y] eqn:Eb; [exfalso|exists y; reflexivity].
    unfold bk_kronselect_dot in Eb, Hx. rewrite Hn', Hst in Eb. rewrite Hn in Hx.
    destruct (kronselect_dot mats (slice (fst e) (bk_state local)) n (bk_arena (bs e)) (fst (fst e)) (fst (snd e)) (Cython (e_sched ev))) as [R|z] eqn:Ek; [|discriminate].
    destruct (kronselect_dot mats (bk_state local) n (bk_arena local) 0 0 (Cython sched)) as [R'|z] eqn:Ek'; [discriminate|].
    apply blks_in in Hi, Ho. destruct Hi as (i & Hi & Ei), Ho as (j & Hj & Ej).
    assert (P : 0 < 2 ^ bq) by (apply Z.pow_pos_nonneg; lia).
    assert (Hacc := proj1 (kron_accept_c mats (slice (fst e) (bk_state local)) n (bk_arena (bs e)) (fst (fst e)) (fst (snd e)) (e_sched ev) ltac:(lia) ltac:(rewrite Ei; cbn [blk fst]; nia) ltac:(rewrite Ej; cbn [blk fst]; nia) Hwf ltac:(rewrite Har, Hst, Hsl; apply Hsc; rewrite Ee; left; reflexivity)) (ex_intro _ R Ek)).
    destruct Hacc as [(_ & _ & Hsh) Hr].
    destruct (proj2 (kron_accept_c mats (bk_state local) n (bk_arena local) 0 0 sched ltac:(lia) (Z.le_refl 0) (Z.le_refl 0) Hwf ltac:(rewrite Ha; exact HP))) as (R'' & E''); [|congruence].
    split; [|exact Hr]. split; [lia|]. split; [lia|exact Hsh].
  Qed.
End Client.
