(** The manager's exception handler does not show in runs without exceptions: lemmas about the manager without the handler
    carry over. *)
From Verif Require Import Base M_Bits M_Kron M_Feed M_Measure M_Net S_Net L_Net M_Worker S_Worker L_Worker1 L_Worker2 L_Worker3 L_Worker4.

Section Handler.
  Context {K : Type} {OK : OrdRing K}.
  Notation C := (Cx K).
  Notation msg := (msg K).
  Notation net := (net pid msg (ending K)).
  Notation proc := (proc pid msg (ending K)).

  (** the manager without its handler *)
  Fixpoint manager_run0 (n : Z) (workers : list wid) (ops : list (wop K * K)) (results : list (mresult K)) (freed : list wid) : proc :=
    match ops with
    | [] => pdo _ <- send_to_each_of OClose workers; Ret (EManager results (freed ++ workers))
    | (op, r) :: ops =>
        pdo x <- send_op r n workers op;
        let '(workers, done, result) := x in manager_run0 n workers ops (results ++ [result]) (freed ++ done)
    end.
  Definition job_net0 (rsqrt : K -> K) (n : Z) (workers : list wid) (ops : list (wop K * K))
      (cfg : wid -> worker_cfg) (envs : wid -> list (env K)) (b : wid -> backend K) : net :=
    mkNet (fun p => match p with
                    | Mgr => manager_run0 n workers ops [] []
                    | Wk w => if existsb (wid_eqb w) workers then worker_run rsqrt (cfg w) (envs w) (b w) else Ret EIdle
                    end) (fun _ _ => []).

  Definition same (r : ending K) (q : proc) : Prop := q = Ret r.
  Definition handler (e : exn) (q : proc) : Prop := exists l, q = pbind (send_to_each_of OClose l) (fun _ => Fail e).
  Lemma run_prel n : forall ops ws res freed, prel same handler (manager_run0 n ws ops res freed) (manager_run n ws ops res freed).
  Proof.
    induction ops as [|[op r] ops IH]; intros ws res freed; cbn [manager_run0 manager_run].
    - assert (H : forall p : M_Net.proc pid msg unit, prel same handler (pbind p (fun _ => Ret (EManager res (freed ++ ws)))) (pbind p (fun _ => Ret (EManager res (freed ++ ws))))).
      { induction p; cbn [pbind]; constructor; auto; [reflexivity|]. exists []. reflexivity. } apply H.
    - apply prel_try; [|intros e; exists ws; reflexivity]. intros [[ws' done] result]. apply IH.
  Qed.
  Lemma net_with rsqrt n ws ops cfg envs b : eqv (job_net rsqrt n ws ops cfg envs b) (with_proc pid_eqb (job_net0 rsqrt n ws ops cfg envs b) Mgr (manager_run n ws ops [] [])).
  Proof. apply eqv_intro; [|reflexivity]. intros [|w]; reflexivity. Qed.

  Variable cap : pid -> pid -> option nat.
  Notation go := (go pid_eqb cap).
  Context (ws : list wid) (job : Z).
  Lemma phase_with (HR : ending K -> proc -> Prop) (HF : exn -> proc -> Prop) s t L mp pw q : go s t -> phase ws job t L mp pw -> prel HR HF (procs s Mgr) q ->
    exists mq t', go (with_proc pid_eqb s Mgr q) t' /\ phase ws job t' L mq pw /\ prel HR HF mp mq.
  Proof.
    intros G [H1 H2 H3 H4 H5] Hq. destruct (go_with pid_eqb pid_eqb_ok cap HR HF Mgr s t q G Hq) as (q' & G' & Hq'). exists q', (with_proc pid_eqb t Mgr q'). split; [exact G'|].
    split; [|rewrite <- H1; exact Hq']. constructor; cbn [with_proc procs chans]; auto.
  Qed.
  Lemma job_phase rsqrt n ops cfg envs b t L mp pw : go (job_net0 rsqrt n ws ops cfg envs b) t -> phase ws job t L mp pw ->
    exists mq t', go (job_net rsqrt n ws ops cfg envs b) t' /\ phase ws job t' L mq pw /\ prel same handler mp mq.
  Proof.
    intros G S. destruct (phase_with same handler _ t L mp pw (manager_run n ws ops [] []) G S (run_prel n ops ws [] [])) as (mq & t' & G' & S' & H).
    exists mq, t'. split; [|auto]. eapply go_eqv_l; [apply net_with|exact G'].
  Qed.
  Lemma job_done rsqrt n ops cfg envs b t L r pw : go (job_net0 rsqrt n ws ops cfg envs b) t -> phase ws job t L (Ret r) pw ->
    exists t', go (job_net rsqrt n ws ops cfg envs b) t' /\ phase ws job t' L (Ret r) pw.
  Proof.
    intros G S. destruct (job_phase rsqrt n ops cfg envs b t L _ pw G S) as (mq & t' & G' & S' & H). exists t'. split; [exact G'|].
    inversion H as [r' q Hq| | |]. subst. unfold same in Hq. subst. exact S'.
  Qed.
End Handler.
