(** Connections of workers: pools the manager makes. *)
From Verif Require Import Base M_Kron M_Feed M_Measure M_Pool S_Pool L_Pool2 M_Net S_Net M_Worker S_Worker L_Alg L_Worker1 L_Worker5 M_Connect S_Connect L_Connect1 L_Connect2 L_Connect3 L_Connect4.

Section Made.
  Context (n : Z) (workers : list worker) (pool : list entry) (msgs : list (worker * setup_msg)) (rest : list worker).
  Hypothesis Hm : make_pool n workers = Ok (pool, msgs, rest).
  Hypothesis Hids : NoDup (map wk_id workers).
  Lemma ids_nodup : NoDup (map eid pool).
  Proof.
    destruct (pool_ok _ _ _ _ _ Hm) as (HP & _). assert (X : NoDup (map wk_id (map en_worker pool ++ rest))) by (apply (Permutation_NoDup (Permutation_map wk_id (Permutation_sym HP))), Hids).
    rewrite map_app in X. apply NoDup_app_inv in X. destruct X as [X _]. rewrite map_map in X. exact X.
  Qed.
  Lemma made_connected job evs : Permutation (filter (of_job job) evs) (all_connects job pool) -> settled job (happen empty_cluster evs) ->
    forall e, In e pool -> let sv := cl_srv (happen empty_cluster evs) (wk_id (en_worker e)) in
      Permutation (registered sv job) (filter (partner (fst e)) (map fst pool)) /\
      (forall e', In e' pool -> partner (fst e) (fst e') = true ->
        exists c b, socket_to sv job (fst e') = Some (c, b) /\ socket_to (cl_srv (happen empty_cluster evs) (wk_id (en_worker e'))) job (fst e) = Some (c, negb b)) /\
      (forall r, map (fun x => (r, snd x)) (to_inputs sv job r) = input_workers (registered sv job) r) /\
      (forall r, map (fun x => (snd x, r)) (to_outputs sv job r) = output_workers (registered sv job) r) /\
      (forall r s o, In (s, o) (to_inputs sv job r) -> socket_to sv job (r, o) = Some s) /\
      (forall r s i, In (s, i) (to_outputs sv job r) -> socket_to sv job (i, r) = Some s).
  Proof.
    intros HP Hs e He. destruct (pool_ok _ _ _ _ _ Hm) as (_ & Ht & (b & Hb1 & Hb2 & _) & _).
    exact (pool_connected n b pool Hb1 Ht Hb2 ids_nodup job evs HP Hs e He).
  Qed.
  Lemma made_cfg job evs cfg : Permutation (filter (of_job job) evs) (all_connects job pool) -> settled job (happen empty_cluster evs) ->
    (forall e, In e pool -> c_reg (cfg (fst e)) = registered (cl_srv (happen empty_cluster evs) (wk_id (en_worker e))) job) ->
    connected (map fst pool) cfg.
  Proof.
    intros HP Hs Hc w Hw. apply in_map_iff in Hw. destruct Hw as (e & <- & He). rewrite (Hc e He). apply (made_connected job evs HP Hs e He).
  Qed.
  Lemma made_race {K} {OK : OrdRing K} cap (rsqrt : K -> K) job evs cfg e d mats r ops envs b :
    configured job (map fst pool) cfg ->
    (forall x, In x pool -> c_reg (cfg (fst x)) = registered (cl_srv (happen empty_cluster evs) (wk_id (en_worker x))) job) ->
    In e pool -> In d pool -> en_in e <> en_out e -> en_in d = en_out e -> en_out d = en_out e ->
    In (fst d) (registered (cl_srv (happen empty_cluster evs) (wk_id (en_worker e))) job) ->
    ~ In (fst e) (registered (cl_srv (happen empty_cluster evs) (wk_id (en_worker d))) job) ->
    forall sched s', runs pid_eqb cap (job_net rsqrt n (map fst pool) ((OKron mats, r) :: ops) cfg envs b) sched = Some s' ->
      (forall x, procs s' Mgr <> Ret x) /\ (forall x, procs s' Mgr <> Fail x).
  Proof.
    intros Hcfg Hreg He Hd Hoff Hd1 Hd2 Hed Hde sched s' H. destruct (pool_ok _ _ _ _ _ Hm) as (_ & Ht & (bq & Hb1 & Hb2 & _) & _).
    assert (Ed : fst d = (snd (fst e), snd (fst e))). { unfold en_in, en_out in *. destruct (fst d). cbn [fst snd] in *. subst. reflexivity. }
    apply (race (fst e) cap (map fst pool) cfg rsqrt) with (kron := OKron mats) (n := n) (r := r) (rest := ops) (envs := envs) (b := b) (sched := sched).
    - exact (Hnd n bq pool Hb1 Ht Hb2).
    - apply in_map. exact He.
    - apply not_true_iff_false. intros E. apply range_eqb_ok in E. apply Hoff. exact E.
    - apply Hcfg, in_map, He.
    - assert (X := Hed). rewrite Ed, <- (Hreg e He) in X. exact X.
    - assert (X := Hde). rewrite <- (Hreg d Hd), Ed in X. exact X.
    - exists mats. reflexivity.
    - exact H.
  Qed.
End Made.
