(** Distributed measurement: C49. *)
From Coq Require Import Reals Lra.
From Verif Require Import Base BaseR M_Bits S_Bits M_Kron S_Kron M_Feed S_Feed M_Measure S_Measure M_Pool S_Pool M_Net S_Net M_Worker S_Worker L_Worker2 L_Worker5 L_Worker10 L_Worker11 L_Worker12 P_Pool P_Worker.

(** The workers of a pool hold their parts of the state of a local backend and are connected. The client asks for
    kronprods and measurements. [local_job] is the same job on one computer, where the outcome of each measurement is the
    one which the draws of the manager and of the worker in whose block the manager's draw falls determine ([drawn]).
    Every execution of the distributed job comes to an end, with the same outcomes and probabilities, and every worker
    holds its part of the state of the local backend. Missing: the accumulators of prob_magnitude start at 0 (they are
    uninitialised in the code), probabilities are exact. *)
Theorem C49_job_partial : forall {K} {OK : OrdRing K} cap (rsqrt : K -> K) cfg job room n bq pool draws lops results envs bs local final,
  0 <= bq <= n -> tiles (2 ^ n) pool -> blocks (2 ^ bq) pool ->
  configured job (map fst pool) cfg -> connected (map fst pool) cfg -> capacities cap (map fst pool) room ->
  (length lops * Z.to_nat (2 ^ bq) + 1 <= room)%nat ->
  local_job rsqrt (map fst pool) draws local lops results final ->
  bk_n local = n -> zlen (bk_state local) = 2 ^ n -> zlen (bk_arena local) = 2 ^ n ->
  (forall w : wid, In w (map fst pool) -> holds n (bk_state local) w (bs w)) ->
  (forall o, In o lops -> lop_ok n (fst o)) ->
  (forall w : wid, In w (map fst pool) ->
     scheduled (2 ^ bq) (used_all (is_diagonal w) (map fst lops)) (envs w) /\ forall e, In e (envs w) -> e_acc0 e = 0%r) ->
  (forall a : range, In (a, a) (map fst pool) -> draws a = map e_rand (envs (a, a))) ->
  always_ends pid_eqb cap (job_net rsqrt n (map fst pool) (map (fun o => (wop_of (fst o), snd o)) lops) cfg envs bs) (fun s' =>
    procs s' Mgr = Ret (EManager results (map fst pool)) /\
    forall w : wid, In w (map fst pool) -> exists b, procs s' (Wk w) = Ret (EWorker b) /\ holds n (bk_state final) w b).
Proof.
  exact (fun K OK cap rsqrt cfg job room n bq pool draws lops results envs bs local final Hb Ht Hbl Hc Hr Hcap =>
    mixed_ends cap rsqrt cfg job room n bq pool Hb Ht Hbl Hc Hr Hcap draws lops results envs bs local final).
Qed.
Print Assumptions C49_job_partial.

Definition exm_vec : list (Cx Z) := [(0, 0); (1, 0); (0, 0); (0, 0)].
Definition exm_local : backend Z := mkBackend 2 exm_vec (map (fun i => (9, i)) (zrange 0 4)).
Definition exm_bs (w : wid) : backend Z := mkBackend 2 (slice (fst w) exm_vec) [(9, 0); (9, 1)].
Definition exm_envs (w : wid) : list (env Z) := repeat (mkEnv 1 0 [1; 0]) 10.
Definition exm_lops : list (lop Z * Z) :=
  [(LKron [(KInt 0, exw_X)] [3; 1; 0; 2], 0); (LMeasure [1], 1); (LMeasure [0; 1], 1)].
Definition exm_results : list (mresult Z) := [None; Some (inl (1, 1)); Some (inl (3, 1))].
Example C49_hypotheses : exists final,
  tiles (2 ^ 2) exw_pool /\ blocks (2 ^ 1) exw_pool /\ configured 7 exw_ws exw_cfg /\ connected exw_ws exw_cfg /\
  capacities (fun _ _ => Some 7%nat) exw_ws 7 /\
  local_job (fun r => r) exw_ws (fun _ => repeat 1 10) exm_local exm_lops exm_results final /\
  bk_state final = [(0, 0); (0, 0); (0, 0); (1, 0)] /\
  (forall w, In w exw_ws -> holds 2 exm_vec w (exm_bs w)) /\
  (forall o, In o exm_lops -> lop_ok 2 (fst o)) /\
  (forall w, In w exw_ws -> scheduled (2 ^ 1) (used_all (is_diagonal w) (map fst exm_lops)) (exm_envs w) /\ forall e, In e (exm_envs w) -> e_acc0 e = 0).
Proof.
  eexists. split; [|split; [|split; [|split; [|split; [|split; [|split; [|split; [|split]]]]]]]].
  - apply (C42_tiles 2 exw_workers exw_pool (match make_pool 2 exw_workers with Ok (_, m, _) => m | _ => [] end) []). vm_compute. reflexivity.
  - intros e He. vm_compute in He. destruct He as [<-|[<-|[<-|[<-|[]]]]]; [exists 0, 0|exists 0, 1|exists 1, 0|exists 1, 1]; split; reflexivity.
  - intros w _; repeat split; cbn; lia.
  - intros w _; apply Permutation_refl.
  - intros w w' _ _. cbn. lia.
  - eapply lj_kron; [vm_compute; reflexivity|]. eapply (lj_measure _ _ _ _ _ _ _ _ _ _ (2, 4) 1 1).
    + vm_compute. auto.
    + reflexivity.
    + vm_compute. repeat split; congruence.
    + vm_compute. reflexivity.
    + reflexivity.
    + eapply (lj_measure _ _ _ _ _ _ _ _ _ _ (2, 4) 1 3).
      * vm_compute. auto.
      * reflexivity.
      * vm_compute. repeat split; congruence.
      * vm_compute. reflexivity.
      * reflexivity.
      * apply lj_end.
  - reflexivity.
  - intros w Hw. vm_compute in Hw. destruct Hw as [<-|[<-|[<-|[<-|[]]]]]; repeat split; reflexivity.
  - intros o [<-|[<-|[<-|[]]]]; cbn [fst lop_ok].
    + split; [|apply perm_range_ok; reflexivity]. split; [split; [intros k m [E|[]]; inversion E; discriminate|cbn; apply NoDup_cons; [intros []|apply NoDup_nil]]|].
      intros k m [E|[]]; inversion E; subst; (split; [intros q [<-|[]]; lia|repeat split; vm_compute; congruence]).
    + split; [repeat constructor; intros []|intros q [<-|[]]; lia].
    + split; [|intros q [<-|[<-|[]]]; lia]. apply NoDup_cons; [intros [E|[]]; discriminate|]. repeat constructor; intros [].
  - intros w Hw. split; [split|]; [vm_compute in Hw; destruct Hw as [<-|[<-|[<-|[<-|[]]]]]; cbn; lia| |]; intros e He; apply repeat_spec in He; subst; [apply (Permutation_trans (perm_swap 0 1 []) (Permutation_refl _))|reflexivity].
Qed.
Definition exm_net : net pid (msg Z) (ending Z) := job_net (fun r => r) 2 exw_ws (map (fun o => (wop_of (fst o), snd o)) exm_lops) exw_cfg exm_envs exm_bs.
Example C49_run :
  option_map (fun s' => (match procs s' Mgr with Ret (EManager results _) => results | _ => [] end,
                         map (fun w => match procs s' (Wk w) with Ret (EWorker b) => bk_state b | _ => [] end) exw_ws))
    (runs pid_eqb (fun _ _ => None) exm_net (exw_drive (fun _ _ => None) 500 exm_net (Mgr :: map Wk exw_ws)))
  = Some (exm_results, [[(0, 0); (0, 0)]; [(0, 0); (0, 0)]; [(0, 0); (1, 0)]; [(0, 0); (1, 0)]]).
Proof. vm_compute. reflexivity. Qed.

(** When the total probability is 1 and the draws are in (0, 1] there is exactly one block and outcome for them, its
    probability is positive, and the local backend can measure it: [local_job] covers every run. *)
Theorem C49_possible_partial : forall {K} {OK : OrdRing K} (rsqrt : K -> K) n bq pool (b : backend K) indices r (r2 : range -> K),
  0 <= bq <= n -> tiles (2 ^ n) pool -> blocks (2 ^ bq) pool -> full_backend b -> bk_n b = n -> qubits_ok n indices ->
  tprob (bk_state b) = 1%r -> rlt 0%r r -> rle r 1%r ->
  (forall a : range, In (a, a) (map fst pool) -> rlt 0%r (tprob (slice a (bk_state b))) -> draw_ok (r2 a) (tprob (slice a (bk_state b)))) ->
  exists (a : range) m p b1, In (a, a) (map fst pool) /\ drawn n indices (bk_state b) r a (r2 a) m /\
    bk_measure rsqrt 0%r 0%r b indices (Some m) None 0 0 = Ok ((m, p), b1) /\ rlt 0%r p /\ rle p 1%r /\
    forall (a' : range) m', In (a', a') (map fst pool) -> drawn n indices (bk_state b) r a' (r2 a') m' -> a' = a /\ m' = m.
Proof. exact (@possible). Qed.
Print Assumptions C49_possible_partial.
Example C49_possible_hypotheses : full_backend exm_local /\ tprob (bk_state exm_local) = 1%r /\ rlt 0 1 /\
  forall a : range, In (a, a) exw_ws -> rlt 0%r (tprob (slice a (bk_state exm_local))) -> draw_ok 1 (tprob (slice a (bk_state exm_local))).
Proof.
  split; [repeat split; vm_compute; congruence|]. split; [reflexivity|]. split; [reflexivity|].
  intros a Ha. vm_compute in Ha. destruct Ha as [E|[E|[E|[E|[]]]]]; inversion E; subst; vm_compute; intros; try discriminate; split; reflexivity.
Qed.

(** The Born rule: for the manager's draw and the worker's draw, uniform and independent, the pairs that lead to block a
    and outcome m form a rectangle of [len a] by [len2 a m], and the areas of the rectangles of an outcome add up to its
    probability. *)
Theorem C49_born : forall n bq pool indices (vec : list (Cx R)),
  0 <= bq <= n -> tiles (2 ^ n) pool -> blocks (2 ^ bq) pool -> qubits_ok n indices -> zlen vec = 2 ^ n ->
  exists (lo len : range -> R) (lo2 len2 : range -> Z -> R),
    (forall r (a : range) r2 m, In (a, a) (map fst pool) -> 0 <= m < 2 ^ zlen indices ->
       (drawn n indices vec r a r2 m <-> (lo a < r <= lo a + len a)%R /\ (lo2 a m < r2 <= lo2 a m + len2 a m)%R)) /\
    forall m, sum (filter is_diagonal (map fst pool)) (fun w => (len (fst w) * len2 (fst w) m)%R)
              = marginal n (measured_order n indices) (amp_at 0 vec) m.
Proof. exact born_area. Qed.
Print Assumptions C49_born.
Example C49_born_hypotheses : tiles (2 ^ 2) exw_pool /\ blocks (2 ^ 1) exw_pool /\ qubits_ok 2 [1] /\
  map fst (filter is_diagonal exw_ws) = [(0, 2); (2, 4)] /\ zlen (repeat (0.5, 0)%R 4) = 2 ^ 2.
Proof.
  split; [apply (C42_tiles 2 exw_workers exw_pool (match make_pool 2 exw_workers with Ok (_, m, _) => m | _ => [] end) []); vm_compute; reflexivity|].
  split; [intros e He; vm_compute in He; destruct He as [<-|[<-|[<-|[<-|[]]]]]; [exists 0, 0|exists 0, 1|exists 1, 0|exists 1, 1]; split; reflexivity|].
  split; [split; [repeat constructor; intros []|intros q [<-|[]]; lia]|]. split; reflexivity.
Qed.

(** The claim is false for states whose total probability is less than 1 (a client may feed any vector; rounding): the
    manager does not scale its draw. The local backend measures with the same draw, but the manager finds no block and
    its thread ends with an AttributeError in every execution, after closing the pool: the states are lost. *)
Theorem C49_unnormalised_refuted : forall {K} {OK : OrdRing K} cap (rsqrt : K -> K) cfg n bq pool indices r rest envs bs local,
  0 <= bq <= n -> tiles (2 ^ n) pool -> blocks (2 ^ bq) pool -> capacities cap (map fst pool) 1 ->
  full_backend local -> bk_n local = n -> qubits_ok n indices ->
  (forall w : wid, In w (map fst pool) -> holds n (bk_state local) w (bs w)) ->
  (forall w : wid, In w (map fst pool) -> exists e es, envs w = e :: es /\ e_acc0 e = 0%r) ->
  draw_ok r (tprob (bk_state local)) -> rlt (tprob (bk_state local)) r ->
  (exists m p b, bk_measure rsqrt r 0%r local indices None None 0 0 = Ok ((m, p), b)) /\
  always_ends pid_eqb cap (job_net rsqrt n (map fst pool) ((wop_of (LMeasure indices), r) :: rest) cfg envs bs) (fun s' =>
    procs s' Mgr = Fail AttributeError /\ forall w : wid, In w (map fst pool) -> procs s' (Wk w) = Ret (EWorker (bs w))).
Proof. exact (@unnormalised). Qed.
Print Assumptions C49_unnormalised_refuted.
Definition exm_half : backend R := mkBackend 2 [(1/2, 0); (0, 0); (0, 0); (0, 0)]%R (repeat (0, 0)%R 4).
Example C49_unnormalised_hypotheses : full_backend exm_half /\ draw_ok (3/4)%R (tprob (bk_state exm_half)) /\ rlt (tprob (bk_state exm_half)) (3/4)%R /\
  forall w, In w exw_ws -> holds 2 (bk_state exm_half) w (mkBackend 2 (slice (fst w) (bk_state exm_half)) (repeat (0, 0)%R 2)).
Proof.
  assert (E : tprob (bk_state exm_half) = (1/4)%R) by (cbv [tprob sum bk_state exm_half cnorm2 fst snd radd rmul rO or_ring ROrdRing RCRing]; lra).
  split; [repeat split; cbn; lia|]. rewrite E. split; [split|split].
  - apply rltR. change (0 < 3 / 4 * (1 / 4))%R. lra.
  - apply rleR. change (3 / 4 * (1 / 4) <= 1 / 4)%R. lra.
  - apply rltR. lra.
  - intros w Hw. vm_compute in Hw. destruct Hw as [<-|[<-|[<-|[<-|[]]]]]; repeat split; reflexivity.
Qed.
