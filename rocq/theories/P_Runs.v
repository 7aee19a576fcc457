(** Property C100: circuits that several threads run at the same time. *)
From Coq Require Import Sorted.
From Verif Require Import Base M_Kron M_Ops M_Feed M_Func M_Measure M_Graph S_Graph L_Graph1 L_Graph2 L_Graph3 L_Graph4 L_Graph5 L_Graph6 L_Graph7 L_Graph8 L_Graph9 L_Graph10 L_Graph11 L_Graph12 M_DistRun M_Runs S_Runs L_Runs1 L_Runs2 L_Runs3 S_Order L_Order7 P_Order.

(** ** Without interruption *)
(** a thread that is not interrupted is a run *)
Theorem C100_alone : forall {K} {OK : OrdRing K} (ev : env K) h args feed strict state c,
  uninterrupted (run_p ev h args feed strict state) c = run ev c h args feed strict state.
Proof. exact (@run_alone). Qed.
Print Assumptions C100_alone.

(** every thread ends, however the turns are dealt out, once it has had enough of them: threads never wait for each other *)
Theorem C100_terminates : forall {K} {OK : OrdRing K} (h : heap K) c jobs t, (t < length jobs)%nat ->
  exists n, forall sched, (n <= count_occ Nat.eq_dec sched t)%nat -> exists r, ended (advances (start h c jobs) sched) t r.
Proof.
  intros K OK h c jobs t Ht. destruct (nth_error jobs t) as [j|] eqn:Ej; [|apply nth_error_None in Ej; lia].
  destruct (run_ends (j_env j) h (j_args j) (j_feed j) (j_strict j) (j_state j)) as [n Hn]. exists n. intros sched Hs.
  apply (ends_sched t sched _ n (run_p (j_env j) h (j_args j) (j_feed j) (j_strict j) (j_state j))); auto.
  cbn [start r_threads]. rewrite nth_error_map, Ej. reflexivity.
Qed.
Print Assumptions C100_terminates.

(** ** At the same time *)
(** Proved: for every schedule a thread returns what it would return alone, provided that the ops that several threads need have been
    run before, or are not dagger ops and have the same input qubits in all of them. The full property has no such condition; it is
    false (below). *)
Theorem C100_runs_partial : forall {K} {OK : OrdRing K} (h : heap K) vis c jobs sched t j r,
  built h vis -> splits_in_range h vis -> (forall j, In j jobs -> incl (j_args j) vis /\ enum_ok (j_env j)) ->
  (forall t t' j j', t <> t' -> nth_error jobs t = Some j -> nth_error jobs t' = Some j' -> may_meet h c (j_args j) (j_args j')) ->
  nth_error jobs t = Some j -> ended (advances (start h c jobs) sched) t r -> r = alone h c j.
Proof. exact (fun K OK h vis c jobs sched t j r B Hs Hj Hm => runs_alone h vis c jobs B Hs Hj Hm sched t j r). Qed.
Print Assumptions C100_runs_partial.

(** circuits may be run at the same time when a run that needed all the ops that several of them need has succeeded before *)
Theorem C100_warm : forall {K} {OK : OrdRing K} (h : heap K) vis c0 ev0 args0 feed0 strict0 state0 c r0 jobs sched t j r,
  built h vis -> splits_in_range h vis -> incl args0 vis -> enum_ok ev0 ->
  run ev0 c0 h args0 feed0 strict0 state0 = (c, Ok r0) ->
  (forall j, In j jobs -> incl (j_args j) vis /\ enum_ok (j_env j)) ->
  (forall t t' j j' i o d, t <> t' -> nth_error jobs t = Some j -> nth_error jobs t' = Some j' ->
     ancestor h (j_args j) i -> ancestor h (j_args j') i -> nd_kind (nd h i) = KMat o d -> ancestor h args0 i) ->
  nth_error jobs t = Some j -> ended (advances (start h c jobs) sched) t r -> r = alone h c j.
Proof.
  intros K OK h vis c0 ev0 args0 feed0 strict0 state0 c r0 jobs sched t j r B Hs Ha He Er Hj Hn.
  apply (runs_alone h vis c jobs B Hs Hj). intros t1 t2 j1 j2 Hne E1 E2 s1 s2 i o d g1 g2 _ _ A1 A2 Ek _ _ Ec. exfalso.
  eapply (run_fills h vis); eauto.
Qed.
Print Assumptions C100_warm.

(** the same circuit may be run by any number of threads when it has no dagger ops *)
Theorem C100_same : forall {K} {OK : OrdRing K} (h : heap K) vis c args jobs sched t j r,
  built h vis -> splits_in_range h vis -> incl args vis -> (forall j, In j jobs -> j_args j = args /\ enum_ok (j_env j)) ->
  (forall i o, ancestor h args i -> nd_kind (nd h i) <> KMat o true) ->
  nth_error jobs t = Some j -> ended (advances (start h c jobs) sched) t r -> r = alone h c j.
Proof.
  intros K OK h vis c args jobs sched t j r B Hs Ha Hj Hd.
  apply (runs_alone h vis c jobs B Hs); [intros j' Hj'; destruct (Hj j' Hj') as [-> ?]; auto|].
  intros t1 t2 j1 j2 Hne E1 E2. rewrite (proj1 (Hj j1 (nth_error_In _ _ E1))), (proj1 (Hj j2 (nth_error_In _ _ E2))).
  intros s1 s2 i o d g1 g2 S1 S2 A1 A2 Ek W1 W2 Ec. split.
  - destruct d; auto. exfalso. eapply Hd; eauto.
  - exact (same_qubits_refl h vis args (built_wf _ _ B) Ha Hs s1 s2 i o d g1 g2 S1 S2 A1 A2 Ek W1 W2).
Qed.
Print Assumptions C100_same.

(** ** Refutations *)
(** q = Qubit(); r = R(i, q, dagger=True) *)
Definition exr_calls : list (call Z) := [NewQubit None None; Gate (GR (0, 1)) [0]%nat true].
Definition exr : heap Z * list nat := Eval vm_compute in exo_prog exr_calls.
(** run(r, feed={q: [0, 1]}) *)
Definition exr_job : job Z := mkJob (exo_ev 1) [1]%nat [(FNode 0, FArr [(0, 0); (1, 0)])] false SNone.
Definition exr_cm : list (nat * cval Z) := [(0%nat, CZero); (1%nat, CZero)].
Lemma exr_prepared : prepared (fst exr) (snd exr) cache0 [] [1]%nat [0]%nat.
Proof. prepared exr_calls [0; 1]%nat. Qed.
Lemma exr_hyps : built (fst exr) (snd exr) /\ splits_in_range (fst exr) (snd exr) /\ incl (j_args exr_job) (snd exr) /\ enum_ok (j_env exr_job).
Proof.
  destruct exr_prepared as (_ & Hs & _ & Ha & _). split; [apply (program_built exr_calls empty_heap []); [constructor|vm_compute; reflexivity]|].
  split; auto. split; auto. intros l. symmetry. apply Permutation_rev.
Qed.
(** two threads run a circuit with a dagger op that has not been run before. Alone, a run multiplies the amplitude of 1 by -i. A thread
    that asks between the two assignments of the other one multiplies by i, without an error *)
Theorem C100_dagger_refuted : exists (h : heap Z) vis j sched, built h vis /\ splits_in_range h vis /\ incl (j_args j) vis /\ enum_ok (j_env j) /\
  nd_kind (nd h 1%nat) = KMat (OR (0, 1)) true /\
  alone h cache0 j = Ok ([(0, 0); (0, -1)], exr_cm) /\
  ended (advances (start h cache0 [j; j]) sched) 0 (Ok ([(0, 0); (0, -1)], exr_cm)) /\
  ended (advances (start h cache0 [j; j]) sched) 1 (Ok ([(0, 0); (0, 1)], exr_cm)).
Proof.
  exists (fst exr), (snd exr), exr_job, [0; 0; 1; 1; 0; 0; 0]%nat. destruct exr_hyps as (H1 & H2 & H3 & H4).
  split; auto. split; auto. split; auto. split; auto. split; [reflexivity|]. split; [vm_compute; reflexivity|]. split; vm_compute; reflexivity.
Qed.
Print Assumptions C100_dagger_refuted.
(** when the threads meet in another way, the op is wrong for good: the matrix is conjugated and transposed twice, and every later run
    uses it *)
Theorem C100_forever_refuted : exists (h : heap Z) vis j sched, built h vis /\ splits_in_range h vis /\ incl (j_args j) vis /\ enum_ok (j_env j) /\
  let s := advances (start h cache0 [j; j]) sched in
  alone h cache0 j = Ok ([(0, 0); (0, -1)], exr_cm) /\
  (forall t, In t [0; 1]%nat -> ended s t (Ok ([(0, 0); (0, 1)], exr_cm))) /\ alone h (r_cache s) j = Ok ([(0, 0); (0, 1)], exr_cm).
Proof.
  exists (fst exr), (snd exr), exr_job, [0; 1; 0; 1; 0; 0; 1; 1; 0; 1]%nat. destruct exr_hyps as (H1 & H2 & H3 & H4).
  split; auto. split; auto. split; auto. split; auto. split; [vm_compute; reflexivity|]. split; [|vm_compute; reflexivity].
  intros t [<-|[<-|[]]]; vm_compute; reflexivity.
Qed.
Print Assumptions C100_forever_refuted.

(** ** Examples *)
(** a = Qubit(); b = Qubit(); n = Not(a); d = R(i, b, dagger=True); one thread runs n and d, another one n *)
Definition exq_calls : list (call Z) := [NewQubit None None; NewQubit None None; Gate GNot [0]%nat false; Gate (GR (0, 1)) [1]%nat true].
Definition exq : heap Z * list nat := Eval vm_compute in exo_prog exq_calls.
Definition exq_job1 : job Z := mkJob (exo_ev 2) [2; 3]%nat [(FNode 1, FArr [(0, 0); (1, 0)])] false SNone.
Definition exq_job2 : job Z := mkJob (exo_ev 1) [2]%nat [] false SNone.
Definition exq_sched : list nat := [0; 1; 0; 1; 0; 1; 0; 0; 0; 0; 0]%nat.
Lemma exq_prepared1 : prepared (fst exq) (snd exq) cache0 [] [2; 3]%nat [0; 1]%nat.
Proof. prepared exq_calls [0; 1; 2; 3]%nat. Qed.
Lemma exq_prepared2 : prepared (fst exq) (snd exq) cache0 [] [2]%nat [0]%nat.
Proof. prepared exq_calls [0; 2]%nat. Qed.
Lemma exq_built : built (fst exq) (snd exq).
Proof. apply (program_built exq_calls empty_heap []); [constructor|vm_compute; reflexivity]. Qed.
Lemma exq_meet : may_meet (fst exq) cache0 [2; 3]%nat [2]%nat /\ may_meet (fst exq) cache0 [2]%nat [2; 3]%nat.
Proof.
  destruct exq_prepared1 as (_ & Hs & _ & Ha & _ & Hsrc). destruct exq_prepared2 as (_ & _ & _ & Ha' & _ & Hsrc').
  assert (N1 : forall i, ancestor (fst exq) [2; 3]%nat i <-> In i [0; 1; 2; 3]%nat) by (apply needed_ok; vm_compute; reflexivity).
  assert (N2 : forall i, ancestor (fst exq) [2]%nat i <-> In i [0; 2]%nat) by (apply needed_ok; vm_compute; reflexivity).
  split; eapply (meet_ok (fst exq) (snd exq)); eauto using exq_built; intros i o d H1 H2 Ek Ec; cbn in H1, H2;
    repeat destruct H1 as [<-|H1]; try (destruct H1; fail); cbn in Ek; try discriminate; inversion Ek; subst; try (vm_compute; auto; fail);
    repeat destruct H2 as [H2|H2]; try discriminate; destruct H2.
Qed.
Example C100_ex : built (fst exq) (snd exq) /\ splits_in_range (fst exq) (snd exq) /\
  (forall j, In j [exq_job1; exq_job2] -> incl (j_args j) (snd exq) /\ enum_ok (j_env j)) /\
  (forall t t' j j', t <> t' -> nth_error [exq_job1; exq_job2] t = Some j -> nth_error [exq_job1; exq_job2] t' = Some j' -> may_meet (fst exq) cache0 (j_args j) (j_args j')) /\
  nd_kind (nd (fst exq) 2%nat) = KMat ONot false /\ nd_kind (nd (fst exq) 3%nat) = KMat (OR (0, 1)) true /\
  ended (advances (start (fst exq) cache0 [exq_job1; exq_job2]) exq_sched) 0
    (Ok ([(0, 0); (0, 0); (0, 0); (0, -1)], [(0%nat, CZero); (1%nat, CZero); (2%nat, CZero); (3%nat, CZero)])) /\
  ended (advances (start (fst exq) cache0 [exq_job1; exq_job2]) exq_sched) 1 (Ok ([(0, 0); (1, 0)], [(0%nat, CZero); (2%nat, CZero)])).
Proof.
  destruct exq_prepared1 as (_ & Hs & _ & Ha & _). destruct exq_prepared2 as (_ & _ & _ & Ha' & _). destruct exq_meet as [M1 M2].
  split; [exact exq_built|]. split; auto. split.
  { intros j [<-|[<-|[]]]; (split; [auto|intros l; symmetry; apply Permutation_rev]). }
  split.
  { intros t t' j j' Hne E E'. destruct t as [|[|t]]; destruct t' as [|[|t']]; cbn in E, E'; try congruence; try (destruct t'; discriminate); try (destruct t; discriminate);
    inversion E; inversion E'; subst; auto. }
  split; [reflexivity|]. split; [reflexivity|]. split; vm_compute; reflexivity.
Qed.
(** after one run the circuit of the refutations may be run by two threads, for instance with the schedules above *)
Example C100_warm_ex : exists c r0,
  run (j_env exr_job) cache0 (fst exr) (j_args exr_job) (j_feed exr_job) (j_strict exr_job) (j_state exr_job) = (c, Ok r0) /\
  forall t sched, In t [0; 1]%nat -> In sched [[0; 0; 1; 1; 0; 0; 0]; [0; 1; 0; 1; 0; 0; 1; 1; 0; 1]]%nat ->
    ended (advances (start (fst exr) c [exr_job; exr_job]) sched) t (Ok ([(0, 0); (0, -1)], exr_cm)).
Proof.
  destruct (run (j_env exr_job) cache0 (fst exr) (j_args exr_job) (j_feed exr_job) (j_strict exr_job) (j_state exr_job)) as [c r] eqn:E.
  assert (Ec : c = fst (run (j_env exr_job) cache0 (fst exr) (j_args exr_job) (j_feed exr_job) (j_strict exr_job) (j_state exr_job))) by (rewrite E; reflexivity).
  assert (Er : r = snd (run (j_env exr_job) cache0 (fst exr) (j_args exr_job) (j_feed exr_job) (j_strict exr_job) (j_state exr_job))) by (rewrite E; reflexivity).
  exists c. destruct r as [r0|e]; [|vm_compute in Er; discriminate]. exists r0. split; [reflexivity|]. subst c. clear E Er.
  intros t sched [<-|[<-|[]]] [<-|[<-|[]]]; vm_compute; reflexivity.
Qed.
(** two threads run Not(a) *)
Example C100_same_ex : (forall i o, ancestor (fst exq) [2]%nat i -> nd_kind (nd (fst exq) i) <> KMat o true) /\
  forall t, In t [0; 1]%nat -> ended (advances (start (fst exq) cache0 [exq_job2; exq_job2]) [0; 1; 0; 1; 0; 1]%nat) t (Ok ([(0, 0); (1, 0)], [(0%nat, CZero); (2%nat, CZero)])).
Proof.
  assert (N2 : forall i, ancestor (fst exq) [2]%nat i <-> In i [0; 2]%nat) by (apply needed_ok; vm_compute; reflexivity).
  split; [|intros t [<-|[<-|[]]]; vm_compute; reflexivity]. intros i o Hi. apply N2 in Hi. destruct Hi as [<-|[<-|[]]]; cbn; discriminate.
Qed.
(** the bound of C100_terminates for the thread of the refutations *)
Example C100_terminates_ex : exists r, ended (advances (start (fst exr) cache0 [exr_job; exr_job]) [1; 1; 1; 1; 1]%nat) 1 r.
Proof. eexists. vm_compute. reflexivity. Qed.
