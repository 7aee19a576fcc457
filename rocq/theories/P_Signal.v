(** Properties C82 and C83: registers are not disturbed by what happens to other qubits. *)
From Coq Require Import Sorted Reals.
From Verif Require Import Base BaseR S_Bits M_Kron S_Kron M_Ops S_Ops M_Feed S_Feed M_Func S_Func M_Measure S_Measure M_Graph S_Graph S_Born
  L_Graph1 L_Graph2 L_Graph5 L_Graph7 L_Graph8 L_Graph9 L_Graph10 L_Graph11 L_Graph12 L_Signal2 L_Signal3 P_Graph P_Measure S_Signal.
Local Open Scope Z_scope.

(** ** C82 *)
(** in every run of a circuit of exact gates and functions: when no node executed so far measured or changed a qubit of
    the register [g], the probabilities of [g] are those of the initial state, in the state returned at the end and in
    what a Measure or StochasticMeasure of (some of) these qubits reports at that point *)
Theorem C82_run : forall {K} {OK : OrdRing K} (h : heap K) vis c l args srcs,
  session h vis c l -> splits_in_range h vis -> no_swap_dagger h vis -> incl args vis ->
  (forall args', In args' l -> same_qubits h args args') -> sources h args srcs ->
  let n := widths h srcs in circuit_ok h args srcs n -> gates_exact h args ->
  forall ev feed strict state init, enum_ok ev -> scheds_ok ev h n -> initial h srcs n feed state init ->
  let v0 := amp (map (fed_amp n init) (zrange 0 (2 ^ n))) in
  forall c' st_ cm l1 l2 g, run ev c h args feed strict state = (c', Ok (st_, cm)) -> cm = l1 ++ l2 ->
  in_range n g -> (forall i, In i (map fst l1) -> leaves_alone h srcs g i) ->
  (l2 = [] -> forall m, marginal n g (amp st_) m = marginal n g v0 m) /\
  (forall i m p l3, l2 = (i, CMeas m p) :: l3 -> forall groups, Forall2 (wires h srcs) (inputs_of h i) groups ->
     incl (concat groups) g -> p = marginal n (measured_order n (concat groups)) v0 m) /\
  (forall i ps l3, l2 = (i, CProbs (inl ps)) :: l3 -> forall groups, Forall2 (wires h srcs) (inputs_of h i) groups ->
     incl (concat groups) g -> ps = map (marginal n (rev (concat groups)) v0) (zrange 0 (2 ^ zlen (concat groups)))).
Proof. exact @run_signal. Qed.
Print Assumptions C82_run.
(** the circuit of P_Graph: C(Not) controlled by qubit 0 changes qubit 2, the phase gate on qubit 1 none *)
Example C82_ex : session exg_h exg_vis cache0 [] /\ splits_in_range exg_h exg_vis /\ no_swap_dagger exg_h exg_vis /\
  incl exg_args exg_vis /\ sources exg_h exg_args exg_srcs /\ circuit_ok exg_h exg_args exg_srcs 3 /\ gates_exact exg_h exg_args /\
  enum_ok exg_ev /\ scheds_ok exg_ev exg_h 3 /\ initial exg_h exg_srcs 3 exg_feed SNone exg_init /\
  in_range 3 [0; 1] /\ (forall i, In i exg_needed -> leaves_alone exg_h exg_srcs [0; 1] i) /\
  map (marginal 3 [0; 1] (amp (map (fed_amp 3 exg_init) (zrange 0 8)))) (zrange 0 4) = [0; 0; 1; 4] /\
  exists c' st_ cm, run exg_ev cache0 exg_h exg_args exg_feed false SNone = (c', Ok (st_, cm)) /\ map fst cm = exg_needed /\
    map (marginal 3 [0; 1] (amp st_)) (zrange 0 4) = [0; 0; 1; 4].
Proof.
  split; [exact exg_session|]. split; [exact exg_splits|]. split; [exact exg_noswap|]. split; [exact exg_incl|].
  split; [exact exg_sources|]. split; [exact exg_ok|]. split.
  { intros i o d Hi Hk. apply exg_anc in Hi. cbn in Hi. repeat destruct Hi as [<-|Hi]; cbn in Hk; try discriminate; try (destruct Hi; fail); inversion Hk; reflexivity || exact I. }
  split; [apply exg_env|]. split; [apply exg_env|]. split; [exact exg_initial|].
  split; [intros q [<-|[<-|[]]]; lia|]. split.
  { intros i Hi. apply (leaves_check _ exg_vis exg_args); [exact exg_built|exact exg_incl|exact exg_splits|exact exg_sources|apply exg_anc; exact Hi| |];
      cbn in Hi; repeat destruct Hi as [<-|Hi]; try (destruct Hi; fail); try discriminate; vm_compute; intros q [<-|[<-|[]]]; intuition discriminate. }
  split; [vm_compute; reflexivity|]. eexists _, _, _. split; [vm_compute; reflexivity|]. split; vm_compute; reflexivity.
Qed.
(** measuring any qubits without using the outcome does not change the probabilities of any register: they are the
    average over the outcomes *)
Theorem C82_average : forall {K} {OK : OrdRing K} rsqrt rand acc0 (b : backend K) indices g v (post : Z -> backend K),
  full_backend b -> qubits_ok (bk_n b) indices ->
  (forall m, 0 <= m < 2 ^ zlen indices -> outcome b indices m <> 0%r ->
     (rsqrt (outcome b indices m) * rsqrt (outcome b indices m) * outcome b indices m = 1)%r /\
     bk_measure rsqrt rand acc0 b indices (Some m) None 0 0 = Ok ((m, outcome b indices m), post m)) ->
  sum (zrange 0 (2 ^ zlen indices))
    (fun m => (outcome b indices m * marginal (bk_n b) g (amp_at 0 (bk_state (post m))) v)%r)
  = marginal (bk_n b) g (amp_at 0 (bk_state b)) v.
Proof. exact @measure_average. Qed.
Print Assumptions C82_average.
(** 3 qubits, |000> + i|101> (amplitudes are integers): measuring qubit 0 *)
Example C82_average_ex : full_backend exm /\ qubits_ok (bk_n exm) [0] /\
  exists post, forall m, 0 <= m < 2 ^ zlen [0] -> outcome exm [0] m <> 0 ->
    1 * 1 * outcome exm [0] m = 1 /\ bk_measure (fun _ => 1) 1 0 exm [0] (Some m) None 0 0 = Ok ((m, outcome exm [0] m), post m).
Proof.
  split; [exact exm_ok|]. split; [exact exm_idx1|].
  exists (fun m => mkBackend 3 [(if m =? 0 then 1 else 0, 0); (0, 0); (0, 0); (0, 0); (0, 0); (0, if m =? 0 then 0 else 1); (0, 0); (0, 0)] (bk_state exm)).
  intros m Hm _. change (2 ^ zlen [0]) with 2 in Hm. assert (m = 0 \/ m = 1) as [->| ->] by lia; split; reflexivity.
Qed.

(** ** C83 *)
(** an op does not change the outcome and probability of a measurement of qubits it does not change, for the same draw,
    and doing it before or after the measurement leads to the same state *)
Theorem C83_op : forall {K} {OK : OrdRing K} rsqrt rand acc0 (b : backend K) o groups mats sched sched' indices measured,
  full_backend b -> op_fits o groups -> qubits_ok (bk_n b) (concat groups) -> op_scalars_ok o -> op_ms o false groups = Ok mats ->
  qubits_ok (bk_n b) indices -> (forall q, In q indices -> ~ In q (op_changes o groups)) ->
  Permutation sched (zrange 0 (2 ^ bk_n b)) -> Permutation sched' (zrange 0 (2 ^ bk_n b)) ->
  exists b1, bk_kron sched b mats = Ok b1 /\
  bk_measure_probabilities b1 indices 0 = bk_measure_probabilities b indices 0 /\
  match bk_measure rsqrt rand acc0 b indices measured None 0 0 with
  | Ok ((m, p), b1') => exists b2 b2', bk_measure rsqrt rand acc0 b1 indices measured None 0 0 = Ok ((m, p), b2) /\
      bk_kron sched' b1' mats = Ok b2' /\ bk_state b2' = bk_state b2
  | Raise e => bk_measure rsqrt rand acc0 b1 indices measured None 0 0 = Raise e
  end.
Proof. exact @op_measure. Qed.
Print Assumptions C83_op.
(** C(Not) controlled by the measured qubit *)
Example C83_op_ex : full_backend exm /\ op_fits (OC ONot : op Z) [[0]; [1]] /\ qubits_ok 3 (concat [[0]; [1]]) /\ op_scalars_ok (OC ONot : op Z) /\
  (exists mats, op_ms (OC ONot : op Z) false [[0]; [1]] = Ok mats) /\ qubits_ok 3 [2; 0] /\
  (forall q, In q [2; 0] -> ~ In q (op_changes (OC ONot : op Z) [[0]; [1]])) /\
  exists m p b1, bk_measure (fun _ => 1) 1 0 exm [2; 0] None None 0 0 = Ok ((m, p), b1).
Proof.
  split; [exact exm_ok|]. split; [exists 0, [[1]]; split; [reflexivity|discriminate]|].
  split; [split; [repeat constructor; cbn; intuition discriminate|cbn; intros q [<-|[<-|[]]]; lia]|].
  split; [exact I|]. split; [eexists; reflexivity|]. split; [exact exm_idx|].
  split; [cbn; intuition lia|]. eexists _, _, _. reflexivity.
Qed.
(** the same for F(f): its first register may be measured too *)
Theorem C83_function : forall {K} {OK : OrdRing K} rsqrt rand acc0 m sched m' sched' (b : backend K) reg1 reg2 f func io oo io' oo' indices measured,
  full_backend b -> qubits_ok (bk_n b) (reg1 ++ reg2) ->
  zlen (others (bk_n b) reg1 reg2) = zlen reg2 \/ others (bk_n b) reg1 reg2 = [] /\ tame m /\ tame m' ->
  Permutation sched (zrange 0 (2 ^ zlen reg1)) -> Permutation sched' (zrange 0 (2 ^ zlen reg1)) ->
  (forall x, 0 <= x < 2 ^ zlen reg1 -> func x = Ok (f x)) ->
  qubits_ok (bk_n b) indices -> (forall q, In q indices -> ~ In q reg2) ->
  exists b1, bk_func_apply m sched b reg1 reg2 func io oo = Ok b1 /\
  bk_measure_probabilities b1 indices 0 = bk_measure_probabilities b indices 0 /\
  match bk_measure rsqrt rand acc0 b indices measured None 0 0 with
  | Ok ((v, p), b1') => exists b2 b2', bk_measure rsqrt rand acc0 b1 indices measured None 0 0 = Ok ((v, p), b2) /\
      bk_func_apply m' sched' b1' reg1 reg2 func io' oo' = Ok b2' /\ bk_state b2' = bk_state b2
  | Raise e => bk_measure rsqrt rand acc0 b1 indices measured None 0 0 = Raise e
  end.
Proof. exact @func_measure. Qed.
Print Assumptions C83_function.
Example C83_function_ex : full_backend exm /\ qubits_ok 3 ([2] ++ [1]) /\ zlen (others 3 [2] [1]) = zlen [1] /\
  Permutation [1; 0] (zrange 0 (2 ^ zlen [2])) /\ qubits_ok 3 [2; 0] /\ (forall q, In q [2; 0] -> ~ In q [1]) /\
  exists m p b1, bk_measure (fun _ => 1) 1 0 exm [2; 0] None None 0 0 = Ok ((m, p), b1).
Proof.
  split; [exact exm_ok|]. split; [split; [repeat constructor; cbn; intuition discriminate|cbn; intros q [<-|[<-|[]]]; lia]|].
  split; [reflexivity|]. split; [constructor|]. split; [exact exm_idx|]. split; [cbn; intuition lia|]. eexists _, _, _. reflexivity.
Qed.
(** two measurements (of any two lists of qubits) with given outcomes: either order leads to the same state, and the
    product of the reported probabilities is the probability of both outcomes *)
Theorem C83_measurements : forall u1 a1 u2 a2 u1' a1' u2' a2' (b b1 b2 : backend R) i1 i2 m1 m2 p1 p2,
  full_backend b -> qubits_ok (bk_n b) i1 -> qubits_ok (bk_n b) i2 ->
  bk_measure (fun p => Rinv (sqrt p)) u1 a1 b i1 (Some m1) None 0 0 = Ok ((m1, p1), b1) ->
  bk_measure (fun p => Rinv (sqrt p)) u2 a2 b1 i2 (Some m2) None 0 0 = Ok ((m2, p2), b2) ->
  exists q1 q2 b1' b2', bk_measure (fun p => Rinv (sqrt p)) u2' a2' b i2 (Some m2) None 0 0 = Ok ((m2, q2), b1') /\
    bk_measure (fun p => Rinv (sqrt p)) u1' a1' b1' i1 (Some m1) None 0 0 = Ok ((m1, q1), b2') /\
    (p1 * p2)%r = both b i1 m1 i2 m2 /\ (q2 * q1)%r = both b i1 m1 i2 m2 /\ bk_state b2' = bk_state b2.
Proof. exact measures_commute. Qed.
Print Assumptions C83_measurements.
(** outcomes that are possible together can be forced one after the other *)
Theorem C83_possible : forall u1 a1 u2 a2 (b : backend R) i1 i2 m1 m2,
  full_backend b -> qubits_ok (bk_n b) i1 -> qubits_ok (bk_n b) i2 -> 0 <= m1 < 2 ^ zlen i1 -> 0 <= m2 < 2 ^ zlen i2 ->
  both b i1 m1 i2 m2 <> 0%r ->
  exists p1 b1 p2 b2, bk_measure (fun p => Rinv (sqrt p)) u1 a1 b i1 (Some m1) None 0 0 = Ok ((m1, p1), b1) /\
    bk_measure (fun p => Rinv (sqrt p)) u2 a2 b1 i2 (Some m2) None 0 0 = Ok ((m2, p2), b2).
Proof. exact measures_possible. Qed.
Print Assumptions C83_possible.
(** 2 qubits, 0.6 |01> + 0.8i |11>; measuring both qubits, then the first again *)
Definition exs : backend R := mkBackend 2 [(0, 0); (3 / 5, 0); (0, 0); (0, 4 / 5)]%R [(9, 9); (9, 9); (9, 9); (9, 9)]%R.
Example C83_measurements_ex : full_backend exs /\ qubits_ok 2 [1; 0] /\ qubits_ok 2 [0] /\ both exs [1; 0] 3 [0] 1 = (16 / 25)%R.
Proof.
  split; [repeat split; discriminate|]. split; [split; [repeat constructor; cbn; intuition discriminate|cbn; intros q [<-|[<-|[]]]; lia]|].
  split; [split; [repeat constructor; cbn; intuition discriminate|cbn; intros q [<-|[]]; lia]|].
  unfold both. change (zrange 0 (2 ^ bk_n exs)) with [0; 1; 2; 3]. cbn [sum]. 
  repeat match goal with |- context [if ?c then _ else _] => let c' := eval vm_compute in c in change c with c'; cbv iota end.
  unfold amp_at, cnorm2. change (bk_state exs) with [(0, 0); (3 / 5, 0); (0, 0); (0, 4 / 5)]%R. change (znth 0%r [(0, 0); (3 / 5, 0); (0, 0); (0, 4 / 5)]%R (3 - 0)) with (0, 4 / 5)%R. cbn [fst snd].
  change ((0 + (0 + (0 + ((0 * 0 + 4 / 5 * (4 / 5)) + 0))))%R = (16 / 25)%R). field.
Qed.
