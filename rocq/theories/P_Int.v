(** Property C88: the kernels with C's 32-bit int. *)
From Verif Require Import Base S_Bits M_Bits M_Kron S_Kron L_Kron L_Kron2 L_Kron3 P_Kron M_Measure M_Func M_Int S_Int L_Int1 L_Int2 L_Int3.

(** Up to 30 qubits, with at most 30 qubits per group and explicit arrays on at most 15: a call that fits (C04) computes the
    operator of the dictionary (C01), in every order of the parallel loop. *)
Theorem C88_kron_partial : forall {K} {OK : OrdRing K} (mats : mats_arg K) vec n out io oo sched,
  0 <= n <= 30 -> 0 <= io -> 0 <= oo -> mats_wf n mats -> mats_small mats ->
  accepted mats vec n out io oo -> rectangular (map fst (mats_groups mats)) = true ->
  Permutation sched (zrange 0 (w32 (zlen out))) ->
  kronselect_dot32 mats vec n out io oo sched = Ok (kron_result n mats vec io oo (zlen out)).
Proof. exact @kron32_spec. Qed.
Print Assumptions C88_kron_partial.
(** and every other call ends as with unbounded integers *)
Theorem C88_kron_same_partial : forall {K} {OK : OrdRing K} (mats : mats_arg K) vec n out io oo sched,
  0 <= n <= 30 -> 0 <= io -> 0 <= oo -> mats_wf n mats -> mats_small mats ->
  Permutation sched (zrange 0 (w32 (zlen out))) ->
  kronselect_dot32 mats vec n out io oo sched = kronselect_dot mats vec n out io oo (Cython sched).
Proof. exact @kron32_ok. Qed.
Print Assumptions C88_kron_same_partial.
Lemma ex_small : mats_small ex_mats.
Proof. intros k m [E|[E|[]]]; injection E as <- <-; split; vm_compute; discriminate. Qed.
Example C88_kron_ex : mats_wf 3 ex_mats /\ mats_small ex_mats /\ accepted ex_mats ex_vec 3 ex_out 0 0 /\
  rectangular (map fst (mats_groups ex_mats)) = true /\ Permutation ex_sched (zrange 0 (w32 (zlen ex_out))) /\
  kronselect_dot32 ex_mats ex_vec 3 ex_out 0 0 ex_sched
  = Ok [(4, 8); (-169, 23); (2, 4); (-225, 171); (-38, 78); (-170, 332); (-48, 26); (-189, 105)].
Proof.
  split; [exact ex_mats_wf|]. split; [exact ex_small|]. split; [exact C04_accepted_ex|]. split; [reflexivity|].
  split; [exact ex_sched_perm|]. vm_compute. reflexivity.
Qed.

(** With 31 qubits the same call leaves the output array as it was: len(output) is no int. *)
Theorem C88_untouched_refuted : forall {K} {OK : OrdRing K} (mats : mats_arg K) vec n out io oo sched,
  n = 31 -> io = 0 -> oo = 0 -> mats_wf n mats -> mats_small mats -> (forall km, In km mats -> shape_ok km) ->
  rectangular (map fst (mats_groups mats)) = true ->
  zlen vec = 2 ^ n -> zlen out = 2 ^ n -> Permutation sched (zrange 0 (w32 (zlen out))) ->
  kronselect_dot32 mats vec n out io oo sched = Ok out.
Proof. exact @kron32_untouched. Qed.
Print Assumptions C88_untouched_refuted.
Lemma zlen_repeat {A} (a : A) k : 0 <= k -> zlen (repeat a (Z.to_nat k)) = k.
Proof. intros. unfold zlen. rewrite repeat_length, Z2Nat.id; auto. Qed.
Lemma big_list {A} (a : A) k : 0 <= k -> exists l : list A, zlen l = k.
Proof. intros. eexists. apply (zlen_repeat a). auto. Qed.
(** e.g. a not gate: the specified result is not what the array holds *)
Example C88_untouched_ex : exists (vec out : list (Cx Z)) m,
  zlen vec = 2 ^ 31 /\ zlen out = 2 ^ 31 /\ mats_wf 31 [(KInt 0, m)] /\ mats_small [(KInt 0, m)] /\
  shape_ok (KInt 0, m) /\ Permutation [] (zrange 0 (w32 (zlen out))) /\
  kronselect_dot32 [(KInt 0, m)] vec 31 out 0 0 [] = Ok out.
Proof.
  destruct (big_list ((1, 0) : Cx Z) (2 ^ 31) ltac:(lia)) as [vec Hv].
  destruct (big_list ((0, 0) : Cx Z) (2 ^ 31) ltac:(lia)) as [out Ho].
  exists vec, out, (MNum 2 2 [(0, 0); (1, 0); (1, 0); (0, 0)]).
  assert (HW : mats_wf 31 [(KInt 0, MNum 2 2 [(0, 0); (1, 0); (1, 0); (0, 0)] : mat Z)]).
  { split; [split|].
    - intros k m [E|[]]. injection E as <- <-. discriminate.
    - repeat constructor. intros [].
    - intros k m [E|[]]. injection E as <- <-. split; [|repeat split; lia]. intros q [<-|[]]. lia. }
  assert (HS : mats_small [(KInt 0, MNum 2 2 [(0, 0); (1, 0); (1, 0); (0, 0)] : mat Z)]).
  { intros k m [E|[]]. injection E as <- <-. split; vm_compute; discriminate. }
  assert (HP : Permutation [] (zrange 0 (w32 (zlen out)))).
  { rewrite Ho. rewrite w32_neg by lia. rewrite zrange_empty by lia. constructor. }
  repeat (split; [assumption || reflexivity|]).
  apply (C88_untouched_refuted _ _ 31); try assumption; try reflexivity.
  intros km [<-|[]]. reflexivity.
Qed.
(** A slice that starts at 2^31 or later (a worker of a larger pool) cannot be worked on. *)
Theorem C88_offset_refuted : forall {K} {OK : OrdRing K} (mats : mats_arg K) vec n out io oo sched,
  0 <= io -> 0 <= oo -> n < 2 ^ 31 -> mats_wf n mats -> (forall km, In km mats -> shape_ok km) ->
  rectangular (map fst (mats_groups mats)) = true ->
  zlen vec + io <= 2 ^ n -> zlen out + oo <= 2 ^ n -> 2 ^ 31 <= io \/ 2 ^ 31 <= oo -> 0 <= n ->
  kronselect_dot32 mats vec n out io oo sched = Raise OverflowError.
Proof. exact @kron32_offset. Qed.
Print Assumptions C88_offset_refuted.
Example C88_offset_ex : kronselect_dot32 ex_mats ex_vec 32 ex_out (2 ^ 31) 0 ex_sched = Raise OverflowError.
Proof. vm_compute. reflexivity. Qed.
(** The entries of a 2^16 x 2^16 array are addressed with an int: rows from 2^15 on are read at undefined positions. *)
Theorem C88_dense_refuted : forall {K} {OK : OrdRing K} g d (v : Cx K) vec o oo,
  zlen g = 16 -> qubits_ok 16 g -> zlen vec <= 2 ^ 16 - 1 ->
  zlen d = 2 ^ 16 * 2 ^ 16 -> 0 <= oo < 2 ^ 16 -> 2 ^ 15 <= reg 16 g oo ->
  kronselect_dot32 [(KTuple g, MNum (2 ^ 16) (2 ^ 16) d)] (v :: vec) 16 [o] 0 oo [0] = Raise OOB.
Proof. exact @kron32_dense. Qed.
Print Assumptions C88_dense_refuted.
Example C88_dense_ex : zlen (zrange 0 16) = 16 /\ qubits_ok 16 (zrange 0 16) /\ 2 ^ 15 <= reg 16 (zrange 0 16) (2 ^ 15) /\
  exists d : list (Cx Z), zlen d = 2 ^ 16 * 2 ^ 16.
Proof.
  split; [reflexivity|]. split; [split; [apply zrange_nodup|intros q H; apply in_zrange in H; lia]|].
  split; [vm_compute; discriminate|]. apply (big_list ((0, 0) : Cx Z)). lia.
Qed.

(** Measurement, up to 30 qubits: as with unbounded integers. *)
Theorem C88_probabilities_partial : forall {K} {OK : OrdRing K} indices n (vec : list (Cx K)),
  0 <= n <= 31 -> qubits_ok n indices ->
  measure_probabilities32 indices n vec = measure_probabilities indices n vec.
Proof. exact @probabilities32_ok. Qed.
Print Assumptions C88_probabilities_partial.
Theorem C88_top_partial : forall {K} {OK : OrdRing K} indices n top_k (vec : list (Cx K)),
  1 <= n <= 30 -> qubits_ok n indices -> - 2 ^ 31 <= top_k < 2 ^ 31 ->
  measure_top_probabilities32 indices n top_k vec = measure_top_probabilities indices n top_k vec.
Proof. exact @top32_ok. Qed.
Print Assumptions C88_top_partial.
Theorem C88_soft_partial : forall {K} {OK : OrdRing K} rand acc0 indices n (vec : list (Cx K)) measured io,
  1 <= n <= 30 -> qubits_ok n indices -> 0 <= io -> zlen vec + io <= 2 ^ n ->
  match measured with Some m => - 2 ^ 31 <= m < 2 ^ 31 - 1 | None => True end ->
  soft_measure32 rand acc0 indices n vec measured io = soft_measure rand acc0 indices n vec measured io.
Proof. exact @soft32_ok. Qed.
Print Assumptions C88_soft_partial.
Theorem C88_measure_partial : forall {K} {OK : OrdRing K} rsqrt rand acc0 indices n (vec out : list (Cx K)) io oo measured mp,
  1 <= n <= 30 -> qubits_ok n indices -> 0 <= io -> 0 <= oo -> zlen vec + io <= 2 ^ n -> zlen out + oo <= 2 ^ n ->
  measure32 rsqrt rand acc0 indices n vec out io oo measured mp = measure rsqrt rand acc0 indices n vec out io oo measured mp.
Proof. exact @measure32_ok. Qed.
Print Assumptions C88_measure_partial.
Theorem C88_reduce_partial : forall {K} {OK : OrdRing K} rsqrt rand acc0 indices n (vec out : list (Cx K)) io oo measured mp,
  1 <= n <= 30 -> qubits_ok n indices -> 0 <= io -> 0 <= oo -> zlen vec + io <= 2 ^ n -> zlen out + oo <= 2 ^ n ->
  reduce_measure32 rsqrt rand acc0 indices n vec out io oo measured mp = reduce_measure rsqrt rand acc0 indices n vec out io oo measured mp.
Proof. exact @reduce32_ok. Qed.
Print Assumptions C88_reduce_partial.
Example C88_measure_ex : qubits_ok 3 [2; 0] /\
  measure_probabilities32 [2; 0] 3 ex_vec = Ok [20; 92; 1604; 3100] /\
  measure_top_probabilities32 [2; 0] 3 2 ex_vec = measure_top_probabilities [2; 0] 3 2 ex_vec /\
  soft_measure32 1 0 [2; 0] 3 ex_vec (Some 2) 0 = Ok (2, 1604) /\
  measure32 (fun _ => 5) 1 0 [2; 0] 3 ex_vec ex_out 0 0 (Some 1) (Some 1)
  = Ok ((1, 1), [(0, 0); (5, 5); (0, 0); (15, 45); (0, 0); (0, 0); (0, 0); (0, 0)]) /\
  reduce_measure32 (fun _ => 5) 1 0 [2; 0] 3 ex_vec [(0, 0); (0, 0)] 0 0 (Some 1) (Some 1) = Ok ((1, 1), [(5, 5); (15, 45)]).
Proof.
  split; [split; [repeat constructor; cbn; intuition discriminate|intros q [<-|[<-|[]]]; lia]|].
  repeat split; vm_compute; reflexivity.
Qed.
(** With 31 qubits a measurement returns an outcome but leaves the output array as it was, also if only the input or only the output
    has 2^31 amplitudes. *)
Theorem C88_uncollapsed_refuted : forall {K} {OK : OrdRing K} rsqrt rand acc0 indices n (vec out : list (Cx K)) measured mp r out',
  n = 31 -> zlen vec = 2 ^ n \/ zlen out = 2 ^ n ->
  measure32 rsqrt rand acc0 indices n vec out 0 0 measured mp = Ok (r, out') -> out' = out.
Proof. exact @measure32_untouched. Qed.
Print Assumptions C88_uncollapsed_refuted.
Example C88_uncollapsed_ex : forall vec out : list (Cx Z), zlen vec = 2 ^ 31 -> zlen out = 2 ^ 31 ->
  measure32 (fun p => p) 0 0 [3] 31 vec out 0 0 (Some 1) (Some 1) = Ok ((1, 1), out).
Proof.
  intros vec out Hv Ho. unfold measure32. rewrite !int_arg_ok by lia. cbn [bind].
  change (bad_measured [3] (Some 1)) with false. change (bad_prob (Some 1)) with false. cbv iota.
  rewrite Hv, Ho, Z.add_0_l, w32_neg by lia. rewrite zrange_empty by lia.
  cbn [choose32]. rewrite int_arg_ok by lia. cbn [bind snd fst].
  change (mult (fun p : Z => p) 1) with (Ok 1). cbn [bind].
  replace (make_row_mask32 [3] 31) with (Ok (2 ^ 27)) by (vm_compute; reflexivity). cbn [bind].
  replace (entwine_bit32 (zlen [3]) (31 - zlen [3]) 1 0 (2 ^ 27)) with (Ok (2 ^ 27)) by (vm_compute; reflexivity).
  reflexivity.
Qed.

(** F(f), up to 30 qubits, for functions whose values are ints: as with unbounded integers. *)
Theorem C88_func_partial : forall {K} {OK : OrdRing K} m sched reg1 reg2 func (vec : list (Cx K)) n output io oo pregen,
  0 <= n <= 30 -> qubits_ok n reg1 -> qubits_ok n reg2 -> - 2 ^ 31 <= io < 2 ^ 31 -> - 2 ^ 31 <= oo < 2 ^ 31 ->
  (forall x y, 0 <= x < 2 ^ zlen reg1 -> func x = Ok y -> - 2 ^ 31 <= y < 2 ^ 31) ->
  (forall x, In x sched -> 0 <= x < 2 ^ zlen reg1) ->
  func_apply32 m sched reg1 reg2 func vec n output io oo pregen = func_apply m sched reg1 reg2 func vec n output io oo pregen.
Proof. exact @func32_ok. Qed.
Print Assumptions C88_func_partial.
Example C88_func_ex : qubits_ok 3 [1] /\ qubits_ok 3 [0] /\
  func_apply32 strict [1; 0] [1] [0] (fun x => Ok (x - 5)) ex_vec 3 ex_out 0 0 true
  = Ok [(4, 16); (5, 25); (2, 4); (3, 9); (0, 0); (1, 1); (6, 36); (7, 49)].
Proof.
  split; [split; [repeat constructor; cbn; tauto|intros q [<-|[]]; lia]|].
  split; [split; [repeat constructor; cbn; tauto|intros q [<-|[]]; lia]|]. vm_compute. reflexivity.
Qed.
(** The documentation says that only the last bits of f(x) are used; a value of 2^31 or more is an error. *)
Theorem C88_value_refuted : forall {K} {OK : OrdRing K} m sched reg1 reg2 func (vec : list (Cx K)) n output x y,
  0 <= n <= 30 -> qubits_ok n reg1 -> zlen vec = 2 ^ n -> zlen output = 2 ^ n ->
  0 <= x < 2 ^ zlen reg1 -> (forall x', 0 <= x' < x -> exists y', func x' = Ok y' /\ - 2 ^ 31 <= y' < 2 ^ 31) ->
  func x = Ok y -> 2 ^ 31 <= y ->
  func_apply32 m sched reg1 reg2 func vec n output 0 0 true = Raise OverflowError.
Proof. exact @func32_overflow. Qed.
Print Assumptions C88_value_refuted.
Example C88_value_ex :
  func_apply32 strict [1; 0] [1] [0] (fun x => Ok (x * 2 ^ 31)) ex_vec 3 ex_out 0 0 true = Raise OverflowError.
Proof. vm_compute. reflexivity. Qed.
