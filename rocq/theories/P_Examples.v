(** The programs in examples/: C64. *)
From Coq Require Import Reals Lra.
From Verif Require Import Base BaseR S_Bits M_Kron M_Ops M_Feed S_Feed M_Func M_Measure M_Graph S_Graph M_Context M_ContextR M_Examples S_Examples L_Example3.
Open Scope Z_scope.

(** The swap test: the final amplitudes for all states of the two registers, and the probability of finding the first
    qubit in 0, which is (1 + |<q2|q3>|^2) / 2 for normalized states. *)
Theorem C64_swap_test : forall {K} {OK : OrdRing K} (cn : consts K) k, 0 < k ->
  let n := 1 + k + k in let s := c_h cn in
  exists w q1 q2 q3 m1, swap_test cn k = (w, Ok (q1, q2, q3, m1)) /\
    forall (a b : list (Cx K)), zlen a = 2 ^ k -> zlen b = 2 ^ k ->
    forall ev, enum_ok ev -> scheds_ok ev (w_heap w) n ->
    exists c' st cm, swap_test_run ev (w_heap w) q1 q2 q3 m1 a b = (c', Ok (st, cm)) /\ zlen st = 2 ^ n /\
      (forall x y, 0 <= x < 2 ^ k -> 0 <= y < 2 ^ k ->
         znth 0%r st (x * 2 ^ k + y) = (creal (s * s) * (znth 0 a x * znth 0 b y + znth 0 a y * znth 0 b x))%r /\
         znth 0%r st (2 ^ (k + k) + (x * 2 ^ k + y)) = (creal (s * s) * (znth 0 a x * znth 0 b y - znth 0 a y * znth 0 b x))%r) /\
      ((s * s + s * s = 1)%r -> (first_zero n st + first_zero n st = total a * total b + cnorm2 (inner a b))%r).
Proof. exact @swap_test_ok. Qed.
Print Assumptions C64_swap_test.

(** the factor of H in the code meets the last condition *)
Example C64_factor : (c_h consts_R * c_h consts_R + c_h consts_R * c_h consts_R = 1)%r.
Proof.
  change (1 / sqrt 2 * (1 / sqrt 2) + 1 / sqrt 2 * (1 / sqrt 2) = 1)%R. assert (E : (sqrt 2 * sqrt 2 = 2)%R) by (apply sqrt_sqrt; lra).
  assert (sqrt 2 <> 0)%R by (intros H; rewrite H in E; lra).
  replace (1 / sqrt 2 * (1 / sqrt 2) + 1 / sqrt 2 * (1 / sqrt 2))%R with (2 / (sqrt 2 * sqrt 2))%R by (field; auto). rewrite E. field.
Qed.
(** a run of the program with registers of one qubit: with 1 for the factor of H, and states 2|0>+i|1> and 3|0>-|1> *)
Definition exs_cn : consts Z := mkConsts 1 (fun m negate => (0, if negate then -1 else 1)).
Definition exs_w : world Z := Eval vm_compute in fst (swap_test exs_cn 1).
Example C64_program : swap_test exs_cn 1 = (exs_w, Ok (0, 1, 2, 9)%nat).
Proof. vm_compute. reflexivity. Qed.
Definition exs_ev : env Z :=
  mkEnv (fun i => i) (fun l => rev l) (fun _ => rev (zrange 0 8)) (fun _ => 0) (fun _ => 0) (fun x => x) (fun i => (i, 7)) strict.
Example C64_hypotheses : enum_ok exs_ev /\ scheds_ok exs_ev (w_heap exs_w) 3.
Proof.
  split; [intros l; symmetry; apply Permutation_rev|]. intros i. cbn [exs_ev e_sched].
  do 10 (destruct i as [|i]; [cbn; auto; try (symmetry; apply (Permutation_rev (zrange 0 8)))|]).
  destruct i; cbn; auto.
Qed.
Example C64_run : option_map fst (match snd (swap_test_run exs_ev (w_heap exs_w) 0 1 2 9 [(2, 0); (0, 1)] [(3, 0); (-1, 0)]) with Ok x => Some x | Raise _ => None end) =
  Some [(12, 0); (-2, 3); (-2, 3); (0, -2); (0, 0); (-2, -3); (2, 3); (0, 0)].
Proof. vm_compute. reflexivity. Qed.
