(** examples/grovers_iterative.py: C66. *)
From Coq Require Import Reals Lra.
From Verif Require Import Base BaseR S_Bits M_Kron M_Ops M_Feed S_Feed M_Func M_Measure M_Graph S_Graph M_Context M_ContextR M_Examples S_Examples
  L_Grover3 L_Grover4 L_Grover5.
Open Scope Z_scope.

(** The program builds its circuit and makes the first run, but every iteration of its loop raises ValueError. *)
Theorem C66_refuted : forall {K} {OK : OrdRing K} (cn : consts K) k x u a, 0 < k ->
  exists w sm_ds sm_da, grover cn k x u a = (w, Ok (sm_ds, sm_da)) /\
  forall evs, (forall i, enum_ok (evs i) /\ scheds_ok (evs i) (w_heap w) (k + 1)) ->
  (exists r, snd (grover_runs SArray evs (w_heap w) sm_ds sm_da 0) = Ok r) /\
  forall j, snd (grover_runs SArray evs (w_heap w) sm_ds sm_da (S j)) = Raise ValueError.
Proof. exact @runs_array. Qed.
Print Assumptions C66_refuted.

(** If the state is passed on as a list: after run j (counted from 0), with sin t = 1 / sqrt(2^k), the probability of the
    marked item is sin^2((2(j+1)+1) t), and those of the others are equal; they are reported at the positions with
    reversed bits. With the number of runs of the program and at least 3 qubits, the marked item is the most likely one, so
    the program prints it with its bits reversed. Missing: the array and the order of the bits. *)
Theorem C66_list_partial : forall k x t, 0 < k -> 0 <= x < 2 ^ k -> (0 < t < PI / 2)%R -> (sin t = 1 / sqrt (IZR (2 ^ k)))%R ->
  exists w sm_ds sm_da, grover consts_R k x (1 / sqrt (IZR (2 ^ k)))%R (1 / sqrt 2)%R = (w, Ok (sm_ds, sm_da)) /\
  forall evs, (forall i, enum_ok (evs i) /\ scheds_ok (evs i) (w_heap w) (k + 1)) -> forall j,
  exists c st cm ps, grover_runs SList evs (w_heap w) sm_ds sm_da j = (c, Ok (st, cm)) /\
    lookup sm_ds cm = Ok (CProbs (inl ps)) /\ zlen ps = 2 ^ k /\
    (let phi := ((2 * INR (S j) + 1) * t)%R in
     forall y, 0 <= y < 2 ^ k -> znth 0%R ps (reversed k y) = if (y =? x) then (sin phi * sin phi)%R else (cos phi * tan t * (cos phi * tan t))%R) /\
    (3 <= k -> Z.of_nat (S j) = Z.sqrt (2 ^ k) -> grover_print cm sm_ds = Ok (reversed k x)).
Proof. exact grover_list. Qed.
Print Assumptions C66_list_partial.

(** The program of the file, with 10 qubits and 42 as the marked item, prints 336 if the state is passed on as a list. *)
Theorem C66_bits_refuted : exists w sm_ds sm_da, grover consts_R 10 42 (1 / sqrt (IZR (2 ^ 10)))%R (1 / sqrt 2)%R = (w, Ok (sm_ds, sm_da)) /\
  forall evs, (forall i, enum_ok (evs i) /\ scheds_ok (evs i) (w_heap w) 11) ->
  exists c st cm, grover_runs SList evs (w_heap w) sm_ds sm_da 31 = (c, Ok (st, cm)) /\ grover_print cm sm_ds = Ok 336.
Proof. exact grover_file. Qed.
Print Assumptions C66_bits_refuted.

(** the angle exists *)
Example C66_angle : forall k, 0 < k -> exists t, (0 < t < PI / 2)%R /\ (sin t = 1 / sqrt (IZR (2 ^ k)))%R.
Proof. exact grover_angle. Qed.
(** two qubits, over the integers, with 1 for the factor of H and for the defaults (each run multiplies by 2^4): item 1 is
    found with certainty after the first run, and reported at position 2 *)
Definition exv_cn : consts Z := mkConsts 1 (fun m negate => (0, if negate then -1 else 1)).
Definition exv_w : world Z := Eval vm_compute in fst (grover exv_cn 2 1 1 1).
Definition exv_ev : env Z :=
  mkEnv (fun i => i) (fun l => rev l) (fun i => match nd_kind (nd (w_heap exv_w) i) with KF _ => rev (zrange 0 4) | _ => rev (zrange 0 8) end)
    (fun _ => 0) (fun _ => 0) (fun x => x) (fun i => (i, 7)) S_Func.calm.
Example C66_program : exists sm_ds sm_da, grover exv_cn 2 1 1 1 = (exv_w, Ok (sm_ds, sm_da)).
Proof. eexists; eexists. vm_compute. reflexivity. Qed.
Definition exv_sm : nat * nat := Eval vm_compute in match snd (grover exv_cn 2 1 1 1) with Ok p => p | Raise _ => (O, O) end.
Definition exv_run (pass : list (Cx Z) -> state_kw Z) (j : nat) := snd (grover_runs pass (fun _ => exv_ev) (w_heap exv_w) (fst exv_sm) (snd exv_sm) j).
Example C66_run :
  match exv_run SArray 0 with
  | Ok (st, cm) => st = [(0, 0); (0, 0); (-8, 0); (8, 0); (0, 0); (0, 0); (0, 0); (0, 0)] /\ lookup (fst exv_sm) cm = Ok (CProbs (inl [0; 0; 128; 0])) /\
      grover_print cm (fst exv_sm) = Ok 2
  | Raise _ => False
  end /\
  exv_run SArray 1 = Raise ValueError /\ match exv_run SList 1 with Ok (st, _) => zlen st = 8 | Raise _ => False end.
Proof. vm_compute. repeat split; reflexivity. Qed.
Example C66_hypotheses : enum_ok exv_ev /\ scheds_ok exv_ev (w_heap exv_w) 3.
Proof.
  split; [intros l; symmetry; apply Permutation_rev|]. intros i. cbn [exv_ev e_sched].
  do 30 (destruct i as [|i]; [cbn; auto; try (symmetry; apply Permutation_rev); try (split; [symmetry; apply (Permutation_rev [0; 1; 2; 3])|repeat split; intros; eexists; reflexivity])|]).
  destruct i; cbn; auto.
Qed.
