(** C81: examples/qfft_example.py. *)
From Coq Require Import Reals.
From Verif Require Import Base BaseR M_Kron M_Ops M_Func M_Graph S_Graph M_Context M_ContextR M_ShorCircuit M_QfftExample S_QfftExample L_ShorR L_QfftExample.
Local Open Scope Z_scope.

(** The program runs for every number of qubits and every fed state. The lists it plots are |psi_x|^2 and the power spectrum,
    with the entry of x at the position that has the binary digits of x in the opposite order. *)
Theorem C81_mirrored_partial : forall n (psi : list (Cx R)), 0 < n -> zlen psi = 2 ^ n ->
  exists w q mq mqft, qfft_example_circuit consts_R n = (w, Ok (q, mq, mqft)) /\
    forall ev, enum_ok ev -> scheds_ok ev (w_heap w) n ->
      exists ps qs, qfft_example_run ev (w_heap w) q mq mqft psi = Ok (ps, qs) /\ zlen ps = 2 ^ n /\ zlen qs = 2 ^ n /\
        forall x y, mirrored n x y -> znth 0%R ps y = cnorm2 (znth 0%r psi x) /\ znth 0%R qs y = power n psi x.
Proof. exact example_mirrored. Qed.
Print Assumptions C81_mirrored_partial.
(** So it is not the power spectrum in the order of the frequencies: for every number of qubits from 2 on there is a state
    with all its power at the frequency 1, for which the program reports 0 at position 1 and 1 at position 2^(n-1). *)
Theorem C81_order_refuted : forall n, 2 <= n -> exists psi, zlen psi = 2 ^ n /\ sum psi cnorm2 = 1%R /\
  power n psi 1 = 1%R /\ (forall y, 0 <= y < 2 ^ n -> y <> 1 -> power n psi y = 0%R) /\
  exists w q mq mqft, qfft_example_circuit consts_R n = (w, Ok (q, mq, mqft)) /\
    forall ev, enum_ok ev -> scheds_ok ev (w_heap w) n ->
      exists ps qs, qfft_example_run ev (w_heap w) q mq mqft psi = Ok (ps, qs) /\ znth 0%R qs 1 = 0%R /\ znth 0%R qs (2 ^ (n - 1)) = 1%R.
Proof. exact example_order. Qed.
Print Assumptions C81_order_refuted.
(** the program's six qubits; all schedules that run every row once are possible *)
Example C81_ex : mirrored 6 3 48 /\ mirrored 6 45 45 /\
  forall w : world R, exists ev : env R, enum_ok ev /\ scheds_ok ev (w_heap w) 6.
Proof.
  assert (D : forall j, 0 <= j < 6 -> j = 0 \/ j = 1 \/ j = 2 \/ j = 3 \/ j = 4 \/ j = 5) by (intros; lia).
  split; [|split].
  - repeat split; try (vm_compute; congruence). intros j Hj. destruct (D j Hj) as [->|[->|[->|[->|[->| ->]]]]]; reflexivity.
  - repeat split; try (vm_compute; congruence). intros j Hj. destruct (D j Hj) as [->|[->|[->|[->|[->| ->]]]]]; reflexivity.
  - intros w. destruct (shor_env w 6 1%R) as (ev & A & B & _); [|exists ev; auto]. split; [exact Rlt_0_1|apply Rle_refl].
Qed.
