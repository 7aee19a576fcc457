(** The circuit of examples/shors.py: C71 (what it measures), C72 (how often it finds the period). *)
From Coq Require Import Reals Lra.
From Verif Require Import Base BaseR M_Kron M_Ops M_Func S_Func M_Graph S_Graph S_Born M_Context M_ContextR M_Examples M_ShorCircuit S_ShorR M_Shor S_Shor L_Shor4 L_ShorR L_ShorPeak L_ShorExact L_ShorReturn.
Local Open Scope Z_scope.

(** ** C71: the measured value *)
(** The program builds the circuit. Measuring returns the y < 2^m in whose part of (0, 1], as long as the probability of y in
    Shor's algorithm, the draw lies, for all schedules and set orders. The second register must be able to hold the powers:
    N <= 2^k. *)
Theorem C71_measured : forall m k x N, 0 < m -> 0 < k -> 0 < N <= 2 ^ k ->
  exists w mqft mm, make_circuit consts_R m k x N (1 / sqrt (IZR (2 ^ m)))%R = (w, Ok (mqft, mm)) /\
    forall ev, enum_ok ev -> scheds_ok ev (w_heap w) (m + k) -> draws_ok ev ->
      exists y, measure_peak ev (w_heap w) mm = Ok y /\ 0 <= y < 2 ^ m /\
        forall y', 0 <= y' < 2 ^ m -> (shor_below m N x y' < e_rand ev mm <= shor_below m N x (y' + 1))%R <-> y' = y.
Proof. exact shor_measures. Qed.
Print Assumptions C71_measured.
(** the probabilities are not negative and their sum is 1 *)
Theorem C71_probabilities : forall m N x, 0 < m -> 0 < N ->
  (forall y, (0 <= shor_prob m N x y)%R) /\ shor_below m N x (2 ^ m) = 1%R.
Proof. exact shor_distribution. Qed.
Print Assumptions C71_probabilities.
(** every draw in (0, 1] is possible *)
Example C71_draws : forall (w : world R) n t, (0 < t <= 1)%R ->
  exists ev : env R, enum_ok ev /\ scheds_ok ev (w_heap w) n /\ draws_ok ev /\ forall i, e_rand ev i = t.
Proof. exact shor_env. Qed.

(** ** C72: the period *)
(** A value nearest to a multiple of 2^m / r, r being the order of a, is measured with probability at least 1/(4r). *)
Theorem C72_peak : forall m N a r c d, 0 < m -> 1 < N -> order N a r -> 11 * r <= 2 ^ m -> near (2 ^ m) c d r ->
  (1 / (4 * IZR r) <= shor_prob m N a c)%R.
Proof. exact shor_peak. Qed.
Print Assumptions C72_peak.
(** If r divides 2^m these are all the values that are measured, each with probability 1/r. *)
Theorem C72_exact : forall m N a r c, 0 < m -> 1 < N -> order N a r -> (r | 2 ^ m) -> 0 <= c ->
  shor_prob m N a c = (if (c * r) mod 2 ^ m =? 0 then 1 / IZR r else 0)%R.
Proof. exact shor_exact. Qed.
Print Assumptions C72_exact.
(** With the registers of the program, a value from which a fraction d/r in lowest terms is found is measured with
    probability at least phi(r) / (4r). Missing: that the program then returns r
    (C72_returned for powers of two, C68). *)
Theorem C72_found_partial : forall N a r, 10 <= N <= 2 ^ 14 -> order N a r -> 1 < r ->
  exists cs, NoDup cs /\
    (forall c, In c cs -> 0 < c < fourier_size N /\ exists d, 0 < d < r /\ Z.gcd d r = 1 /\ convergent c (fourier_size N) d r) /\
    (IZR (zlen (filter (fun d => Z.gcd d r =? 1) (zrange 0 r))) / (4 * IZR r) <= sum cs (shor_prob (Z.log2_up (N ^ 2)) N a))%R.
Proof. exact shor_good. Qed.
Print Assumptions C72_found_partial.
(** If r is a power of two the probability that the first measured value makes [quantum] return r is 1/2 - 1/r. *)
Theorem C72_returned : forall N a r, 2 < N <= 2 ^ 14 -> order N a r -> 2 < r -> (r | fourier_size N) ->
  sum (filter (fun c => match quantum 1 N (fun _ => c) with Ok v => v =? r | _ => false end) (zrange 0 (fourier_size N)))
      (shor_prob (Z.log2_up (N ^ 2)) N a) = (1 / 2 - 1 / IZR r)%R.
Proof. exact shor_returned. Qed.
Print Assumptions C72_returned.
Example C72_returned_hypotheses : order 15 7 4 /\ (4 | fourier_size 15) /\
  filter (fun c => match quantum 1 15 (fun _ => c) with Ok v => v =? 4 | _ => false end) [0; 64; 128; 192] = [192].
Proof. split; [apply order_check; vm_compute; auto|]. split; [exists 64; reflexivity|vm_compute; reflexivity]. Qed.
(** The measured values with wrong results in C67 and C68 are not rare: 614 for 33 and 2 (the result is no period), 384 for
    20 and 17 (the factors are 10 and 4), 12288 for 105 and 2 (the factors are 5 and 3). *)
Theorem C72_wrong_refuted :
  ((1 / 40 <= shor_prob 11 33 2 614)%R /\ quantum 1 33 (fun _ => 614) = Ok 1024 /\ ~ period 33 2 1024) /\
  (shor_prob 9 20 17 384 = (1 / 4)%R /\ classical 1 1 20 (fun _ => 17) (fun _ _ => 384) = Ok (10, 4)) /\
  ((1 / 48 <= shor_prob 14 105 2 12288)%R /\ classical 1 1 105 (fun _ => 2) (fun _ _ => 12288) = Ok (5, 3)).
Proof. exact shor_wrong. Qed.
Print Assumptions C72_wrong_refuted.
Example C72_ex : order 21 2 6 /\ 11 * 6 <= 2 ^ 9 /\ near (2 ^ 9) 427 5 6 /\ fourier_size 21 = 2 ^ 9 /\ quantum 1 21 (fun _ => 427) = Ok 6 /\
  filter (fun d => Z.gcd d 6 =? 1) (zrange 0 6) = [1; 5] /\ order 15 7 4 /\ (4 | 2 ^ 8).
Proof.
  split; [apply order_check; vm_compute; auto|]. split; [vm_compute; congruence|]. split; [vm_compute; congruence|]. split; [reflexivity|]. split; [vm_compute; reflexivity|].
  split; [vm_compute; reflexivity|]. split; [apply order_check; vm_compute; auto|]. exists 64. reflexivity.
Qed.
