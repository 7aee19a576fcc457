(** examples/shors.py without the circuit: C67 (factors), C68 (the period). The measured values and the random choices are
    arbitrary. *)
From Coq Require Import Znumtheory.
From Verif Require Import Base M_Shor S_Shor L_Shor L_Shor2 L_Shor3 L_Shor4.

(** ** C67: the factors *)
(** For odd N both results are proper factors of N, whatever is measured. Missing: even N, and that the product is N. *)
Theorem C67_odd_partial : forall fuel qfuel N choices peaks f g, 2 < N -> Z.odd N = true ->
  (forall i, 2 <= choices i <= N - 1) -> (forall i j, 0 <= peaks i j < fourier_size N) ->
  classical fuel qfuel N choices peaks = Ok (f, g) -> nontrivial N f /\ nontrivial N g.
Proof. exact classical_odd_top. Qed.
Print Assumptions C67_odd_partial.
(** If moreover every period that is found is one, the product of the results is N. *)
Theorem C67_product_partial : forall fuel qfuel N choices peaks f g, 2 < N -> Z.odd N = true ->
  (forall i, 2 <= choices i <= N - 1) -> (forall i j, 0 <= peaks i j < fourier_size N) ->
  (forall i r, quantum qfuel N (peaks i) = Ok r -> r <> 1 -> period N (choices i) r) ->
  classical fuel qfuel N choices peaks = Ok (f, g) -> f * g = N.
Proof. exact classical_product_top. Qed.
Print Assumptions C67_product_partial.
(** The program ends as soon as it draws a number with a common factor, or finds an even period r of a such that a^(r/2) is
    not 1 or -1 modulo N. *)
Theorem C67_found_partial : forall fuel qfuel N choices peaks i, 2 < N <= 2 ^ 14 ->
  (forall i, 2 <= choices i <= N - 1) -> (forall i j, 0 <= peaks i j < fourier_size N) -> (i < fuel)%nat ->
  (forall i', (i' < i)%nat -> exists r, quantum qfuel N (peaks i') = Ok r) ->
  (Z.gcd (choices i) N <> 1 \/ exists r x, quantum qfuel N (peaks i) = Ok r /\ period N (choices i) r /\ r = 2 * x /\
     (choices i ^ x) mod N <> 1 /\ (choices i ^ x) mod N <> N - 1) ->
  exists fg, classical fuel qfuel N choices peaks = Ok fg.
Proof. exact classical_found_top. Qed.
Print Assumptions C67_found_partial.
(** It never ends for odd primes; it raises for 2 and for numbers above 2^14. *)
Theorem C67_prime_refuted : forall fuel qfuel N choices peaks, prime N ->
  (forall i, 2 <= choices i <= N - 1) -> (forall i j, 0 <= peaks i j < fourier_size N) -> 2 < N <= 2 ^ 14 ->
  classical fuel qfuel N choices peaks = Raise OutOfFuel.
Proof. exact classical_prime_top. Qed.
Print Assumptions C67_prime_refuted.
Theorem C67_raises_refuted : forall fuel qfuel N choices peaks, N <= 2 \/ 2 ^ 14 < N -> classical (S fuel) qfuel N choices peaks = Raise ValueError.
Proof. exact classical_raises. Qed.
Print Assumptions C67_raises_refuted.
(** 105, a = 2 of order 12, measured 12288 = 9/12 of 2^14: the period found is 4, and the factors are 5 and 3. *)
Theorem C67_product_refuted : order 105 2 12 /\ fourier_size 105 = 2 ^ 14 /\ 12288 * 12 = 9 * 2 ^ 14 /\ quantum 1 105 (fun _ => 12288) = Ok 4 /\
  classical 1 1 105 (fun _ => 2) (fun _ _ => 12288) = Ok (5, 3).
Proof. exact product_105. Qed.
Print Assumptions C67_product_refuted.
(** For even N the factors can be wrong although the period is right: 20, a = 17 of order 4, measured 384 = 3/4 of 512. They
    can also be trivial: 14, a = 11, measured 97. *)
Theorem C67_even_refuted : order 20 17 4 /\ quantum 1 20 (fun _ => 384) = Ok 4 /\ classical 1 1 20 (fun _ => 17) (fun _ _ => 384) = Ok (10, 4) /\
  classical 1 1 14 (fun _ => 11) (fun _ _ => 97) = Ok (2, 14).
Proof. exact even_20. Qed.
Print Assumptions C67_even_refuted.
(** 21, a = 2 of order 6, measured 427, the value nearest to 5/6 of 512: 3 and 7. First a round without a result. *)
Example C67_ex : order 21 2 6 /\ quantum 2 21 (fun j => match j with O => 0 | _ => 427 end) = Ok 6 /\
  classical 2 10 21 (fun _ => 2) (fun i _ => match i with O => 85 | _ => 427 end) = Ok (3, 7) /\
  fourier_size 21 = 512 /\ near 512 427 5 6.
Proof. split; [apply order_check; vm_compute; auto|]. vm_compute. repeat split; congruence. Qed.
Example C67_found_ex : exists r x, quantum 10 21 (fun _ => 427) = Ok r /\ period 21 2 r /\ r = 2 * x /\ (2 ^ x) mod 21 <> 1 /\ (2 ^ x) mod 21 <> 20.
Proof. exists 6, 3. split; [vm_compute; reflexivity|]. split; [split; [lia|reflexivity]|]. split; [reflexivity|]. split; vm_compute; congruence. Qed.
Example C67_prime_ex : prime 7 /\ classical 5 10 7 (fun _ => 3) (fun _ _ => 53) = Raise OutOfFuel /\ quantum 10 7 (fun _ => 53) = Ok 6.
Proof. split; [apply prime_7|]. split; vm_compute; reflexivity. Qed.

(** ** C68: the period *)
(** A fraction d/r in lowest terms with r < N that the measured value is nearest to is among the fractions it tries. *)
Theorem C68_convergent : forall N peak d r, 2 < N <= 2 ^ 14 -> 0 < peak < fourier_size N -> 0 < r < N -> Z.gcd d r = 1 ->
  near (fourier_size N) peak d r -> convergent peak (fourier_size N) d r.
Proof. exact near_found. Qed.
Print Assumptions C68_convergent.
(** The result is 1, or the greatest even denominator, with 1 < d < r < q, of the fractions for some measured value. *)
Theorem C68_result : forall fuel N peaks r, 2 < N <= 2 ^ 14 -> (forall j, 0 <= peaks j < fourier_size N) -> quantum fuel N peaks = Ok r ->
  r = 1 \/ exists j d, (j < fuel)%nat /\ peaks j <> 0 /\ convergent (peaks j) (fourier_size N) d r /\ accepted (fourier_size N) d r /\
    forall d' r', convergent (peaks j) (fourier_size N) d' r' -> accepted (fourier_size N) d' r' -> r' <= r.
Proof. exact quantum_result_top. Qed.
Print Assumptions C68_result.
(** If the first value other than 0 is the nearest one to d/r, where r is the order of a, even, and 1 < d < r is prime to r, and
    no fraction with a greater even denominator below q is tried, the order is returned. Missing: odd orders, d = 1, and greater
    even denominators. *)
Theorem C68_order_partial : forall fuel N a peaks j d r, 2 < N <= 2 ^ 14 -> (forall j, 0 <= peaks j < fourier_size N) ->
  order N a r -> (2 | r) -> 1 < d < r -> Z.gcd d r = 1 ->
  (j < fuel)%nat -> (forall i, (i < j)%nat -> peaks i = 0) -> peaks j <> 0 -> near (fourier_size N) (peaks j) d r ->
  (forall d' r', convergent (peaks j) (fourier_size N) d' r' -> accepted (fourier_size N) d' r' -> r' <= r) ->
  quantum fuel N peaks = Ok r.
Proof. exact quantum_order. Qed.
Print Assumptions C68_order_partial.
(** It returns after ten values other than 0, and never if all values are 0. *)
Theorem C68_ends : forall fuel N (peaks : nat -> Z), 2 < N <= 2 ^ 14 -> (forall j, 0 <= peaks j < fourier_size N) ->
  (10 <= length (filter (fun j => negb (peaks j =? 0)%Z) (seq 0 fuel)))%nat -> exists r, quantum fuel N peaks = Ok r.
Proof. exact quantum_ends_top. Qed.
Print Assumptions C68_ends.
Theorem C68_zeros_refuted : forall fuel N, quantum fuel N (fun _ => 0) = Raise OutOfFuel.
Proof. exact quantum_zeros_top. Qed.
Print Assumptions C68_zeros_refuted.
(** 33, a = 2 of order 10, measured 614, the value nearest to 3/10 of 2048: 1024 is returned, which is no period. *)
Theorem C68_greater_refuted : order 33 2 10 /\ fourier_size 33 = 2048 /\ near 2048 614 3 10 /\ Z.gcd 3 10 = 1 /\
  quantum 1 33 (fun _ => 614) = Ok 1024 /\ ~ period 33 2 1024.
Proof. exact greater_33. Qed.
Print Assumptions C68_greater_refuted.
(** 21, a = 2 of order 6, measured 85, the value nearest to 1/6 of 512: 1 is returned. *)
Theorem C68_first_refuted : order 21 2 6 /\ fourier_size 21 = 512 /\ near 512 85 1 6 /\ quantum 10 21 (fun _ => 85) = Ok 1.
Proof. exact first_21. Qed.
Print Assumptions C68_first_refuted.
(** 21, a = 4 of order 3: an odd order is never returned *)
Theorem C68_odd_refuted : forall fuel N peaks r, 2 < N <= 2 ^ 14 -> (forall j, 0 <= peaks j < fourier_size N) -> 1 < r -> Z.odd r = true ->
  quantum fuel N peaks <> Ok r.
Proof. exact odd_never. Qed.
Print Assumptions C68_odd_refuted.
Example C68_ex : order 21 2 6 /\ near (fourier_size 21) 427 5 6 /\ Z.gcd 5 6 = 1 /\
  (forall d' r', convergent 427 (fourier_size 21) d' r' -> accepted (fourier_size 21) d' r' -> r' <= 6).
Proof.
  split; [apply order_check; vm_compute; auto|]. split; [vm_compute; congruence|]. split; [reflexivity|]. exact greatest_427.
Qed.
