(** Model of examples/shors.py without the circuit: the continued fractions (:73-99), finding the period (:45-70) and the
    classical part (:13-42). *)
From Verif Require Import Base.

(** the integer nearest to a/b for b > 0, ties to the even one *)
Definition div_round_even (a b : Z) : Z :=
  let k := a / b in let r := a mod b in
  if (2 * r <? b) then k else if (b <? 2 * r) then k + 1 else if Z.even k then k else k + 1.

(** int(c/q) for ints c, q > 0: c/q is the double nearest to the quotient (53 bits, ties to even; exponents outside
    the double range, which raise OverflowError or lose bits, are not modelled), int() drops the fraction.
    [s] and [e] are such that 2^e <= c/q < 2^(e+1). *)
Definition int_true_div (c q : Z) : Z :=
  let s := Z.log2 c - Z.log2 q in
  let e := if (if 0 <=? s then c <? q * 2 ^ s else c * 2 ^ (- s) <? q) then s - 1 else s in
  let sh := 52 - e in
  let m := if 0 <=? sh then div_round_even (c * 2 ^ sh) q else div_round_even c (q * 2 ^ (- sh)) in
  if 0 <=? sh then m / 2 ^ sh else m * 2 ^ (- sh).

(** examples/shors.py:91-99 [gen_continued_fraction_coefs]: the list of yields; [fuel] bounds the iterations *)
Fixpoint gen_continued_fraction_coefs (fuel : nat) (c q : Z) : res (list Z) :=
  if (0 <? c) && (0 <? q) then
    match fuel with
    | O => Raise OutOfFuel
    | S fuel => let a := int_true_div c q in
        do l <- gen_continued_fraction_coefs fuel q (c - q * a); Ok (a :: l)
    end
  else Ok [].

(** examples/shors.py:83-88: the loop of gen_continued_fractions *)
Fixpoint fractions_loop (coefs : list Z) (dn_2 dn_1 rn_2 rn_1 : Z) : list (Z * Z) :=
  match coefs with
  | [] => []
  | an :: coefs =>
      let dn := an * dn_1 + dn_2 in
      let rn := an * rn_1 + rn_2 in
      (dn, rn) :: fractions_loop coefs dn_1 dn rn_1 rn
  end.
(** examples/shors.py:73-88 [gen_continued_fractions]: the list of yields *)
Definition gen_continued_fractions (fuel : nat) (c q : Z) : res (list (Z * Z)) :=
  do coefs <- gen_continued_fraction_coefs fuel c q; Ok (fractions_loop coefs 0 1 1 0).

(** int(numpy.ceil(numpy.log2(x))) for x >= 1. For x <= 2^28, as here, the double nearest to log2 of a number that is no
    power of two is no integer, and it is exact for powers of two. *)
Definition ceil_log2 (x : Z) : Z := Z.log2_up x.

(** examples/shors.py:62-66: the loop of [quantum] over the fractions, the last first; the result is the value of r after
    the loop, [r0] if there is no fraction *)
Fixpoint pick_fraction (fs : list (Z * Z)) (q r0 : Z) : Z :=
  match fs with
  | [] => r0
  | (d, r) :: fs =>
      if (1 <? d) && (d <? r) && (r <? q) && (r mod 2 =? 0) && (Z.gcd d r =? 1) then r else pick_fraction fs q r
  end.
(** examples/shors.py:45-70: the loop of [quantum]. [peaks j] is what run j measures (c[m][0] after run(m); the circuit is
    in M_ShorCircuit); [j] counts the runs, [max_iters] and [r] are the local variables. [fuel] bounds the runs. Printing is
    left out. *)
Fixpoint quantum_loop (fuel : nat) (q : Z) (peaks : nat -> Z) (j : nat) (r max_iters : Z) : res Z :=
  if (r =? 1) && (0 <? max_iters) then
    match fuel with
    | O => Raise OutOfFuel
    | S fuel =>
        let peak := peaks j in
        if (peak =? 0) then quantum_loop fuel q peaks (S j) r max_iters
        else
          do fs <- gen_continued_fractions (Z.to_nat (peak + 2 * q)) peak q;
          quantum_loop fuel q peaks (S j) (pick_fraction (rev fs) q r) (max_iters - 1)
    end
  else Ok r.
(** examples/shors.py:45-70 [quantum]; x only goes into the circuit *)
Definition quantum (fuel : nat) (N : Z) (peaks : nat -> Z) : res Z :=
  quantum_loop fuel (2 ^ ceil_log2 (N ^ 2)) peaks 0 1 10.

(** examples/shors.py:17-42: the loop of [classical]. [choices i] is the value of random.randint(2, N - 1) in round i
    (which raises ValueError if N - 1 < 2), [peaks i] are the measured values of the call of quantum in round i; [fuel]
    bounds the rounds, [qfuel] the runs of a call. *)
Fixpoint classical_loop (fuel qfuel : nat) (N : Z) (choices : nat -> Z) (peaks : nat -> nat -> Z) (i : nat) : res (Z * Z) :=
  match fuel with
  | O => Raise OutOfFuel
  | S fuel =>
      if (N - 1 <? 2) then Raise ValueError
      else
        let a := choices i in
        let gcd := Z.gcd a N in
        if negb (gcd =? 1) then Ok (gcd, int_true_div N gcd)
        else
          do r <- quantum qfuel N (peaks i);
          if (r mod 2 =? 1) then classical_loop fuel qfuel N choices peaks (S i)
          else
            let apow := (a ^ int_true_div r 2) mod N in
            if (apow =? N - 1) then classical_loop fuel qfuel N choices peaks (S i)
            else
              let f0 := Z.gcd (apow + 1) N in
              let f1 := Z.gcd (apow - 1) N in
              if (f0 =? 1) || (f1 =? 1) then classical_loop fuel qfuel N choices peaks (S i)
              else Ok (f0, f1)
  end.
(** examples/shors.py:13-42 [classical]: 2 * log2(N) > 28 if and only if N > 2^14 (the logarithm of a number below 1 is nan
    or -inf, and the test is false) *)
Definition classical (fuel qfuel : nat) (N : Z) (choices : nat -> Z) (peaks : nat -> nat -> Z) : res (Z * Z) :=
  if (2 ^ 14 <? N) then Raise ValueError else classical_loop fuel qfuel N choices peaks 0.
