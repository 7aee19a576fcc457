(** C92: measurements with rounding errors: which outcome is reported, with which probability, and what the state is then. *)
From Coq Require Import Reals Lra.
From Coq Require SpecFloat.
From Verif Require Import Base BaseR S_Bits M_Bits M_Kron S_Kron M_Ops S_Ops M_Feed M_Measure S_Measure M_Float S_Float L_Float4 L_Float7 M_FloatMeasure S_FloatMeasure L_Measure2 L_FloatMeasure1 L_FloatMeasure2 L_FloatMeasure3.
Local Open Scope Z_scope.

(** the reported outcome is one of the 2^k values; its probability is off by at most prob_error; and the draw, scaled to the
    total probability, lies in the interval the Born rule gives this outcome, up to draw_error *)
Theorem C92_born : forall u w n indices off (vec : list (Cx R)) rand m p,
  (0 <= u)%R -> (0 <= w)%R -> 0 <= n -> qubits_ok n indices -> slice_ok n off vec -> (0 <= rand <= 1)%R ->
  fsoft_measure u w rand indices n vec off (m, p) ->
  let g := measured_order n indices in
  let f := amp_at off vec in
  let E := draw_error u w n (zlen indices) (tprob vec) in
  0 <= m < 2 ^ zlen indices /\ (Rabs (p - marginal n g f m) <= prob_error u w n (marginal n g f m))%R /\
  (below n g f m - E <= rand * tprob vec <= below n g f (m + 1) + E)%R.
Proof.
  exact (fun u w n indices off vec rand m p Hu Hw Hn HI HS Hr HF =>
    let H := soft_err u w Hu Hw n indices off vec Hn HI HS rand (m, p) Hr HF in
    conj (proj1 H) (conj (proj1 (proj2 H)) (proj1 (proj2 (proj2 H))))).
Qed.
Print Assumptions C92_born.

(** a draw that is not that close to the ends of the interval of an outcome gives this outcome, as with exact numbers *)
Theorem C92_same : forall u w n indices off (vec : list (Cx R)) rand m p m' p',
  (0 <= u)%R -> (0 <= w)%R -> 0 <= n -> qubits_ok n indices -> slice_ok n off vec -> (0 <= rand <= 1)%R ->
  fsoft_measure u w rand indices n vec off (m, p) -> soft_measure rand 0%R indices n vec None off = Ok (m', p') ->
  let g := measured_order n indices in
  let f := amp_at off vec in
  let E := draw_error u w n (zlen indices) (tprob vec) in
  (below n g f m' + E < rand * tprob vec < below n g f (m' + 1) - E)%R -> m = m'.
Proof.
  exact (fun u w n indices off vec rand m p m' p' Hu Hw Hn HI HS Hr HF HE Hd =>
    soft_same u w Hu Hw n indices off vec Hn HI HS rand (m, p) m' p' Hr HF HE Hd).
Qed.
Print Assumptions C92_same.

(** an outcome of probability 0 is reported only if it is the last one and the draw reaches it, or the first one and the draw is
    (up to draw_error) 0. Missing: that it is never reported; this is false, see below. *)
Theorem C92_possible_partial : forall u w n indices off (vec : list (Cx R)) rand m,
  (0 <= u)%R -> (0 <= w)%R -> 0 <= n -> qubits_ok n indices -> slice_ok n off vec -> (0 <= rand <= 1)%R ->
  fsoft_measure u w rand indices n vec off (m, 0%R) ->
  let B := below n (measured_order n indices) (amp_at off vec) in
  let E := draw_error u w n (zlen indices) (tprob vec) in
  m = 2 ^ zlen indices - 1 /\ (B m - E <= rand * tprob vec)%R \/ m = 0 /\ (rand * tprob vec <= E)%R.
Proof. exact soft_possible_zero. Qed.
Print Assumptions C92_possible_partial.

(** three qubits with the amplitudes (1, 1, 1, 2, 2, 2, 2, 0) / sqrt 19, each rounded to a double *)
Definition exfm_a : double := SpecFloat.S754_finite false 8265572908579126 (-55).
Definition exfm_b : double := SpecFloat.S754_finite false 8265572908579126 (-54).
Definition exfm_state : list double := [exfm_a; exfm_a; exfm_a; exfm_b; exfm_b; exfm_b; exfm_b; d_zero].
(** the largest double below 1, the largest value random.random() returns *)
Definition exfm_rand : double := SpecFloat.S754_finite false 9007199254740991 (-53).
(** on doubles, with a state of norm 1 (up to 2^-52) and a draw below 1, an outcome is reported whose amplitude is 0, with the
    probability 0; measure ends with a ZeroDivisionError. With exact numbers neither can happen for a draw between 0 and 1 (C22).
    (The draw 0 gives the outcome 0 with the square of its amplitude.) *)
Theorem C92_impossible_refuted : exists vec rand,
  (Z.abs (sum vec (fun x => units 55 x * units 55 x) - 2 ^ 110) <= 2 ^ 58) /\ 0 < units 53 rand < 2 ^ 53 /\
  znth exfm_a vec 7 = d_zero /\
  double_soft_measure rand [0; 1; 2] 3 vec = Ok (7, d_zero) /\ double_measure rand [0; 1; 2] 3 vec = Raise ZeroDivisionError /\
  double_measure d_zero [0; 1; 2] 3 vec = Ok (0, d_mul (znth d_zero vec 0) (znth d_zero vec 0)).
Proof. exists exfm_state, exfm_rand. vm_compute. repeat split; discriminate. Qed.
Print Assumptions C92_impossible_refuted.

(** the loops that were run there are those of the model of the other properties *)
Theorem C92_same_loops : forall {K} {OK : OrdRing K} (rand : K) indices n (vec : list (Cx K)) off,
  any_soft_measure 0%r (fun a b => a + b)%r (fun a b => a - b)%r (fun a b => a * b)%r (fun r => rleb r 0%r) (map cnorm2 vec) rand indices n off
  = soft_measure rand 0%r indices n vec None off.
Proof. intros K OK. exact any_exact. Qed.
Print Assumptions C92_same_loops.

(** the exact results are possible ones, and without rounding they are the only ones *)
Theorem C92_exact_possible : forall u w rand n indices (vec out0 out : list (Cx R)) mp,
  (0 <= u)%R -> (0 <= w)%R -> 0 <= n -> qubits_ok n indices -> zlen vec = 2 ^ n -> zlen out0 = 2 ^ n ->
  measure (fun p => sqrt (1 / p)) rand 0%R indices n vec out0 0 0 None None = Ok (mp, out) -> fmeasure u w rand indices n vec mp out.
Proof. exact measure_possible. Qed.
Print Assumptions C92_exact_possible.
Theorem C92_exact_unique : forall w rand n indices off (vec : list (Cx R)) mp,
  (0 <= w)%R -> 0 <= n -> qubits_ok n indices -> slice_ok n off vec ->
  fsoft_measure 0 w rand indices n vec off mp -> soft_measure rand 0%R indices n vec None off = Ok mp.
Proof. exact soft_unique. Qed.
Print Assumptions C92_exact_unique.

(** the state after measuring v', a state at some distance of the exact state v: the distance to the collapsed exact state *)
Theorem C92_collapse : forall u w n indices rand (v v' : list (Cx R)) m p out,
  (0 <= u <= 1 / 4)%R -> (0 <= w <= 1 / 2)%R -> 0 <= n -> qubits_ok n indices -> (0 <= rand <= 1)%R ->
  zlen v' = 2 ^ n -> norm2 n v = 1%R -> fmeasure u w rand indices n v' (m, p) out ->
  let P := marginal n (measured_order n indices) (amp_at 0 v) m in
  (0 < P)%R -> (8 * dist n v' v <= P)%R -> (4 * prob_error u w n (P / 2) <= P)%R ->
  zlen out = 2 ^ n /\ (dist n out (collapsed_state n indices m v) <= 2 * dist n v' v / sqrt P + collapse_error u w n P)%R.
Proof.
  exact (fun u w n indices rand v v' m p out Hu Hw Hn HI Hr HV H1 HF HP Hd HE =>
    collapse_near u w Hu Hw n indices Hn HI rand v v' (m, p) out Hr HV H1 HF HP Hd HE).
Qed.
Print Assumptions C92_collapse.

(** on doubles, for at most 40 qubits: the draws of an outcome and the state after it are those of exact numbers up to 2^n / 2^47 *)
Theorem C92_double : forall n indices rand (v v' : list (Cx R)) m p out,
  0 <= n <= 40 -> qubits_ok n indices -> (0 <= rand <= 1)%R -> zlen v' = 2 ^ n -> norm2 n v = 1%R ->
  fmeasure (/ 2 ^ 53) (/ 2 ^ 969) rand indices n v' (m, p) out ->
  let g := measured_order n indices in
  let P := marginal n g (amp_at 0 v) m in
  let E := (IZR (2 ^ n) / 2 ^ 47)%R in
  ((tprob v' <= 3 / 2)%R -> (below n g (amp_at 0 v') m - E <= rand * tprob v' <= below n g (amp_at 0 v') (m + 1) + E)%R) /\
  ((8 * dist n v' v <= P)%R -> (/ 2 ^ 800 <= P)%R ->
   (dist n out (collapsed_state n indices m v) <= 2 * dist n v' v / sqrt P + E)%R).
Proof. exact double_measured. Qed.
Print Assumptions C92_double.

(** one qubit, amplitudes 3/5 and 4/5, measured with the draw 1/2 *)
Definition exfm_v : list (Cx R) := [(3 / 5, 0)%R; (4 / 5, 0)%R].
Example C92_ex_born : exists m p, qubits_ok 1 [0] /\ slice_ok 1 0 exfm_v /\ fsoft_measure (/ 2 ^ 53) (/ 2 ^ 969) (1 / 2) [0] 1 exfm_v 0 (m, p).
Proof.
  destruct ex_same as (m & p & _ & H & _). exists m, p. exact (conj ex_q (conj ex_s H)).
Qed.
(** the hypotheses of C92_same: at the draw 1/2 exact numbers give outcome 1, and 1/2 is not close to 9/25 or 1 *)
Example C92_ex_same : exists m p p', fsoft_measure (/ 2 ^ 53) (/ 2 ^ 969) (1 / 2) [0] 1 exfm_v 0 (m, p) /\
  soft_measure (1 / 2)%R 0%R [0] 1 exfm_v None 0 = Ok (1, p') /\
  let E := draw_error (/ 2 ^ 53) (/ 2 ^ 969) 1 1 (tprob exfm_v) in
  (below 1 (measured_order 1 [0%Z]) (amp_at 0 exfm_v) 1 + E < 1 / 2 * tprob exfm_v < below 1 (measured_order 1 [0%Z]) (amp_at 0 exfm_v) 2 - E)%R.
Proof. exact ex_same. Qed.
Example C92_ex_collapse : exists m p out, fmeasure (/ 2 ^ 53) (/ 2 ^ 969) (1 / 2) [0] 1 exfm_v (m, p) out /\ norm2 1 exfm_v = 1%R /\
  let P := marginal 1 (measured_order 1 [0]) (amp_at 0 exfm_v) m in
  (8 * dist 1 exfm_v exfm_v <= P)%R /\ (/ 2 ^ 800 <= P)%R /\ (4 * prob_error (/ 2 ^ 53) (/ 2 ^ 969) 1 (P / 2) <= P)%R.
Proof. exact ex_collapse. Qed.
(** an outcome of probability 0 can be reported (here for a draw of 0, as in C22) *)
Example C92_ex_possible : fsoft_measure (/ 2 ^ 53) (/ 2 ^ 969) 0 [0] 1 [(0, 0)%R; (1, 0)%R] 0 (0, 0%R).
Proof. exact ex_zero. Qed.
