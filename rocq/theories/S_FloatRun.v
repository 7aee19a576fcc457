(** Specification for whole runs with rounding: what happens without rounding, and how far the rounded state may be from it. *)
From Coq Require Import Reals.
From Verif Require Import Base BaseR S_Bits M_Kron S_Kron M_Ops S_Ops M_Feed S_Feed S_Func M_Func S_Measure S_Float S_FloatMeasure M_FloatRun.
Local Open Scope Z_scope.

(** the operations, without rounding *)
Inductive iop :=
| IGate (mats : mats_arg R)
| IFunc (reg1 reg2 : list Z) (f : Z -> Z)
| IMeasure (indices : list Z)
| IProbs (indices : list Z).

(** the program's operation is this one: matrices are stored with errors of at most delta in each entry; the function is one
    for which C27 holds; draws are between 0 and 1 *)
Definition stands_for (delta : R) (n : Z) (i : iop) (o : fop) : Prop :=
  match i, o with
  | IGate mats, FGate mats' => unitary_step n mats /\ mats_wf n mats' /\ near delta mats mats'
  | IFunc reg1 reg2 f, FFunc m sched reg1' reg2' func =>
      reg1' = reg1 /\ reg2' = reg2 /\ qubits_ok n (reg1 ++ reg2) /\ Permutation sched (zrange 0 (2 ^ zlen reg1)) /\
      (forall x, 0 <= x < 2 ^ zlen reg1 -> func x = Ok (f x)) /\
      (zlen (others n reg1 reg2) = zlen reg2 \/ others n reg1 reg2 = [] /\ tame m)
  | IMeasure indices, FMeasure rand indices' => indices' = indices /\ qubits_ok n indices /\ (0 <= rand <= 1)%R
  | IProbs indices, FProbs indices' => indices' = indices /\ qubits_ok n indices
  | _, _ => False
  end.

(** the evolution without rounding of v to V, given the outcomes of the measurements; d bounds the distance of the rounded
    state before, d' after it. A gate adds [gate] to the error and multiplies it by 1 + gate; a function keeps it; measuring an
    outcome of probability P doubles it, divides it by sqrt P and adds [meas P]. The outcomes are clearly possible ones: P is at
    least 8 times the distance, and [fine]. *)
Inductive ideal (gate : mats_arg R -> R) (meas : R -> R) (fine : R -> Prop) (n : Z) :
  list iop -> list fresult -> R -> list CR -> R -> list CR -> Prop :=
| id_nil d v : ideal gate meas fine n [] [] d v d v
| id_gate mats l rs d v W d' V : applied n mats v W -> ideal gate meas fine n l rs ((d + 1) * (1 + gate mats) - 1)%R W d' V ->
    ideal gate meas fine n (IGate mats :: l) (RNone :: rs) d v d' V
| id_func reg1 reg2 f l rs d v W d' V :
    zlen W = 2 ^ n -> (forall x, 0 <= x < 2 ^ n -> amp W (fxor n reg1 reg2 f x) = amp v x) ->
    ideal gate meas fine n l rs d W d' V -> ideal gate meas fine n (IFunc reg1 reg2 f :: l) (RNone :: rs) d v d' V
| id_measure indices m p l rs d v d' V :
    let P := marginal n (measured_order n indices) (amp_at 0 v) m in
    (0 < P)%R -> (8 * d <= P)%R -> fine P ->
    ideal gate meas fine n l rs (2 * d / sqrt P + meas P)%R (collapsed_state n indices m v) d' V ->
    ideal gate meas fine n (IMeasure indices :: l) (RMeasured m p :: rs) d v d' V
| id_probs indices ps l rs d v d' V :
    ideal gate meas fine n l rs d v d' V -> ideal gate meas fine n (IProbs indices :: l) (RProbs ps :: rs) d v d' V.

(** the error of multiplying the amplitudes of k registers *)
Definition feed_error (u w : R) (n : Z) (k : nat) : R :=
  (((1 + u) ^ (2 * k) - 1) * (3 / 2) ^ k * (1 + 4 * w * INR k * IZR (2 ^ n)))%R.
(** the distance of two registers of amplitudes *)
Definition reg_dist (a' a : list CR) : R := sqrt (sum (zrange 0 (zlen a)) (fun i => cnorm2 (amp a' i - amp a i)%r)).
(** the registers that are fed, as stored (fs') and as meant (fs): the same qubits and numbers of amplitudes *)
Definition same_registers (fs' fs : list (list Z * list CR)) : Prop :=
  Forall2 (fun f' f => fst f' = fst f /\ zlen (snd f') = zlen (snd f)) fs' fs.
(** the distance of the initial state: the errors of the stored amplitudes and of multiplying them *)
Definition start_error (u w : R) (n : Z) (fs' fs : list (list Z * list CR)) : R :=
  (prod (combine fs' fs) (fun p => (1 + reg_dist (snd (fst p)) (snd (snd p)))%R) * (1 + feed_error u w n (length fs)) - 1)%R.
(** the initial state that is meant: the product of the registers; qubits that are not fed are 0 *)
Definition meant (n : Z) (fs : list (list Z * list CR)) : list CR := map (fed_amp n fs) (zrange 0 (2 ^ n)).
(** a measurement of v at a draw: the outcome lies where the Born rule puts it up to E, and its probability is right up to D *)
Definition drawn (n : Z) (indices : list Z) (v : list CR) (rand : R) (m : Z) (p E D : R) : Prop :=
  let g := measured_order n indices in
  0 <= m < 2 ^ zlen indices /\
  (below n g (amp_at 0 v) m - E <= rand <= below n g (amp_at 0 v) (m + 1) + E)%R /\
  (Rabs (p - marginal n g (amp_at 0 v) m) <= D)%R.
(** what an operation in a state at most d from V reports: outcomes are drawn as in V, and the probabilities are those of V, up
    to errors *)
Definition reported (u w : R) (n : Z) (V : list CR) (d : R) (o : fop) (r : fresult) : Prop :=
  match o, r with
  | FGate _, RNone | FFunc _ _ _ _ _, RNone => True
  | FMeasure rand indices, RMeasured m p =>
      drawn n indices V rand m p (2 * (2 + d) * d + draw_error u w n (zlen indices) ((1 + d) * (1 + d)))%R
        ((2 + d) * d + prob_error u w n (marginal n (measured_order n indices) (amp_at 0 V) m + (2 + d) * d))%R
  | FProbs indices, RProbs ps =>
      zlen ps = 2 ^ zlen indices /\
      forall m, 0 <= m < 2 ^ zlen indices ->
      (Rabs (znth 0 ps m - marginal n (rev indices) (amp_at 0 V) m)
       <= (2 + d) * d + ((1 + u) ^ (5 + 2 ^ Z.to_nat n) - 1) * ((1 + d) ^ 2 + 2 * w * IZR (2 ^ n)))%R
  | _, _ => False
  end.
