(** Specification for rounding errors. *)
From Coq Require Import Reals.
From Verif Require Import Base BaseR S_Bits M_Kron S_Kron M_Ops S_Ops.
Local Open Scope Z_scope.

Notation CR := (Cx R).
(** |re| + |im| of a complex number; between its absolute value and sqrt 2 times that *)
Definition cabs1 (z : CR) : R := (Rabs (fst z) + Rabs (snd z))%R.

(** how many different qubits a dictionary acts on *)
Definition width (mats : mats_arg R) : nat := length (nodup Z.eq_dec (touched mats)).
(** the product of the absolute values of the factors of the matrix entry (r, c), plus 4w for each multiplication *)
Definition entry_size (w : R) (n : Z) (mats : mats_arg R) (r c : Z) : R :=
  fold_left (fun P gm => (P * cabs1 (group_entry n r c gm) + 4 * w)%R) (mats_groups mats) 1%R.
(** the sum of the absolute values of the terms of row r, over the columns that can be different from 0; with w = 0 this is
    the sum of |entry| * |amplitude| *)
Definition row_size (w : R) (n : Z) (mats : mats_arg R) (v : Z -> CR) (r : Z) : R :=
  sum (filter (agree_off n (touched mats) r) (zrange 0 (2 ^ n)))
    (fun c => (entry_size w n mats r c * cabs1 (v c) + 6 * w)%R).

(** the distance of two states: the square root of the sum of |v_r - x_r|^2 *)
Definition dist (n : Z) (v x : list CR) : R := sqrt (sum (zrange 0 (2 ^ n)) (fun r => cnorm2 (amp v r - amp x r)%r)).

(** the dictionary [mats'] holds the matrices of [mats] with errors of at most delta in each entry *)
Definition near (delta : R) (mats mats' : mats_arg R) : Prop :=
  same_keys mats' mats /\
  forall j k m m', nth_error mats j = Some (k, m) -> nth_error mats' j = Some (k, m') ->
    let l := zlen (key_group k) in
    forall a b, 0 <= a < 2 ^ l -> 0 <= b < 2 ^ l -> (cabs1 (mentry l m' a b - mentry l m a b)%r <= delta)%R.

(** unitary matrices on disjoint groups of qubits, or the dictionary of a library op *)
Definition unitary_step (n : Z) (mats : mats_arg R) : Prop :=
  mats_wf n mats /\ disjoint_groups n mats /\ all_unitary mats \/
  exists o groups, op_fits o groups /\ qubits_ok n (concat groups) /\ op_scalars_ok o /\ op_ms o false groups = Ok mats.

(** the dictionaries applied one after the other, without rounding *)
Fixpoint applied_all (n : Z) (ms : list (mats_arg R)) (v V : list CR) : Prop :=
  match ms with [] => V = v | m :: ms => exists W, applied n m v W /\ applied_all n ms W V end.

(** what one operation with g matrices on N = 2^width basis states of its qubits adds to the distance *)
Definition step_error (u w delta : R) (n : Z) (mats : mats_arg R) : R :=
  let g := length mats in
  let N := (2 ^ width mats)%nat in
  (((1 + delta) ^ g * (1 + u) ^ (2 * g + 2 + N) - 1) * INR N * ((3 / 2) ^ (g + 1) * (1 + 8 * w) + 6 * w * IZR (2 ^ n)))%R.
