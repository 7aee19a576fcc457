(** Specification: the operator given by a set of (index group, matrix) pairs.
    Only the type [mat] of matrix objects is taken from the model. *)
From Verif Require Import Base S_Bits M_Kron.

Section KronSpec.
  Context {K : Type} {RK : CRing K}.
  Notation C := (Cx K).

  (** [mshape k m]: [m] is a well-formed 2^k x 2^k matrix object *)
  Fixpoint mat_ok (k : Z) (m : mat K) : Prop :=
    match m with
    | MNum r c d => 0 <= k /\ r = 2 ^ k /\ c = 2 ^ k /\ zlen d = r * c
    | MC m => 1 <= k /\ mat_ok (k - 1) m
    | MSwap n => 0 <= n /\ k = 2 * n
    | MOther _ _ _ => False
    end.

  (** the entry (i,j) a 2^k x 2^k matrix object stands for: dense arrays row-major; a controlled matrix
      is block diagonal diag(I, m); the swap matrix maps |a>|b> to |b>|a> *)
  Fixpoint mentry (k : Z) (m : mat K) (i j : Z) : C :=
    match m with
    | MNum _ _ d => znth 0%r d (i * 2 ^ k + j)
    | MC m =>
        let h := 2 ^ (k - 1) in
        if (i <? h) && (j <? h) then (if (i =? j) then 1%r else 0%r)
        else if (h <=? i) && (h <=? j) then mentry (k - 1) m (i - h) (j - h)
        else 0%r
    | MSwap n =>
        if (i =? (j mod 2 ^ n) * 2 ^ n + j / 2 ^ n) then 1%r else 0%r
    | MOther _ _ _ => 0%r
    end.

  (** [r] and [c] agree on every qubit that is not in [g] *)
  Definition agree_off (n : Z) (g : list Z) (r c : Z) : bool :=
    forallb (fun q => existsb (Z.eqb q) g || Bool.eqb (qbit n r q) (qbit n c q)) (zrange 0 n).

  Definition group_entry (n : Z) (r c : Z) (gm : list Z * mat K) : C :=
    mentry (zlen (fst gm)) (snd gm) (reg n (fst gm) r) (reg n (fst gm) c).

  (** matrix entry of the whole operation *)
  Definition kron_entry (n : Z) (gs : list (list Z * mat K)) (r c : Z) : C :=
    if agree_off n (concat (map fst gs)) r c then prod gs (group_entry n r c) else 0%r.

  (** the operator applied to a vector (a function from basis states to amplitudes) *)
  Definition kron_apply (n : Z) (gs : list (list Z * mat K)) (v : Z -> C) (r : Z) : C :=
    sum (zrange 0 (2 ^ n)) (fun c => (kron_entry n gs r c * v c)%r).

  (** a slice stored at offset [off], read as a vector that is 0 elsewhere *)
  Definition slice_at (off : Z) (vec : list C) : Z -> C := fun c => znth 0%r vec (c - off).

  (** all groups consist of qubits of the state and carry a matrix of the right size *)
  Definition groups_ok (n : Z) (gs : list (list Z * mat K)) : Prop :=
    forall g m, In (g, m) gs -> (forall q, In q g -> 0 <= q < n) /\ mat_ok (zlen g) m.

  (** the (index group, matrix) pairs meant by the argument [mats]: an int key i stands for (i,) *)
  Definition key_group (k : key) : list Z :=
    match k with KInt i => [i] | KTuple l => l | KOther => [] end.
  Definition mats_groups (mats : mats_arg K) : list (list Z * mat K) :=
    map (fun '(k, m) => (key_group k, m)) mats.
  (** keys are ints or tuples, and no two keys mean the same group *)
  Definition keys_ok (mats : mats_arg K) : Prop :=
    (forall k m, In (k, m) mats -> k <> KOther) /\ NoDup (map (fun km => key_group (fst km)) mats).

  (** every matrix object is one numpy or the classes of operators.py can produce: an array holds
      rows*cols numbers, a swap size is not negative *)
  Fixpoint mat_wf (m : mat K) : Prop :=
    match m with
    | MNum r c d => 0 <= r /\ 0 <= c /\ zlen d = r * c
    | MC m => mat_wf m
    | MSwap n => 0 <= n
    | MOther _ _ _ => False
    end.
  (** the shape of the matrix fits its key *)
  Definition shape_ok (km : key * mat K) : Prop :=
    let k := zlen (key_group (fst km)) in mat_shape (snd km) = (2 ^ k, 2 ^ k).
  (** a dictionary a caller can pass for an n-qubit state: int or tuple keys naming qubits of the state *)
  Definition mats_wf (n : Z) (mats : mats_arg K) : Prop :=
    keys_ok mats /\
    forall k m, In (k, m) mats -> (forall q, In q (key_group k) -> 0 <= q < n) /\ mat_wf m.

  (** all groups have the same number of indices, and there is at least one *)
  Definition rectangular (gs : list (list Z)) : bool :=
    match gs with [] => false | g0 :: _ => forallb (fun g => zlen g =? zlen g0) gs end.

  (** the schedule of the parallel loop performs every iteration exactly once *)
  Definition impl_sched_ok (i : impl) (len : Z) : Prop :=
    match i with Python => True | Cython sched => Permutation sched (zrange 0 len) end.
  Definition impl_ok (i : impl) (gs : list (list Z)) (len : Z) : Prop :=
    match i with
    | Python => True
    | Cython sched => Permutation sched (zrange 0 len) /\ rectangular gs = true
    end.

  (** the specified content of an output slice at offset [ooff], [len] entries *)
  Definition kron_result (n : Z) (mats : mats_arg K) (vec : list C) (ioff ooff len : Z) : list C :=
    map (fun r => kron_apply n (mats_groups mats) (slice_at ioff vec) (r + ooff)) (zrange 0 len).

  (** consecutive slices with their offsets *)
  Fixpoint pieces (off : Z) (vs : list (list C)) : list (Z * list C) :=
    match vs with [] => [] | v :: vs => (off, v) :: pieces (off + zlen v) vs end.

  (** matrix (list of rows) times vector *)
  Definition matvec (rows : list (list C)) (v : list C) : list C :=
    map (fun row => sum (zrange 0 (zlen v)) (fun j => (znth 0%r row j * znth 0%r v j)%r)) rows.
  Definition transpose (rows : list (list C)) (n : Z) : list (list C) :=
    map (fun j => map (fun row => znth 0%r row j) rows) (zrange 0 n).

  (** the calls that fit: both slices fit in 2^n and every matrix has the size of its key *)
  Definition accepted (mats : mats_arg K) (vec : list C) n (out : list C) ioff ooff : Prop :=
    zlen vec + ioff <= 2 ^ n /\ zlen out + ooff <= 2 ^ n /\ (forall km, In km mats -> shape_ok km).
  (** only dense (list or numpy) matrices *)
  Definition dense_keys (mats : mats_arg K) : Prop :=
    forall k m, In (k, m) mats -> match m with MNum _ _ _ => True | _ => False end.
End KronSpec.
