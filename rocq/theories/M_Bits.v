(** Model of the bit helpers: qip/util.py and qip/ext/util.pyx. *)
From Verif Require Import Base.

(** qip/util.py:137-142 [uint_to_bitarray]: bits.append(num % 2); num = num >> 1; reversed.
    Negative [n] gives an empty range, as in Python. *)
Definition uint_to_bitarray (num n : Z) : list Z :=
  rev (fst (fold_left (fun '(bits, num) _ => (bits ++ [num mod 2], Z.shiftr num 1))
                      (zrange 0 n) ([], num))).

(** qip/util.py:145-149 [bitarray_to_uint]: s += 2**i if bits[len(bits)-i-1] else 0 *)
Definition bitarray_to_uint (bits : list Z) : res Z :=
  mfold (fun s i => do b <- pyget bits (zlen bits - i - 1);
                    Ok (s + (if (b =? 0) then 0 else 2 ^ i)))
        (zrange 0 (zlen bits)) 0.

(** Python slice [l[a:b]] for 0 <= a, 0 <= b *)
Definition pyslice {A} (l : list A) (a b : Z) : list A :=
  firstn (Z.to_nat (b - a)) (skipn (Z.to_nat a) l).

(** qip/util.py:157-167 [qubit_index_notation], with n passed or defaulted to sum(qns) *)
Definition qubit_index_notation (i : Z) (qns : list Z) (n : option Z) : res (list Z) :=
  let n := match n with Some n => n | None => fold_left Z.add qns 0 end in
  let bit_array := uint_to_bitarray i n in
  do r <- mfold (fun '(acc, start) qubit_size =>
                   do num <- bitarray_to_uint (pyslice bit_array start (start + qubit_size));
                   Ok (acc ++ [num], start + qubit_size)) qns ([], 0);
  Ok (fst r).

(** qip/ext/util.pyx:29-30 [get_bit] *)
Definition get_bit (num bit_index : Z) : Z := Z.land (Z.shiftr num bit_index) 1.

(** qip/ext/util.pyx:25-26 [set_bit]: num ^ ((-(value!=0) ^ num) & (1 << bit_index)) *)
Definition set_bit (num bit_index value : Z) : Z :=
  Z.lxor num (Z.land (Z.lxor (- (if (value =? 0) then 0 else 1)) num) (Z.shiftl 1 bit_index)).

(** qip/ext/util.pyx:2-23 [entwine_bit]; loop state
    (m, n_indices, n_non_indices, indices_mask, non_indices_mask, bit_select).
    C [int] is [Z]; the shift by -1 evaluated for n = 0 (undefined in C, result unused) is 0 here. *)
Definition entwine_step (n v_indices v_non_indices mask : Z)
    (st : Z * Z * Z * Z * Z * Z) (j : Z) : Z * Z * Z * Z * Z * Z :=
  let '(m, n_indices, n_non_indices, indices_mask, non_indices_mask, bit_select) := st in
  let m := Z.shiftl m 1 in
  if negb (Z.shiftr (Z.land mask bit_select) ((n - 1) - j) =? 0) then
    let n_indices := n_indices - 1 in
    (m + Z.shiftr (Z.land v_indices indices_mask) n_indices,
     n_indices, n_non_indices, Z.shiftr indices_mask 1, non_indices_mask, Z.shiftr bit_select 1)
  else
    let n_non_indices := n_non_indices - 1 in
    (m + Z.shiftr (Z.land v_non_indices non_indices_mask) n_non_indices,
     n_indices, n_non_indices, indices_mask, Z.shiftr non_indices_mask 1, Z.shiftr bit_select 1).
Definition entwine_bit (n_indices n_non_indices v_indices v_non_indices mask : Z) : Z :=
  let n := n_indices + n_non_indices in
  let '(m, _, _, _, _, _) :=
    fold_left (entwine_step n v_indices v_non_indices mask) (zrange 0 n)
      (0, n_indices, n_non_indices, Z.shiftl 1 (Z.max 0 (n_indices - 1)),
       Z.shiftl 1 (Z.max 0 (n_non_indices - 1)), Z.shiftl 1 (n - 1)) in
  m.
