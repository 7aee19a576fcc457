(** Properties C13, C14: the bit helpers. *)
From Verif Require Import Base S_Bits M_Bits L_Bits.

(** C13 *)
Theorem C13_uint_roundtrip : forall x n, 0 <= n ->
  bitarray_to_uint (uint_to_bitarray x n) = Ok (x mod 2 ^ n).
Proof. exact uint_roundtrip. Qed.
Print Assumptions C13_uint_roundtrip.
Example C13_uint_roundtrip_ex : bitarray_to_uint (uint_to_bitarray 45 4) = Ok 13.
Proof. reflexivity. Qed.

Theorem C13_bitarray_roundtrip : forall bits,
  (forall b, In b bits -> b = 0 \/ b = 1) ->
  exists v, bitarray_to_uint bits = Ok v /\ 0 <= v < 2 ^ zlen bits /\
            uint_to_bitarray v (zlen bits) = bits.
Proof. exact bitarray_roundtrip. Qed.
Print Assumptions C13_bitarray_roundtrip.
Example C13_bitarray_roundtrip_ex :
  (forall b, In b [0;1;1;0] -> b = 0 \/ b = 1) /\ bitarray_to_uint [0;1;1;0] = Ok 6 /\
  uint_to_bitarray 6 4 = [0;1;1;0].
Proof. split; [cbn; intros; intuition|split; reflexivity]. Qed.

(** uint_to_bitarray lists the qubit values, qubit 0 (most significant bit) first *)
Theorem C13_uint_to_bitarray_qubits : forall x n q, 0 <= q < n ->
  pyget (uint_to_bitarray x n) q = Ok (Z.b2z (qbit n x q)).
Proof. exact uint_to_bitarray_get. Qed.
Print Assumptions C13_uint_to_bitarray_qubits.
Example C13_uint_to_bitarray_qubits_ex : uint_to_bitarray 6 3 = [1;1;0].
Proof. reflexivity. Qed.

Theorem C13_qubit_index_notation : forall i qns,
  (forall k, In k qns -> 0 <= k) ->
  let n := fold_left Z.add qns 0 in
  qubit_index_notation i qns None = Ok (map (fun g => reg n g i) (registers 0 qns)).
Proof. exact qubit_index_notation_spec. Qed.
Print Assumptions C13_qubit_index_notation.
Example C13_qubit_index_notation_ex : qubit_index_notation 45 [2;3;1] None = Ok [2;6;1].
Proof. reflexivity. Qed.

(** set_bit/get_bit write and read one bit and leave the others alone *)
Theorem C13_get_bit : forall num i, 0 <= i -> get_bit num i = Z.b2z (Z.testbit num i).
Proof. exact get_bit_spec. Qed.
Print Assumptions C13_get_bit.
Theorem C13_set_bit : forall num i value j, 0 <= i -> 0 <= j ->
  Z.testbit (set_bit num i value) j = if (j =? i) then negb (value =? 0) else Z.testbit num j.
Proof. exact set_bit_spec. Qed.
Print Assumptions C13_set_bit.
Example C13_set_bit_ex : set_bit 5 1 1 = 7 /\ set_bit 5 2 0 = 1 /\ set_bit 5 1 0 = 5 /\ get_bit 5 2 = 1.
Proof. repeat split; reflexivity. Qed.

(** C14: for a mask with [k] of the low [n] bits set, the entwined number has, at a masked position
    [b], the bit of the measured value whose place is the number of masked positions below [b]; at the
    other positions the bits of the other value likewise. *)
Theorem C14_entwine_bits : forall n k vi vn mask b,
  0 <= k <= n -> rank (Z.testbit mask) n = k -> 0 <= b < n ->
  Z.testbit (entwine_bit k (n - k) vi vn mask) b =
  if Z.testbit mask b then Z.testbit vi (rank (Z.testbit mask) b)
  else Z.testbit vn (rank (fun i => negb (Z.testbit mask i)) b).
Proof. exact entwine_bits. Qed.
Print Assumptions C14_entwine_bits.

Theorem C14_entwine_range : forall n k vi vn mask,
  0 <= k <= n -> rank (Z.testbit mask) n = k -> 0 <= entwine_bit k (n - k) vi vn mask < 2 ^ n.
Proof. exact entwine_range. Qed.
Print Assumptions C14_entwine_range.

(** every basis state arises exactly once *)
Theorem C14_entwine_bijective : forall n k mask x,
  0 <= k <= n -> rank (Z.testbit mask) n = k -> 0 <= x < 2 ^ n ->
  exists! v : Z * Z, 0 <= fst v < 2 ^ k /\ 0 <= snd v < 2 ^ (n - k) /\
     entwine_bit k (n - k) (fst v) (snd v) mask = x.
Proof. exact entwine_bijective. Qed.
Print Assumptions C14_entwine_bijective.
Example C14_entwine_ex :
  rank (Z.testbit 10) 4 = 2 /\ entwine_bit 2 2 2 1 10 = 9 /\ entwine_bit 2 2 1 3 10 = 7.
Proof. repeat split; reflexivity. Qed.
