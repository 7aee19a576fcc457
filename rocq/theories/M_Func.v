(** Model of F(f): qip/ext/func_apply.pyx and CythonBackend.func_apply. C [int]s are [Z]; reads and writes
    outside an array, and shifts by a negative amount, are [Raise OOB] (undefined behaviour in the code), except in the loop
    over other_indices, which leaves the array in ordinary calls: there a parameter says what the machine does. *)
From Verif Require Import Base M_Bits M_Kron M_Feed.

Section Func.
  Context {K : Type} {OK : OrdRing K}.
  Notation C := (Cx K).

  (** the loops at qip/ext/func_apply.pyx:81-85, 93-97 and 99-103: scatter the bits of [value], counted
      from bit [width]-1 downwards, to the qubits indices[0..count-1] *)
  Definition scatter (indices : list Z) (n width value count : Z) : res Z :=
    mfold (fun acc j =>
      do q <- cget indices j;
      do b <- cget_bit value ((width - 1) - j);
      cset_bit acc ((n - 1) - q) b) (zrange 0 count) 0.

  (** what the loop at :108-111 sees where C leaves it undefined: the value read from other_indices[j] past its end, the
      result of get_bit with a negative shift, the mask 1 << b for a position computed from such a value. [Raise] is a
      crash. *)
  Record machine := mkMachine { u_read : Z -> res Z; u_bit : Z -> Z -> res Z; u_mask : Z -> res Z }.
  (** every undefined step is a crash *)
  Definition strict : machine := mkMachine (fun _ => Raise OOB) (fun _ _ => Raise OOB) (fun _ => Raise OOB).

  (** qip/ext/func_apply.pyx:108-111, with set_bit (qip/ext/util.pyx:25-26) written out for an arbitrary mask *)
  Definition scatter_other (m : machine) (other : list Z) (n width value count : Z) : res Z :=
    mfold (fun acc j =>
      do q <- (if (j <? zlen other) then cget other j else u_read m j);
      do b <- (if ((width - 1) - j <? 0) then u_bit m value ((width - 1) - j) else cget_bit value ((width - 1) - j));
      if (zlen other <=? j) || ((n - 1) - q <? 0) then
        do mask <- u_mask m ((n - 1) - q);
        Ok (Z.lxor acc (Z.land (Z.lxor (- (if (b =? 0) then 0 else 1)) acc) mask))
      else cset_bit acc ((n - 1) - q) b) (zrange 0 count) 0.

  (** qip/ext/func_apply.pyx:58-60 *)
  Definition other_indices (reg1 reg2 : list Z) (n : Z) : list Z :=
    filter (fun i => negb (existsb (Z.eqb i) reg1) && negb (existsb (Z.eqb i) reg2)) (zrange 0 n).

  (** qip/ext/func_apply.pyx:88-112: the body of the loop over x, with y = f(x). Line 109 bounds the loop over
      other_indices by the size of reg2. *)
  Definition func_apply_x (m : machine) (reg1 reg2 other : list Z) (n : Z) (vec : list C) (x y : Z) (output : list C)
    : res (list C) :=
    let n_remaining := n - (zlen reg1 + zlen reg2) in
    do vec_zero_index <- scatter reg1 n (zlen reg1) x (zlen reg1);
    mfold (fun output q =>
      let reg2_value := Z.lxor y q in
      do vec_f_offset <- scatter reg2 n (zlen reg2) reg2_value (zlen reg2);
      do vec_q_offset <- scatter reg2 n (zlen reg2) q (zlen reg2);
      mfold (fun output r =>
        do vec_r_offset <- scatter_other m other n n_remaining r (zlen reg2);
        do v <- cget vec (Z.lor (Z.lor vec_zero_index vec_q_offset) vec_r_offset);
        cset output (Z.lor (Z.lor vec_zero_index vec_f_offset) vec_r_offset) v)
        (zrange 0 (2 ^ zlen other)) output) (zrange 0 (2 ^ zlen reg2)) output.

  (** qip/ext/func_apply.pyx:11-112 [func_apply]. [sched] is the order in which the parallel loop over x runs
      (the iterations write to disjoint entries); the parallel zeroing loop is a map. [func] returns a C int or
      raises; with pregen it is called for all x first. *)
  Definition func_apply (m : machine) (sched : list Z) (reg1 reg2 : list Z) (func : Z -> res Z) (vec : list C) (n : Z)
      (output : list C) (input_offset output_offset : Z) (pregen : bool) : res (list C) :=
    if negb (zlen vec =? zlen output) || negb (2 ^ n =? zlen vec) then Raise ValueError else
    if 2 ^ n <? zlen vec + input_offset then Raise ValueError else
    if 2 ^ n <? zlen output + output_offset then Raise ValueError else
    let output := map (fun _ => 0%r) output in
    let other := other_indices reg1 reg2 n in
    do f_reg1 <- (if pregen then mmap func (zrange 0 (2 ^ zlen reg1)) else Ok [0]);
    mfold (fun output x =>
      do y <- (if pregen then cget f_reg1 x else func x);
      func_apply_x m reg1 reg2 other n vec x y output) sched output.

  (** qip/backend.py:118-121: the offsets are not passed on; state and arena are swapped *)
  Definition bk_func_apply (m : machine) (sched : list Z) (b : backend K) (reg1 reg2 : list Z) (func : Z -> res Z)
      (input_offset output_offset : Z) : res (backend K) :=
    do out <- func_apply m sched reg1 reg2 func (bk_state b) (bk_n b) (bk_arena b) 0 0 true;
    Ok (mkBackend (bk_n b) out (bk_state b)).

  (** qip/operators.py:287-292: FOp.feed_indices; n lands in the input_offset parameter *)
  Definition fop_feed (m : machine) (sched : list Z) (b : backend K) (index_groups : list (list Z)) (func : Z -> res Z) (n : Z)
    : res (backend K) :=
    do reg1 <- pyget index_groups 0;
    do reg2 <- pyget index_groups 1;
    bk_func_apply m sched b reg1 reg2 func n 0.
End Func.
