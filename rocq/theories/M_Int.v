(** The kernels of qip/ext again, with C's 32-bit [int] instead of [Z]: M_Bits, M_Kron, M_Measure and M_Func read every C integer
    as an unbounded one, here each variable, argument and intermediate result has the width the .pyx files give it.
    - Arithmetic on [int] that leaves [-2^31, 2^31) and shifts by a negative amount or by more than 31 are undefined in C:
      they are [Raise OOB] here (the model's value for undefined behaviour). The left operand -1 of a shift is
      allowed, as gcc defines it.
    - A C integer stored in, or passed as, a narrower one keeps its low 32 bits: [w32].
    - A Python int passed for, or assigned to, a C [int] raises OverflowError unless it fits: [int_arg].
    - Loop bounds and counters declared [long] are unbounded (64 bits; 2**n with n <= 62). *)
From Verif Require Import Base M_Bits M_Kron M_Measure M_Func.

(** the range of a C int *)
Definition fits (z : Z) : bool := (- 2 ^ 31 <=? z) && (z <? 2 ^ 31).
Definition ck (z : Z) : res Z := if fits z then Ok z else Raise OOB.
Definition int_arg (z : Z) : res Z := if fits z then Ok z else Raise OverflowError.
Definition w32 (z : Z) : Z := (z + 2 ^ 31) mod 2 ^ 32 - 2 ^ 31.
(** x >> k and x << k for ints *)
Definition shr (x k : Z) : res Z := if (k <? 0) || (31 <? k) then Raise OOB else Ok (Z.shiftr x k).
Definition shl (x k : Z) : res Z := if (k <? 0) || (31 <? k) then Raise OOB else ck (Z.shiftl x k).

(** qip/ext/util.pyx:29-30 [get_bit] *)
Definition get_bit32 (num b : Z) : res Z := do x <- shr num b; Ok (Z.land x 1).
(** qip/ext/util.pyx:25-26 [set_bit] *)
Definition set_bit32 (num b v : Z) : res Z :=
  do mask <- shl 1 b;
  Ok (Z.lxor num (Z.land (Z.lxor (- (if (v =? 0) then 0 else 1)) num) mask)).

(** qip/ext/util.pyx:9-22: one round of the loop of [entwine_bit] *)
Definition entwine_step32 (n v_indices v_non_indices mask : Z)
    (st : Z * Z * Z * Z * Z * Z) (j : Z) : res (Z * Z * Z * Z * Z * Z) :=
  let '(m, n_indices, n_non_indices, indices_mask, non_indices_mask, bit_select) := st in
  do m <- shl m 1;
  do sel <- shr (Z.land mask bit_select) ((n - 1) - j);
  if negb (sel =? 0) then
    let n_indices := n_indices - 1 in
    do b <- shr (Z.land v_indices indices_mask) n_indices;
    do m <- ck (m + b);
    Ok (m, n_indices, n_non_indices, Z.shiftr indices_mask 1, non_indices_mask, Z.shiftr bit_select 1)
  else
    let n_non_indices := n_non_indices - 1 in
    do b <- shr (Z.land v_non_indices non_indices_mask) n_non_indices;
    do m <- ck (m + b);
    Ok (m, n_indices, n_non_indices, indices_mask, Z.shiftr non_indices_mask 1, Z.shiftr bit_select 1).
(** qip/ext/util.pyx:2-23 [entwine_bit] *)
Definition entwine_bit32 (n_indices n_non_indices v_indices v_non_indices mask : Z) : res Z :=
  do n <- ck (n_indices + n_non_indices);
  do indices_mask <- shl 1 (Z.max 0 (n_indices - 1));
  do non_indices_mask <- shl 1 (Z.max 0 (n_non_indices - 1));
  do bit_select <- shl 1 (n - 1);
  do st <- mfold (entwine_step32 n v_indices v_non_indices mask) (zrange 0 n)
             (0, n_indices, n_non_indices, indices_mask, non_indices_mask, bit_select);
  let '(m, _, _, _, _, _) := st in Ok m.

Section Int.
  Context {K : Type} {OK : OrdRing K}.
  Notation C := (Cx K).

  (** ** Matrix application *)
  (** qip/ext/kronprod.pyx:77-132: the field [param] of the struct is an int (:23) *)
  Fixpoint build_struct32 (m : mat K) : res (mstruct K) :=
    match m with
    | MNum r _ d => do p <- int_arg r; Ok (SNum p d)
    | MSwap n => do p <- int_arg n; Ok (SSwap p)
    | MC m' => do p <- int_arg (fst (mat_shape m)); do s <- build_struct32 m'; Ok (SC p s)
    | MOther _ _ _ => Raise ValueError
    end.

  (** qip/ext/kronprod.pyx:205-235 [calc_mat_entry] *)
  Fixpoint calc_mat_entry32 (m : mstruct K) (mati matj : Z) : res C :=
    match m with
    | SC param child =>
        let h := Z.shiftr param 1 in
        if (mati <? h) && (matj <? h) then (if (mati =? matj) then Ok 1%r else Ok 0%r)
        else if (h <=? mati) && (h <=? matj) then
          do i <- ck (mati - h); do j <- ck (matj - h); calc_mat_entry32 child i j
        else Ok 0%r
    | SSwap param =>
        do high <- shl (-1) param;
        do hj <- shr matj param;
        do hi <- shr mati param;
        if (Z.land mati (Z.lnot high) =? hj) && (Z.land matj (Z.lnot high) =? hi) then Ok 1%r else Ok 0%r
    | SNum param data => do a <- ck (mati * param); do a <- ck (a + matj); cget data a
    end.

  (** qip/ext/kronprod.pyx:184-189 *)
  Definition c_submat32 (n row colbits : Z) (group : list Z) : res (Z * Z) :=
    let len := zlen group in
    mfold (fun '(submati, submatj) matindexindex =>
      do matindex <- cget group matindexindex;
      do bi <- get_bit32 row ((n - 1) - matindex);
      do submati <- set_bit32 submati ((len - 1) - matindexindex) bi;
      do bj <- get_bit32 colbits ((n - 1) - matindex);
      do submatj <- set_bit32 submatj ((len - 1) - matindexindex) bj;
      Ok (submati, submatj)) (zrange 0 len) (0, 0).
  (** qip/ext/kronprod.pyx:175-194 *)
  Fixpoint c_prod32 (n row colbits : Z) (gs : list (list Z * mstruct K)) (p : C) : res C :=
    match gs with
    | [] => Ok p
    | (group, ms) :: gs =>
        do ij <- c_submat32 n row colbits group;
        do e <- calc_mat_entry32 ms (fst ij) (snd ij);
        let p := (p * e)%r in
        if cx_is0 p then Ok p else c_prod32 n row colbits gs p
    end.
  (** qip/ext/kronprod.pyx:145-148 and 158-196: input_len and two_nindices are ints, 2**nindices is computed as a long *)
  Definition c_row32 (n : Z) (gs : list (list Z * mstruct K)) (flat : list Z) (vec : list C)
      (input_offset row : Z) : res C :=
    let nindices := zlen flat in
    let input_len := w32 (zlen vec) in
    let two_nindices := w32 (2 ^ nindices) in
    do r <- mfold (fun '(s, colbits) i =>
        do colbits <- mfold (fun colbits j =>
              do indx <- cget flat j;
              do b <- get_bit32 i ((nindices - 1) - j);
              set_bit32 colbits ((n - 1) - indx) b) (zrange 0 nindices) colbits;
        do vecrow <- ck (colbits - input_offset);
        if (vecrow <? 0) || (input_len <=? vecrow) then Ok (s, colbits) else
        do p <- c_prod32 n row colbits gs 1%r;
        do v <- cget vec vecrow;
        Ok ((s + p * v)%r, colbits)) (zrange 0 two_nindices) (0%r, row);
    Ok (fst r).
  (** qip/ext/kronprod.pyx:43-200 [cdot_loop]. [sched] is the order in which the iterations of prange (:157) take
      effect: a permutation of range(output_len), where output_len (:146) is an int. *)
  Definition cdot_loop32 (sched : list Z) (indexgroups : list (list Z)) (matrices : list (mat K))
      (vec : list C) (n : Z) (output : list C) (input_offset output_offset : Z) : res (list C) :=
    match indexgroups with
    | [] => Raise ValueError
    | g0 :: _ =>
        if negb (forallb (fun g => zlen g =? zlen g0) indexgroups) then Raise ValueError else
        do n <- int_arg n;
        do input_offset <- int_arg input_offset;
        do output_offset <- int_arg output_offset;
        do structs <- mmap build_struct32 matrices;
        let flat := sorted_set (concat indexgroups) in
        mfold (fun output outputrow =>
          do row <- ck (outputrow + output_offset);
          do s <- c_row32 n (combine indexgroups structs) flat vec input_offset row;
          cset output outputrow s) sched output
    end.
  (** qip/util.py:15-67 [kronselect_dot] with dot_impl=cdot_loop *)
  Definition kronselect_dot32 (mats : mats_arg K) (vec : list C) (n : Z) (outputarray : list C)
      (input_offset output_offset : Z) (sched : list Z) : res (list C) :=
    if 2 ^ n <? zlen vec + input_offset then Raise ValueError else
    if 2 ^ n <? zlen outputarray + output_offset then Raise ValueError else
    do newmats <- norm_mats mats;
    cdot_loop32 sched (map fst newmats) (map snd newmats) vec n outputarray input_offset output_offset.

  (** ** Measurement *)
  (** qip/ext/kronprod.pyx:288-290, 368-369, 432-433, 479-480 *)
  Definition make_row_mask32 (indices : list Z) (n : Z) : res Z :=
    mfold (fun row_mask q => set_bit32 row_mask ((n - 1) - q) 1) indices 0.

  (** qip/ext/kronprod.pyx:240-261 [measure_probabilities]: i and j are longs, passed as ints to get_bit and set_bit *)
  Definition measure_probabilities32 (indices : list Z) (n : Z) (vec : list C) : res (list K) :=
    let measure_p := map (fun _ => 0%r) (zrange 0 (2 ^ zlen indices)) in
    do n <- int_arg n;
    mfold (fun p i =>
      do vec_val <- cget vec i;
      if cx_is0 vec_val then Ok p else
      do p_index <- mfold (fun p_index j =>
            do q <- cget indices j;
            do b <- get_bit32 (w32 i) ((n - 1) - q);
            set_bit32 p_index (w32 j) b) (zrange 0 (zlen indices)) 0;
      do old <- cget p p_index;
      cset p p_index (old + cnorm2 vec_val)%r) (zrange 0 (2 ^ n)) measure_p.

  (** qip/ext/kronprod.pyx:320-326 [prob_magnitude]: i is an int, the bound is not *)
  Definition prob_magnitude32 (acc0 : K) (vec : list C) : res K :=
    mfold (fun acc i => do x <- cget vec (w32 i); Ok (acc + cnorm2 x)%r) (zrange 0 (zlen vec)) acc0.

  (** qip/ext/kronprod.pyx:372-376; n_unmeasured_indices (:346) is an int *)
  Definition outcome_prob32 (len_indices len_remaining : Z) (row_mask : Z) (vec : list C) (input_offset p_index : Z)
    : res K :=
    mfold (fun acc i =>
      do vec_index <- entwine_bit32 len_indices len_remaining p_index i row_mask;
      if (input_offset <=? vec_index) && (vec_index <? zlen vec + input_offset) then
        do a <- ck (vec_index - input_offset);
        do x <- cget vec a; Ok (acc + cnorm2 x)%r
      else Ok acc) (zrange 0 (w32 (2 ^ len_remaining))) 0%r.

  (** qip/ext/kronprod.pyx:331-383 [soft_measure]; n_measured_indices (:345), to_measure_low and to_measure_high are
      ints, the latter two converted from Python ints when [measured] is given *)
  Definition soft_measure32 (rand acc0 : K) (indices : list Z) (n : Z) (vec : list C) (measured : option Z)
      (input_offset : Z) : res (Z * K) :=
    do n <- int_arg n;
    do input_offset <- int_arg input_offset;
    let len_indices := zlen indices in
    let len_remaining_indices := n - len_indices in
    do range <- (match measured with
                 | None => Ok (0, w32 (2 ^ len_indices))
                 | Some m => do low <- int_arg m; do high <- int_arg (m + 1); Ok (low, high) end);
    do r <- (if len_indices <? 2 ^ n then do s <- prob_magnitude32 acc0 vec; Ok (rand * s)%r else Ok rand);
    do row_mask <- make_row_mask32 indices n;
    soft_loop (outcome_prob32 len_indices len_remaining_indices row_mask vec input_offset)
      (zrange (fst range) (snd range)) r (0, 0%r).

  (** qip/ext/kronprod.pyx:424-427 and 472-475: m is an int *)
  Definition choose32 (rand acc0 : K) (indices : list Z) (n : Z) (vec : list C) (measured : option Z)
      (measured_prob : option K) (input_offset : Z) : res (Z * K) :=
    match measured, measured_prob with
    | Some m, Some p => do m <- int_arg m; Ok (m, p)
    | _, _ => soft_measure32 rand acc0 indices n vec measured input_offset
    end.

  (** qip/ext/kronprod.pyx:388-446 [measure]; vec_end and out_end (:415-416) are ints *)
  Definition measure32 (rsqrt : K -> K) (rand acc0 : K) (indices : list Z) (n : Z) (vec out : list C)
      (input_offset output_offset : Z) (measured : option Z) (measured_prob : option K)
    : res ((Z * K) * list C) :=
    do n <- int_arg n;
    do input_offset <- int_arg input_offset;
    do output_offset <- int_arg output_offset;
    if bad_measured indices measured then Raise ValueError else
    if bad_prob measured_prob then Raise ValueError else
    let n_indices := zlen indices in
    let n_non_indices := n - n_indices in
    let vec_end := w32 (input_offset + zlen vec) in
    let out_end := w32 (output_offset + zlen out) in
    do mp <- choose32 rand acc0 indices n vec measured measured_prob input_offset;
    do mult_p <- mult rsqrt (snd mp);
    do row_mask <- make_row_mask32 indices n;
    do measured_entwine <- entwine_bit32 n_indices n_non_indices (fst mp) 0 row_mask;
    do out <- mfold (fun out i =>
        if negb (Z.lxor (Z.land i row_mask) measured_entwine =? 0) then
          do a <- ck (i - output_offset); cset out a 0%r
        else
          do a <- ck (i - input_offset); do x <- cget vec a;
          do a <- ck (i - output_offset); cset out a (x * creal mult_p)%r)
      (zrange (Z.max input_offset output_offset) (Z.min vec_end out_end)) out;
    Ok (mp, out).

  (** qip/ext/kronprod.pyx:451-490 [reduce_measure]; n_out (:466) is an int *)
  Definition reduce_measure32 (rsqrt : K -> K) (rand acc0 : K) (indices : list Z) (n : Z) (vec out : list C)
      (input_offset output_offset : Z) (measured : option Z) (measured_prob : option K)
    : res ((Z * K) * list C) :=
    do n <- int_arg n;
    do input_offset <- int_arg input_offset;
    do output_offset <- int_arg output_offset;
    if bad_measured indices measured then Raise ValueError else
    if bad_prob measured_prob then Raise ValueError else
    let n_indices := zlen indices in
    let n_non_indices := n - n_indices in
    let n_out := w32 (zlen out) in
    do mp <- choose32 rand acc0 indices n vec measured measured_prob input_offset;
    do mult_p <- mult rsqrt (snd mp);
    do row_mask <- make_row_mask32 indices n;
    do out_end <- ck (n_out + output_offset);
    do out <- mfold (fun out i =>
        do vec_row <- entwine_bit32 n_indices n_non_indices (fst mp) i row_mask;
        do lim <- ck (n_indices + vec_row);
        do o <- ck (i - output_offset);
        if (vec_row <? input_offset) || (lim <? vec_row) then cset out o 0%r
        else do a <- ck (vec_row - input_offset); do x <- cget vec a; cset out o (x * creal mult_p)%r)
      (zrange output_offset out_end) out;
    Ok (mp, out).

  (** qip/ext/kronprod.pyx:266-315 [measure_top_probabilities]; top_k is an int, m and j are longs passed as ints *)
  Definition measure_top_probabilities32 (indices : list Z) (n top_k : Z) (vec : list C)
    : res (list Z * list K) :=
    do n <- int_arg n;
    do top_k <- int_arg top_k;
    let top_k := Z.min top_k (2 ^ zlen indices) in
    if top_k <? 0 then Raise ValueError else
    let len_indices := zlen indices in
    let len_nonindices := n - len_indices in
    do st <- mfold (fun '(ms, ps, heap_end) m =>
        do row_mask <- make_row_mask32 indices n;
        do vec_prob <- mfold (fun vec_prob j =>
              do vec_index <- entwine_bit32 len_indices len_nonindices (w32 m) (w32 j) row_mask;
              do x <- cget vec vec_index;
              Ok (vec_prob + cnorm2 x)%r) (zrange 0 (2 ^ len_nonindices)) 0%r;
        let heap_pos := heap_end in
        do old <- cget ps heap_pos;
        do mps <- (if rleb old vec_prob then
                     do ms <- cset ms heap_pos m;
                     do ps <- cset ps heap_pos vec_prob;
                     bubble (Z.to_nat heap_pos) ms ps heap_pos
                   else Ok (ms, ps));
        Ok (fst mps, snd mps, if heap_end <? top_k then heap_end + 1 else heap_end))
      (zrange 0 (2 ^ len_indices))
      (map (fun _ => 0) (zrange 0 top_k), map (fun _ => 0%r) (zrange 0 top_k), 0);
    let '(ms, ps, _) := st in
    let l := sort_desc (combine ms ps) in
    if top_k =? 0 then Raise ValueError else Ok (map fst l, map snd l).

  (** ** F(f) *)
  (** qip/ext/func_apply.pyx:81-85, 93-97 and 99-103 *)
  Definition scatter32 (indices : list Z) (n width value count : Z) : res Z :=
    mfold (fun acc j =>
      do q <- cget indices j;
      do b <- get_bit32 value ((width - 1) - j);
      set_bit32 acc ((n - 1) - q) b) (zrange 0 count) 0.
  (** qip/ext/func_apply.pyx:108-111; [m] as in M_Func: what happens where the loop leaves the array *)
  Definition scatter_other32 (m : machine) (other : list Z) (n width value count : Z) : res Z :=
    mfold (fun acc j =>
      do q <- (if (j <? zlen other) then cget other j else u_read m j);
      do b <- (if ((width - 1) - j <? 0) then u_bit m value ((width - 1) - j) else get_bit32 value ((width - 1) - j));
      if (zlen other <=? j) || ((n - 1) - q <? 0) then
        do mask <- u_mask m ((n - 1) - q);
        Ok (Z.lxor acc (Z.land (Z.lxor (- (if (b =? 0) then 0 else 1)) acc) mask))
      else set_bit32 acc ((n - 1) - q) b) (zrange 0 count) 0.
  (** qip/ext/func_apply.pyx:88-112; the loop variables q and r are ints, their bounds are longs *)
  Definition func_apply_x32 (m : machine) (reg1 reg2 other : list Z) (n : Z) (vec : list C) (x y : Z) (output : list C)
    : res (list C) :=
    let n_remaining := n - (zlen reg1 + zlen reg2) in
    do vec_zero_index <- scatter32 reg1 n (zlen reg1) x (zlen reg1);
    mfold (fun output q =>
      let reg2_value := Z.lxor y (w32 q) in
      do vec_f_offset <- scatter32 reg2 n (zlen reg2) reg2_value (zlen reg2);
      do vec_q_offset <- scatter32 reg2 n (zlen reg2) (w32 q) (zlen reg2);
      mfold (fun output r =>
        do vec_r_offset <- scatter_other32 m other n n_remaining (w32 r) (zlen reg2);
        do v <- cget vec (Z.lor (Z.lor vec_zero_index vec_q_offset) vec_r_offset);
        cset output (Z.lor (Z.lor vec_zero_index vec_f_offset) vec_r_offset) v)
        (zrange 0 (2 ^ zlen other)) output) (zrange 0 (2 ^ zlen reg2)) output.
  (** qip/ext/func_apply.pyx:11-112 [func_apply]. The value of the Python function is stored in an int32 array (:69) or
      in an int (:78). The zeroing loop (:42-44) has an int counter. *)
  Definition func_apply32 (m : machine) (sched : list Z) (reg1 reg2 : list Z) (func : Z -> res Z) (vec : list C) (n : Z)
      (output : list C) (input_offset output_offset : Z) (pregen : bool) : res (list C) :=
    do n <- int_arg n;
    do input_offset <- int_arg input_offset;
    do output_offset <- int_arg output_offset;
    if negb (zlen vec =? zlen output) || negb (2 ^ n =? zlen vec) then Raise ValueError else
    if 2 ^ n <? zlen vec + input_offset then Raise ValueError else
    if 2 ^ n <? zlen output + output_offset then Raise ValueError else
    do output <- mfold (fun output i => cset output (w32 i) 0%r) (zrange 0 (2 ^ n)) output;
    let other := other_indices reg1 reg2 n in
    do f_reg1 <- (if pregen then mmap (fun x => do y <- func (w32 x); int_arg y) (zrange 0 (2 ^ zlen reg1)) else Ok [0]);
    mfold (fun output x =>
      do y <- (if pregen then cget f_reg1 (w32 x) else do y <- func (w32 x); int_arg y);
      func_apply_x32 m reg1 reg2 other n vec (w32 x) y output) sched output.
End Int.
