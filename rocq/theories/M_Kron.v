(** Model of the matrix application: qip/util.py (kronselect_dot, dot_loop, ...),
    qip/ext/kronprod.pyx (cdot_loop, calc_mat_entry), and the matrix objects of qip/operators.py. *)
From Verif Require Import Base M_Bits.

Section Kron.
  Context {K : Type} {OK : OrdRing K}.
  Notation C := (Cx K).

  (** ** Matrix objects *)
  (** - [MNum rows cols data]: a 2-d numpy array, row-major (nested lists are turned into one by
        qip/util.py:45-46,51-52 and qip/operators.py:237-238, so they are not distinguished);
      - [MC m]: CMat(m), qip/operators.py:233-268;
      - [MSwap n]: SwapMat(n), qip/operators.py:157-179;
      - [MOther rows cols get]: any other object with a shape and an item getter. *)
  Inductive mat :=
  | MNum (rows cols : Z) (data : list C)
  | MC (m : mat)
  | MSwap (n : Z)
  | MOther (rows cols : Z) (get : Z -> Z -> res C).

  (** [m.shape]; qip/operators.py:167 and :241 *)
  Fixpoint mat_shape (m : mat) : Z * Z :=
    match m with
    | MNum r c _ => (r, c)
    | MC m => (fst (mat_shape m) * 2, snd (mat_shape m) * 2)
    | MSwap n => (2 ^ (2 * n), 2 ^ (2 * n))
    | MOther r c _ => (r, c)
    end.

  (** numpy item access on one axis: negative indices wrap, IndexError outside *)
  Definition np_index (len i : Z) : res Z :=
    let j := if (i <? 0) then i + len else i in
    if (j <? 0) || (len <=? j) then Raise IndexError else Ok j.

  (** [m[i, j]] as Python evaluates it; qip/operators.py:169-176 (SwapMat), :243-254 (CMat).
      The float divisions shape[0]/2 of CMat are exact (shape[0] = 2 * m.shape[0]). *)
  Fixpoint mat_get (m : mat) (i j : Z) : res C :=
    match m with
    | MNum r c d => do i <- np_index r i; do j <- np_index c j; cget d (i * c + j)
    | MC m =>
        let (h0, h1) := mat_shape m in
        if (i <? h0) && (j <? h1) then Ok (if (i =? j) then 1%r else 0%r)
        else if (h0 <=? i) && (h1 <=? j) then mat_get m (i - h0) (j - h1)
        else Ok 0%r
    | MSwap n =>
        let low_a := Z.land i (Z.lnot (Z.shiftl (-1) n)) in
        let high_a := Z.shiftr i n in
        let low_b := Z.land j (Z.lnot (Z.shiftl (-1) n)) in
        let high_b := Z.shiftr j n in
        Ok (if (low_a =? high_b) && (low_b =? high_a) then 1%r else 0%r)
    | MOther _ _ get => get i j
    end.

  (** ** Dictionaries from index groups to matrices, in insertion order *)
  (** Keys of the [mats] argument: an int, a tuple of ints, or anything else. *)
  Inductive key := KInt (i : Z) | KTuple (l : list Z) | KOther.
  Definition mats_arg := list (key * mat).
  Definition mats_t := list (list Z * mat).

  Fixpoint zlist_eqb (a b : list Z) : bool :=
    match a, b with
    | [], [] => true
    | x :: a, y :: b => (x =? y) && zlist_eqb a b
    | _, _ => false
    end.
  (** Python [d[k] = v]: keeps the position of an existing key *)
  Fixpoint dict_set (d : mats_t) (k : list Z) (v : mat) : mats_t :=
    match d with
    | [] => [(k, v)]
    | (k', v') :: d => if zlist_eqb k' k then (k', v) :: d else (k', v') :: dict_set d k v
    end.
  Fixpoint dict_get (d : mats_t) (k : list Z) : res mat :=
    match d with
    | [] => Raise KeyError
    | (k', v') :: d => if zlist_eqb k' k then Ok v' else dict_get d k
    end.

  (** [sorted(set(...))] *)
  Fixpoint insert_uniq (x : Z) (l : list Z) : list Z :=
    match l with
    | [] => [x]
    | y :: l' => if (x <? y) then x :: l else if (x =? y) then l else y :: insert_uniq x l'
    end.
  Definition sorted_set (l : list Z) : list Z := fold_left (fun acc x => insert_uniq x acc) l [].

  (** [d[k]] for the dictionary of bit pairs built by gen_valid_col_and_matcol *)
  Fixpoint bits_get (d : list (Z * (Z * Z))) (k : Z) : res (Z * Z) :=
    match d with
    | [] => Raise KeyError
    | (k', v) :: d => if (k' =? k) then Ok v else bits_get d k
    end.

  (** for j, x in enumerate(l) *)
  Definition enumerate {A} (l : list A) : list (Z * A) := combine (zrange 0 (zlen l)) l.

  (** qip/util.py:96-105 [gen_valid_col_and_matcol]; the generator's list of yields. The list
      [colbits] is shared by all iterations, as in the code. *)
  Definition gen_valid_col_and_matcol (row : Z) (matindices : list Z) (n : Z)
    : res (list ((Z * Z) * list (Z * (Z * Z)))) :=
    let rowbits := uint_to_bitarray row n in
    do matrow <- mmap (fun indx => pyget rowbits indx) matindices;
    do r <- mfold (fun '(colbits, acc) i =>
        let matcol := uint_to_bitarray i (zlen matindices) in
        do colbits <- mfold (fun colbits '(j, indx) =>
                         do b <- pyget matcol j; pyset colbits indx b)
                       (enumerate matindices) colbits;
        do c <- bitarray_to_uint colbits;
        do d <- mmap (fun '(j, item) => do q <- pyget matindices j; Ok (q, item))
                   (enumerate (combine matrow matcol));
        Ok (colbits, acc ++ [((row, c), d)]))
      (zrange 0 (2 ^ zlen matindices)) (rowbits, []);
    Ok (snd r).

  (** qip/util.py:70-93 [dot_loop] *)
  Definition dot_loop (mats : mats_t) (vec : list C) (n : Z) (output : list C)
      (input_offset output_offset : Z) : res (list C) :=
    let allindices := map fst mats in
    let flatindices := sorted_set (concat allindices) in
    mfold (fun output outputrow =>
      let row := outputrow + output_offset in
      do gen <- gen_valid_col_and_matcol row flatindices n;
      do s <- mfold (fun s '((r, c), mijs) =>
          let input_col := c - input_offset in
          if (input_col <? 0) || (zlen vec <=? input_col) then Ok s else
          do p <- mfold (fun p indices =>
              do m <- dict_get mats indices;
              do is_ <- mmap (fun index => do ij <- bits_get mijs index; Ok (fst ij)) indices;
              do js <- mmap (fun index => do ij <- bits_get mijs index; Ok (snd ij)) indices;
              do submati <- bitarray_to_uint is_;
              do submatj <- bitarray_to_uint js;
              do e <- mat_get m submati submatj;
              Ok (p * e)%r) allindices 1%r;
          do v <- pyget vec input_col;
          Ok (s + p * v)%r) gen 0%r;
      pyset output outputrow s) (zrange 0 (zlen output)) output.

  (** ** Cython side *)
  (** C struct MatStruct, qip/ext/kronprod.pyx:21-25. The pointer of a C_MAT struct (to the struct of
      its child in the same malloc'ed array) is modelled as the child itself. *)
  Inductive mstruct :=
  | SNum (param : Z) (data : list C)
  | SSwap (param : Z)
  | SC (param : Z) (child : mstruct).

  (** qip/ext/kronprod.pyx:77-132: conversion of one matrix to its struct *)
  Fixpoint build_struct (m : mat) : res mstruct :=
    match m with
    | MNum r _ d => Ok (SNum r d)
    | MSwap n => Ok (SSwap n)
    | MC m' => do s <- build_struct m'; Ok (SC (fst (mat_shape m)) s)
    | MOther _ _ _ => Raise ValueError
    end.

  (** qip/ext/kronprod.pyx:205-235 [calc_mat_entry] *)
  Fixpoint calc_mat_entry (m : mstruct) (mati matj : Z) : res C :=
    match m with
    | SC param child =>
        if (mati <? Z.shiftr param 1) && (matj <? Z.shiftr param 1) then
          if (mati =? matj) then Ok 1%r else Ok 0%r
        else if (Z.shiftr param 1 <=? mati) && (Z.shiftr param 1 <=? matj) then
          calc_mat_entry child (mati - Z.shiftr param 1) (matj - Z.shiftr param 1)
        else Ok 0%r
    | SSwap param =>
        if (Z.land mati (Z.lnot (Z.shiftl (-1) param)) =? Z.shiftr matj param) &&
           (Z.land matj (Z.lnot (Z.shiftl (-1) param)) =? Z.shiftr mati param)
        then Ok 1%r else Ok 0%r
    | SNum param data => cget data (mati * param + matj)
    end.

  (** C shifts by a negative amount are undefined behaviour *)
  Definition cget_bit (num b : Z) : res Z := if (b <? 0) then Raise OOB else Ok (get_bit num b).
  Definition cset_bit (num b v : Z) : res Z := if (b <? 0) then Raise OOB else Ok (set_bit num b v).

  (** qip/ext/kronprod.pyx:184-189: (submati, submatj) of one index group *)
  Definition c_submat (n row colbits : Z) (group : list Z) : res (Z * Z) :=
    let len := zlen group in
    mfold (fun '(submati, submatj) matindexindex =>
      do matindex <- cget group matindexindex;
      do bi <- cget_bit row ((n - 1) - matindex);
      do submati <- cset_bit submati ((len - 1) - matindexindex) bi;
      do bj <- cget_bit colbits ((n - 1) - matindex);
      do submatj <- cset_bit submatj ((len - 1) - matindexindex) bj;
      Ok (submati, submatj)) (zrange 0 len) (0, 0).

  (** qip/ext/kronprod.pyx:175-194: product over the index groups, left early when it is zero *)
  Fixpoint c_prod (n row colbits : Z) (gs : list (list Z * mstruct)) (p : C) : res C :=
    match gs with
    | [] => Ok p
    | (group, ms) :: gs =>
        do ij <- c_submat n row colbits group;
        do e <- calc_mat_entry ms (fst ij) (snd ij);
        let p := (p * e)%r in
        if cx_is0 p then Ok p else c_prod n row colbits gs p
    end.

  (** qip/ext/kronprod.pyx:158-196: the value of one output row; state (s, colbits) *)
  Definition c_row (n : Z) (gs : list (list Z * mstruct)) (flat : list Z) (vec : list C)
      (input_offset row : Z) : res C :=
    let nindices := zlen flat in
    do r <- mfold (fun '(s, colbits) i =>
        do colbits <- mfold (fun colbits j =>
              do indx <- cget flat j;
              do b <- cget_bit i ((nindices - 1) - j);
              cset_bit colbits ((n - 1) - indx) b) (zrange 0 nindices) colbits;
        let vecrow := colbits - input_offset in
        if (vecrow <? 0) || (zlen vec <=? vecrow) then Ok (s, colbits) else
        do p <- c_prod n row colbits gs 1%r;
        do v <- cget vec vecrow;
        Ok ((s + p * v)%r, colbits)) (zrange 0 (2 ^ nindices)) (0%r, row);
    Ok (fst r).

  (** qip/ext/kronprod.pyx:43-200 [cdot_loop]. The parameter int[:,:] indexgroups only accepts a
      non-empty rectangular table, otherwise the call raises ValueError. [sched] is the order in which
      the iterations of prange (:157) take effect: any permutation of the rows (each iteration has its
      own s, p, colbits, ... and writes its own cell; vec is not aliased with output). *)
  Definition cdot_loop (sched : list Z) (indexgroups : list (list Z)) (matrices : list mat)
      (vec : list C) (n : Z) (output : list C) (input_offset output_offset : Z) : res (list C) :=
    match indexgroups with
    | [] => Raise ValueError
    | g0 :: _ =>
        if negb (forallb (fun g => zlen g =? zlen g0) indexgroups) then Raise ValueError else
        do structs <- mmap build_struct matrices;
        let flat := sorted_set (concat indexgroups) in
        mfold (fun output outputrow =>
          do s <- c_row n (combine indexgroups structs) flat vec input_offset (outputrow + output_offset);
          cset output outputrow s) sched output
    end.

  (** ** kronselect_dot *)
  (** the argument dot_impl: None, or cdot_loop (with its prange schedule) *)
  Inductive impl := Python | Cython (sched : list Z).

  (** qip/util.py:35-58: normalisation and shape check of the dictionary *)
  Definition norm_mats (mats : mats_arg) : res mats_t :=
    mfold (fun newmats '(indices, m) =>
      match indices with
      | KOther => Raise GenericException
      | KTuple l =>
          let (r, c) := mat_shape m in
          if negb (2 ^ zlen l =? r) || negb (2 ^ zlen l =? c) then Raise GenericException
          else Ok (dict_set newmats l m)
      | KInt i =>
          let (r, c) := mat_shape m in
          if negb (2 ^ 1 =? r) || negb (2 ^ 1 =? c) then Raise GenericException
          else Ok (dict_set newmats [i] m)
      end) mats [].

  (** qip/util.py:15-67 [kronselect_dot]; the result is the final content of outputarray *)
  Definition kronselect_dot (mats : mats_arg) (vec : list C) (n : Z) (outputarray : list C)
      (input_offset output_offset : Z) (dot_impl : impl) : res (list C) :=
    if 2 ^ n <? zlen vec + input_offset then Raise ValueError else
    if 2 ^ n <? zlen outputarray + output_offset then Raise ValueError else
    do newmats <- norm_mats mats;
    match dot_impl with
    | Cython sched =>
        cdot_loop sched (map fst newmats) (map snd newmats) vec n outputarray input_offset output_offset
    | Python => dot_loop newmats vec n outputarray input_offset output_offset
    end.

  (** qip/util.py:127-134 [expand_kron_matrix]: the rows of the result, in order. The matrices are
      first copied into dense numpy arrays (numpy.array of a CMat/SwapMat object is outside the model:
      [MC]/[MSwap]/[MOther] entries raise TypeError). *)
  Definition expand_kron_matrix (mats : mats_arg) (n : Z) : res (list (list C)) :=
    do mats <- mmap (fun '(k, m) => match m with MNum _ _ _ => Ok (k, m) | _ => Raise TypeError end) mats;
    mmap (fun i =>
      let v := map (fun j => if (j =? i) then 1%r else 0%r) (zrange 0 (2 ^ n)) in
      kronselect_dot mats v n (map (fun _ => 0%r) (zrange 0 (2 ^ n))) 0 0 Python)
      (zrange 0 (2 ^ n)).
End Kron.
Arguments mat K : clear implicits.
Arguments mats_arg K : clear implicits.
Arguments mats_t K : clear implicits.
Arguments mstruct K : clear implicits.
