(** Model of the measurement functions: qip/ext/kronprod.pyx:238-490 and the methods of
    qip/backend.py CythonBackend that call them. C [int]s are [Z] (no overflow), C doubles are elements of an
    ordered ring, [abs(z)**2] is [cnorm2 z]. Memory accesses are bounds-checked: an access outside an array is
    [Raise OOB] (boundscheck is off in the code, so it would be undefined behaviour). *)
From Verif Require Import Base M_Bits M_Kron M_Feed.

Section Measure.
  Context {K : Type} {OK : OrdRing K}.
  Notation C := (Cx K).

  (** row_mask: qip/ext/kronprod.pyx:288-290, 368-369, 432-433, 479-480 *)
  Definition make_row_mask (indices : list Z) (n : Z) : res Z :=
    mfold (fun row_mask q => cset_bit row_mask ((n - 1) - q) 1) indices 0.

  (** qip/ext/kronprod.pyx:240-261 [measure_probabilities] *)
  Definition measure_probabilities (indices : list Z) (n : Z) (vec : list C) : res (list K) :=
    let measure_p := map (fun _ => 0%r) (zrange 0 (2 ^ zlen indices)) in
    mfold (fun p i =>
      do vec_val <- cget vec i;
      if cx_is0 vec_val then Ok p else
      do p_index <- mfold (fun p_index j =>
            do q <- cget indices j;
            do b <- cget_bit i ((n - 1) - q);
            cset_bit p_index j b) (zrange 0 (zlen indices)) 0;
      do old <- cget p p_index;
      cset p p_index (old + cnorm2 vec_val)%r) (zrange 0 (2 ^ n)) measure_p.

  (** qip/ext/kronprod.pyx:320-326 [prob_magnitude]; [acc0] is the initial content of the C variable acc,
      which the code does not initialise *)
  Definition prob_magnitude (acc0 : K) (vec : list C) : K :=
    fold_left (fun acc x => acc + cnorm2 x)%r vec acc0.

  (** qip/ext/kronprod.pyx:372-376: the probability of outcome p_index in the slice vec *)
  Definition outcome_prob (len_indices len_remaining : Z) (row_mask : Z) (vec : list C) (input_offset p_index : Z)
    : res K :=
    mfold (fun acc i =>
      let vec_index := entwine_bit len_indices len_remaining p_index i row_mask in
      if (input_offset <=? vec_index) && (vec_index <? zlen vec + input_offset) then
        do x <- cget vec (vec_index - input_offset); Ok (acc + cnorm2 x)%r
      else Ok acc) (zrange 0 (2 ^ len_remaining)) 0%r.

  (** qip/ext/kronprod.pyx:371-382: the loop over outcomes, left when r <= 0; the variables keep the last values otherwise *)
  Fixpoint soft_loop (prob : Z -> res K) (outcomes : list Z) (r : K) (last : Z * K) : res (Z * K) :=
    match outcomes with
    | [] => Ok last
    | p_index :: outcomes =>
        do acc <- prob p_index;
        let r := (r - acc)%r in
        if rleb r 0%r then Ok (p_index, acc) else soft_loop prob outcomes r (p_index, acc)
    end.

  (** qip/ext/kronprod.pyx:331-383 [soft_measure]. [rand] is the value random.random() returns. The unused
      iter_num = 2**vec.shape[0] (:342) is left out. *)
  Definition soft_measure (rand acc0 : K) (indices : list Z) (n : Z) (vec : list C) (measured : option Z)
      (input_offset : Z) : res (Z * K) :=
    let len_indices := zlen indices in
    let len_remaining_indices := n - len_indices in
    let '(low, high) := match measured with
                        | None => (0, 2 ^ len_indices)
                        | Some m => (m, m + 1) end in
    let r := if len_indices <? 2 ^ n then (rand * prob_magnitude acc0 vec)%r else rand in
    do row_mask <- make_row_mask indices n;
    soft_loop (outcome_prob len_indices len_remaining_indices row_mask vec input_offset)
      (zrange low high) r (0, 0%r).

  (** qip/ext/kronprod.pyx:402-407 and 453-458, argument checks *)
  Definition bad_measured (indices : list Z) (measured : option Z) : bool :=
    match measured with Some m => negb ((0 <=? m) && (m <? 2 ^ zlen indices)) | None => false end.
  Definition bad_prob (measured_prob : option K) : bool :=
    match measured_prob with Some p => negb (negb (rleb p 0%r) && rleb p 1%r) | None => false end.

  (** qip/ext/kronprod.pyx:424-427 and 472-475: m, p = soft_measure(...) unless both are given *)
  Definition choose (rand acc0 : K) (indices : list Z) (n : Z) (vec : list C) (measured : option Z)
      (measured_prob : option K) (input_offset : Z) : res (Z * K) :=
    match measured, measured_prob with
    | Some m, Some p => Ok (m, p)
    | _, _ => soft_measure rand acc0 indices n vec measured input_offset
    end.

  (** [rsqrt p] stands for np.sqrt(1.0 / p) (qip/ext/kronprod.pyx:428, 476); the division raises ZeroDivisionError for p = 0 *)
  Definition mult (rsqrt : K -> K) (p : K) : res K :=
    if reqb p 0%r then Raise ZeroDivisionError else Ok (rsqrt p).

  (** qip/ext/kronprod.pyx:388-446 [measure]; the result is (m, p) and the final content of out *)
  Definition measure (rsqrt : K -> K) (rand acc0 : K) (indices : list Z) (n : Z) (vec out : list C)
      (input_offset output_offset : Z) (measured : option Z) (measured_prob : option K)
    : res ((Z * K) * list C) :=
    if bad_measured indices measured then Raise ValueError else
    if bad_prob measured_prob then Raise ValueError else
    let n_indices := zlen indices in
    let n_non_indices := n - n_indices in
    let vec_end := input_offset + zlen vec in
    let out_end := output_offset + zlen out in
    do mp <- choose rand acc0 indices n vec measured measured_prob input_offset;
    do mult_p <- mult rsqrt (snd mp);
    do row_mask <- make_row_mask indices n;
    let measured_entwine := entwine_bit n_indices n_non_indices (fst mp) 0 row_mask in
    do out <- mfold (fun out i =>
        if negb (Z.lxor (Z.land i row_mask) measured_entwine =? 0) then cset out (i - output_offset) 0%r
        else do x <- cget vec (i - input_offset); cset out (i - output_offset) (x * creal mult_p)%r)
      (zrange (Z.max input_offset output_offset) (Z.min vec_end out_end)) out;
    Ok (mp, out).

  (** qip/ext/kronprod.pyx:451-490 [reduce_measure] *)
  Definition reduce_measure (rsqrt : K -> K) (rand acc0 : K) (indices : list Z) (n : Z) (vec out : list C)
      (input_offset output_offset : Z) (measured : option Z) (measured_prob : option K)
    : res ((Z * K) * list C) :=
    if bad_measured indices measured then Raise ValueError else
    if bad_prob measured_prob then Raise ValueError else
    let n_indices := zlen indices in
    let n_non_indices := n - n_indices in
    do mp <- choose rand acc0 indices n vec measured measured_prob input_offset;
    do mult_p <- mult rsqrt (snd mp);
    do row_mask <- make_row_mask indices n;
    do out <- mfold (fun out i =>
        let vec_row := entwine_bit n_indices n_non_indices (fst mp) i row_mask in
        if (vec_row <? input_offset) || (n_indices + vec_row <? vec_row) then cset out (i - output_offset) 0%r
        else do x <- cget vec (vec_row - input_offset); cset out (i - output_offset) (x * creal mult_p)%r)
      (zrange output_offset (zlen out + output_offset)) out;
    Ok (mp, out).

  (** ** Top-k *)
  (** qip/ext/kronprod.pyx:303-308: the while loop bubbling the entry at heap_pos up; [fuel] bounds the iterations *)
  Fixpoint bubble (fuel : nat) (ms : list Z) (ps : list K) (heap_pos : Z) : res (list Z * list K) :=
    if (heap_pos <=? 0) then Ok (ms, ps) else
    let heap_parent := Z.shiftr (heap_pos - 1) 1 in
    do a <- cget ps heap_pos;
    do b <- cget ps heap_parent;
    if rleb a b then Ok (ms, ps) else
    match fuel with
    | O => Raise OutOfFuel
    | S fuel =>
        do ma <- cget ms heap_pos;
        do mb <- cget ms heap_parent;
        do ms <- cset ms heap_pos mb;
        do ms <- cset ms heap_parent ma;
        do ps <- cset ps heap_pos b;
        do ps <- cset ps heap_parent a;
        bubble fuel ms ps heap_parent
    end.
  (** qip/ext/kronprod.pyx:313 sorted(..., key=lambda t: t[1], reverse=True): stable, largest first *)
  Fixpoint insert_desc (x : Z * K) (l : list (Z * K)) : list (Z * K) :=
    match l with
    | [] => [x]
    | y :: l' => if rleb (snd x) (snd y) then y :: insert_desc x l' else x :: l
    end.
  Definition sort_desc (l : list (Z * K)) : list (Z * K) := fold_left (fun acc x => insert_desc x acc) l [].

  (** qip/ext/kronprod.pyx:266-315 [measure_top_probabilities]. zip of an empty list cannot be unpacked into
      two values: ValueError; numpy.zeros of a negative size: ValueError. *)
  Definition measure_top_probabilities (indices : list Z) (n top_k : Z) (vec : list C)
    : res (list Z * list K) :=
    let top_k := Z.min top_k (2 ^ zlen indices) in
    if top_k <? 0 then Raise ValueError else
    let len_indices := zlen indices in
    let len_nonindices := n - len_indices in
    do st <- mfold (fun '(ms, ps, heap_end) m =>
        do row_mask <- make_row_mask indices n;
        do vec_prob <- mfold (fun vec_prob j =>
              do x <- cget vec (entwine_bit len_indices len_nonindices m j row_mask);
              Ok (vec_prob + cnorm2 x)%r) (zrange 0 (2 ^ len_nonindices)) 0%r;
        let heap_pos := heap_end in
        do old <- cget ps heap_pos;
        do mps <- (if rleb old vec_prob then
                     do ms <- cset ms heap_pos m;
                     do ps <- cset ps heap_pos vec_prob;
                     bubble (Z.to_nat heap_pos) ms ps heap_pos
                   else Ok (ms, ps));
        Ok (fst mps, snd mps, if heap_end <? top_k then heap_end + 1 else heap_end))
      (zrange 0 (2 ^ len_indices))
      (map (fun _ => 0) (zrange 0 top_k), map (fun _ => 0%r) (zrange 0 top_k), 0);
    let '(ms, ps, _) := st in
    let l := sort_desc (combine ms ps) in
    if top_k =? 0 then Raise ValueError else Ok (map fst l, map snd l).

  (** ** Methods of CythonBackend *)
  (** qip/backend.py:123-124 *)
  Definition bk_total_prob (acc0 : K) (b : backend K) : K := prob_magnitude acc0 (bk_state b).
  (** qip/backend.py:126-134: state and arena are swapped afterwards *)
  Definition bk_measure (rsqrt : K -> K) (rand acc0 : K) (b : backend K) (indices : list Z)
      (measured : option Z) (measured_prob : option K) (input_offset output_offset : Z)
    : res ((Z * K) * backend K) :=
    do r <- measure rsqrt rand acc0 indices (bk_n b) (bk_state b) (bk_arena b) input_offset output_offset
              measured measured_prob;
    Ok (fst r, mkBackend (bk_n b) (snd r) (bk_state b)).
  (** qip/backend.py:136-151: self.n and the sizes are kept *)
  Definition bk_reduce_measure (rsqrt : K -> K) (rand acc0 : K) (b : backend K) (indices : list Z)
      (measured : option Z) (measured_prob : option K) (input_offset output_offset : Z)
    : res ((Z * K) * backend K) :=
    do r <- reduce_measure rsqrt rand acc0 indices (bk_n b) (bk_state b) (bk_arena b) input_offset output_offset
              measured measured_prob;
    Ok (fst r, mkBackend (bk_n b) (snd r) (bk_state b)).
  (** qip/backend.py:153-156 *)
  Definition bk_soft_measure (rand acc0 : K) (b : backend K) (indices : list Z) (measured : option Z)
      (input_offset : Z) : res (Z * K) :=
    soft_measure rand acc0 indices (bk_n b) (bk_state b) measured input_offset.
  (** qip/backend.py:158-163: all probabilities (inl) or the top k (inr) *)
  Definition bk_measure_probabilities (b : backend K) (indices : list Z) (top_k : Z)
    : res (list K + (list Z * list K)) :=
    if top_k =? 0
    then do p <- measure_probabilities indices (bk_n b) (bk_state b); Ok (inl p)
    else do mp <- measure_top_probabilities indices (bk_n b) top_k (bk_state b); Ok (inr mp).
End Measure.
