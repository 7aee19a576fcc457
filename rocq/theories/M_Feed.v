(** Model of the construction of the initial state: qip/backend.py make_state, qip/util.py gen_edit_indices. *)
From Verif Require Import Base M_Bits M_Kron.

Section Feed.
  Context {K : Type} {OK : OrdRing K}.
  Notation C := (Cx K).

  (** qip/util.py:8 InitialState: a sequence of amplitudes or an int *)
  Inductive feed_t := FArr (amps : list C) | FInt (i : Z).
  (** [feed_list[qindex][flip]]: an int is not subscriptable *)
  Definition feed_get (f : feed_t) (i : Z) : res C :=
    match f with FArr a => pyget a i | FInt _ => Raise TypeError end.

  (** qip/util.py:108-124 [gen_edit_indices]: the list of yields. [bits] is shared by all iterations, as in
      the code. flatten (:152-154) of a sequence of sequences of ints is [concat]. *)
  Definition gen_edit_indices (index_groups : list (list Z)) (maxindex : Z) : res (list (Z * list Z)) :=
    if 0 <? zlen index_groups then
      let allindices := concat index_groups in
      let bits := map (fun _ => 0) (zrange 0 (maxindex + 1)) in
      do r <- mfold (fun '(bits, acc) i =>
          let flips := uint_to_bitarray i (zlen allindices) in
          do bits <- mfold (fun bits '(j, bit) =>
                do q <- pyget allindices j; do b <- pyget flips j; pyset bits q b) (enumerate flips) bits;
          do si <- mfold (fun '(qbit_state_indices, indx) '(j, index_group) =>
                let subflips := pyslice flips indx (indx + zlen index_group) in
                do v <- bitarray_to_uint subflips;
                do qbit_state_indices <- pyset qbit_state_indices j v;
                Ok (qbit_state_indices, indx + zlen index_group))
              (enumerate index_groups) (map (fun _ => 0) (zrange 0 (zlen index_groups)), 0);
          do index <- bitarray_to_uint bits;
          Ok (bits, acc ++ [(index, fst si)]))
        (zrange 0 (2 ^ zlen allindices)) (bits, []);
      Ok (snd r)
    else Ok [].

  (** [x = d if x is None else x] *)
  Definition default {A} (d : A) (o : option A) : A := match o with Some x => x | None => d end.

  (** qip/backend.py:66-71 [CythonBackend]: n, state and arena *)
  Record backend := mkBackend { bk_n : Z; bk_state : list C; bk_arena : list C }.

  (** qip/backend.py:74-104 [make_state]. numpy.zeros and numpy.ndarray of a negative size raise ValueError;
      numpy.ndarray does not initialise the memory, so the arena holds arbitrary values [junk]. *)
  Definition make_state (junk : Z -> C) (n : Z) (index_groups : list (list Z)) (feed_list : list feed_t)
      (inputstartindex inputendindex outputstartindex outputendindex : option Z) : res backend :=
    let inputstartindex := default 0 inputstartindex in
    let inputendindex := default (2 ^ n) inputendindex in
    let outputstartindex := default 0 outputstartindex in
    let outputendindex := default (2 ^ n) outputendindex in
    if inputendindex - inputstartindex <? 0 then Raise ValueError else
    let state := map (fun _ => 0%r) (zrange 0 (inputendindex - inputstartindex)) in
    do state <- (if zlen feed_list =? 0 then pyset state 0 1%r else Ok state);
    do edits <- gen_edit_indices index_groups (n - 1);
    do state <- mfold (fun state '(index, flips) =>
        if (index <? inputstartindex) || (inputendindex <=? index) then Ok state else
        do state <- pyset state (index - inputstartindex) 1%r;
        mfold (fun state '(qindex, flip) =>
            do s <- pyget state (index - inputstartindex);
            do f <- pyget feed_list qindex;
            do a <- feed_get f flip;
            pyset state (index - inputstartindex) (s * a)%r) (enumerate flips) state) edits state;
    if outputendindex - outputstartindex <? 0 then Raise ValueError else
    Ok (mkBackend n state (map junk (zrange 0 (outputendindex - outputstartindex)))).
End Feed.
Arguments feed_t K : clear implicits.
Arguments backend K : clear implicits.
