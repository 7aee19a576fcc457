(** gen_qubit_prints, qip/util.py. *)
From Verif Require Import Base M_Bits.

Section Prints.
  Context {K} `{OrdRing K}.
  (** qip/util.py:170-184 [gen_qubit_prints]: the lines yielded by the generator, as pairs of the numbers between "|" and ">" and
      the amplitude. The text itself (",".join(map(str, ...)), "> = {}".format(...)) is left out. [sizes]: the q or q.n of the
      arguments (:171-176). *)
  Definition gen_qubit_prints (state : list (Cx K)) (sizes : list Z) : res (list (list Z * Cx K)) :=
    let n := fold_left Z.add sizes 0 in
    mfold (fun lines i =>
        do x <- pyget state i;
        if cx_is0 x then Ok lines
        else do idx <- qubit_index_notation i sizes (Some n); Ok (lines ++ [(idx, x)]))
      (zrange 0 (zlen state)) [].
End Prints.
