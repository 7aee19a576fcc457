(** The kernels of qip/ext once more, with the rounding of floating point arithmetic: applying a dictionary of matrices
    (kronprod.pyx cdot_loop) and computing probabilities (measure_probabilities). The other models compute with exact numbers.
    Results are relations: everything the compiled program may compute. The extension is compiled with -O3 -ffast-math
    -march=native (setup.py:42), so the compiler may fuse a multiplication with an addition, flush tiny results to zero and
    add up a sum in any order and grouping. Other algebraic rewriting (factoring products out of sums, say), infinities and
    NaNs are not modelled: numbers are reals. *)
From Coq Require Import Reals.
From Verif Require Import Base BaseR M_Bits M_Kron.
Local Open Scope Z_scope.

(** a sum over the items [l] with the terms [t], added up in any order and grouping; [add a b v]: v is a possible result of
    a + b. Adding a term to the zero the sum starts from changes nothing. *)
Inductive fsum {A} (zero : A) (add : A -> A -> A -> Prop) (t : Z -> A) : list Z -> A -> Prop :=
| fs_nil : fsum zero add t [] zero
| fs_one i : fsum zero add t [i] (t i)
| fs_add l1 l2 l s1 s2 s : l1 <> [] -> l2 <> [] -> Permutation (l1 ++ l2) l ->
    fsum zero add t l1 s1 -> fsum zero add t l2 s2 -> add s1 s2 s -> fsum zero add t l s.

Section Float.
  (** the unit roundoff, and the size below which the error is not relative any more (underflow): 2^-53 and 2^-1022 for
      doubles rounded to nearest, 2^-53 and 2^-969 if numbers below 2^-1022 are replaced by 0 *)
  Variables u w : R.
  Notation C := (Cx R).

  (** v is a possible result of an operation with the exact value x; x itself is one: the operation may be fused *)
  Definition rounds (x v : R) : Prop := (Rabs (v - x) <= u * (Rabs x + w))%R.

  (** complex addition and multiplication, part by part *)
  Definition fadd (a b v : C) : Prop := rounds (fst a + fst b) (fst v) /\ rounds (snd a + snd b) (snd v).
  Definition fmul (a b v : C) : Prop :=
    exists rr ii ri ir, rounds (fst a * fst b) rr /\ rounds (snd a * snd b) ii /\
      rounds (fst a * snd b) ri /\ rounds (snd a * fst b) ir /\
      rounds (rr - ii) (fst v) /\ rounds (ri + ir) (snd v).

  (** qip/ext/kronprod.pyx:175-194: the product over the index groups, left early when it is zero. The indices are computed
      by the exact model (M_Kron). *)
  Inductive fprod (n row colbits : Z) : list (list Z * mstruct R) -> C -> C -> Prop :=
  | fp_nil p : fprod n row colbits [] p p
  | fp_zero group ms gs p ij e p' :
      c_submat n row colbits group = Ok ij -> calc_mat_entry ms (fst ij) (snd ij) = Ok e ->
      fmul p e p' -> p' = 0%r -> fprod n row colbits ((group, ms) :: gs) p p'
  | fp_next group ms gs p ij e p' q :
      c_submat n row colbits group = Ok ij -> calc_mat_entry ms (fst ij) (snd ij) = Ok e ->
      fmul p e p' -> p' <> 0%r -> fprod n row colbits gs p' q -> fprod n row colbits ((group, ms) :: gs) p q.

  (** :165-169: the columns, in the order in which they are visited; colbits keeps its value between the rounds *)
  Definition c_columns (n : Z) (flat : list Z) (row : Z) : res (list Z) :=
    let nindices := zlen flat in
    do r <- mfold (fun '(acc, colbits) i =>
        do colbits <- mfold (fun colbits j =>
              do indx <- cget flat j;
              do b <- cget_bit i ((nindices - 1) - j);
              cset_bit colbits ((n - 1) - indx) b) (zrange 0 nindices) colbits;
        Ok (acc ++ [colbits], colbits)) (zrange 0 (2 ^ nindices)) ([], row);
    Ok (fst r).

  (** :158-197: a value of one output row; columns outside the input are skipped (:171-173) *)
  Definition frow (n : Z) (gs : list (list Z * mstruct R)) (flat : list Z) (vec : list C) (input_offset row : Z) (s : C)
    : Prop :=
    exists cols t, c_columns n flat row = Ok cols /\
      let used := filter (fun c => negb ((c - input_offset <? 0) || (zlen vec <=? c - input_offset))) cols in
      (forall c, In c used -> exists p x, fprod n row c gs 1%r p /\ cget vec (c - input_offset) = Ok x /\ fmul p x (t c)) /\
      fsum 0%r fadd t used s.

  (** :43-200 [cdot_loop]: every row is computed on its own and written to its own cell *)
  Definition fdot (indexgroups : list (list Z)) (matrices : list (mat R)) (vec : list C) (n : Z) (len_output : Z)
      (input_offset output_offset : Z) (output : list C) : Prop :=
    exists structs, mmap build_struct matrices = Ok structs /\ zlen output = len_output /\
      forall r, 0 <= r < len_output ->
        frow n (combine indexgroups structs) (sorted_set (concat indexgroups)) vec input_offset (r + output_offset)
          (znth 0%r output r).
  (** qip/util.py:15-67 [kronselect_dot] with dot_impl=cdot_loop: an output array the call may produce *)
  Definition fkron (mats : mats_arg R) (vec : list C) (n len_output input_offset output_offset : Z) (output : list C) : Prop :=
    zlen vec + input_offset <= 2 ^ n /\ len_output + output_offset <= 2 ^ n /\
    exists newmats, norm_mats mats = Ok newmats /\
      (* the table int[:,:] indexgroups is not empty and rectangular *)
      match map fst newmats with [] => False | g0 :: gs => forallb (fun g => zlen g =? zlen g0) gs = true end /\
      fdot (map fst newmats) (map snd newmats) vec n len_output input_offset output_offset output.

  (** dictionaries applied one after the other to the whole state, as the nodes of a circuit are (qip/pipeline.py:186-222) *)
  Fixpoint fkron_all (n : Z) (ms : list (mats_arg R)) (v V : list C) : Prop :=
    match ms with [] => V = v | m :: ms => exists W, fkron m v n (2 ^ n) 0 0 W /\ fkron_all n ms W V end.

  (** abs(x)**2: the square of a hypot with an error below one unit in the last place, or of the square root of the sum of the
      squares, or this sum itself: at most five roundings *)
  Definition fnorm2 (x : C) (v : R) : Prop := (Rabs (v - cnorm2 x) <= ((1 + u) ^ 5 - 1) * (cnorm2 x + w))%R.
  (** qip/ext/kronprod.pyx:240-261 [measure_probabilities]: amplitudes that are zero are skipped (:254-255) *)
  Definition fprobs (indices : list Z) (n : Z) (vec : list C) (ps : list R) : Prop :=
    zlen ps = 2 ^ zlen indices /\
    exists (p_index : Z -> Z) (t : Z -> R),
      (forall i, 0 <= i < 2 ^ n ->
        mfold (fun p_index j =>
          do q <- cget indices j;
          do b <- cget_bit i ((n - 1) - q);
          cset_bit p_index j b) (zrange 0 (zlen indices)) 0 = Ok (p_index i) /\
        exists x, cget vec i = Ok x /\ (cx_is0 x = false -> fnorm2 x (t i))) /\
      forall m, 0 <= m < 2 ^ zlen indices ->
        fsum 0%R (fun a b v => rounds (a + b) v) t
          (filter (fun i => (p_index i =? m) && negb (cx_is0 (znth 0%r vec i))) (zrange 0 (2 ^ n))) (znth 0%R ps m).
End Float.
