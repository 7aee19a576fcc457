(** Measuring with the rounding of floating point arithmetic: qip/ext/kronprod.pyx soft_measure and measure. First as a relation,
    with the rounding of M_Float; then the same loop with arithmetic given as a parameter, to run it on doubles. In both the
    accumulator of prob_magnitude (:322) starts at 0; the code does not initialise it (C26). *)
From Coq Require Import Reals.
From Coq Require SpecFloat.
From Verif Require Import Base BaseR M_Bits M_Kron M_Measure M_Float.
Local Open Scope Z_scope.

(** qip/ext/kronprod.pyx:373-375: the positions of the amplitudes of outcome p_index that are in the vector *)
Definition cells (len_indices len_remaining row_mask len_vec input_offset p_index : Z) : list Z :=
  filter (fun vec_index => (input_offset <=? vec_index) && (vec_index <? len_vec + input_offset))
    (map (fun i => entwine_bit len_indices len_remaining p_index i row_mask) (zrange 0 (2 ^ len_remaining))).

Section Relation.
  Variables u w : R.
  Notation C := (Cx R).

  (** acc += abs(vec[i - input_offset])**2 for the positions [l] *)
  Definition facc (vec : list C) (input_offset : Z) (l : list Z) (acc : R) : Prop :=
    exists t, (forall i, In i l -> exists x, cget vec (i - input_offset) = Ok x /\ fnorm2 u w x (t i)) /\
      fsum 0%R (fun a b v => rounds u w (a + b) v) t l acc.
  (** r -= acc; subtracting 0 is exact *)
  Definition fsub (r acc r' : R) : Prop := rounds u w (r - acc) r' /\ (acc = 0%R -> r' = r).

  (** qip/ext/kronprod.pyx:371-382: the loop over the outcomes; p_index and acc keep their last values when it is not left *)
  Inductive fsoft_loop (prob : Z -> R -> Prop) : list Z -> R -> Z * R -> Z * R -> Prop :=
  | fl_end r last : fsoft_loop prob [] r last last
  | fl_hit p_index l r last acc r' : prob p_index acc -> fsub r acc r' -> (r' <= 0)%R ->
      fsoft_loop prob (p_index :: l) r last (p_index, acc)
  | fl_next p_index l r last acc r' mp : prob p_index acc -> fsub r acc r' -> (0 < r')%R ->
      fsoft_loop prob l r' (p_index, acc) mp -> fsoft_loop prob (p_index :: l) r last mp.

  (** qip/ext/kronprod.pyx:331-383 [soft_measure] without a forced outcome; [rand] is the value random.random() returns *)
  Definition fsoft_measure (rand : R) (indices : list Z) (n : Z) (vec : list C) (input_offset : Z) (mp : Z * R) : Prop :=
    let len_indices := zlen indices in
    let len_remaining_indices := n - len_indices in
    exists total r row_mask,
      facc vec 0 (zrange 0 (zlen vec)) total /\
      (if len_indices <? 2 ^ n then rounds u w (rand * total) r else r = rand) /\
      make_row_mask indices n = Ok row_mask /\
      fsoft_loop (fun p_index => facc vec input_offset
          (cells len_indices len_remaining_indices row_mask (zlen vec) input_offset p_index))
        (zrange 0 (2 ^ len_indices)) r (0, 0%R) mp.

  (** qip/ext/kronprod.pyx:388-446 [measure] of the whole state without forced arguments; 1.0 / p raises for p = 0. The double
      mult_p is multiplied as a complex number. *)
  Definition fmeasure (rand : R) (indices : list Z) (n : Z) (vec : list C) (mp : Z * R) (out : list C) : Prop :=
    fsoft_measure rand indices n vec 0 mp /\ snd mp <> 0%R /\
    exists q mult_p row_mask,
      rounds u w (1 / snd mp) q /\ rounds u w (sqrt q) mult_p /\ make_row_mask indices n = Ok row_mask /\
      let measured_entwine := entwine_bit (zlen indices) (n - zlen indices) (fst mp) 0 row_mask in
      zlen out = zlen vec /\
      forall i, 0 <= i < zlen vec ->
        if negb (Z.lxor (Z.land i row_mask) measured_entwine =? 0) then znth 0%r out i = 0%r
        else exists x, cget vec i = Ok x /\ fmul u w x (mult_p, 0%R) (znth 0%r out i).
End Relation.

(** the loops of soft_measure for any arithmetic, in the order of the program *)
Section Any.
  Context {D : Type}.
  Variables (zero : D) (add sub mul : D -> D -> D) (le0 is0 : D -> bool).
  (** [norms]: abs(vec[i])**2 for every i *)
  Variable norms : list D.
  (** qip/ext/kronprod.pyx:320-326 *)
  Definition any_magnitude : D := fold_left add norms zero.
  (** :372-376 *)
  Definition any_outcome (len_indices len_remaining row_mask input_offset p_index : Z) : res D :=
    mfold (fun acc i =>
      let vec_index := entwine_bit len_indices len_remaining p_index i row_mask in
      if (input_offset <=? vec_index) && (vec_index <? zlen norms + input_offset) then
        do x <- cget norms (vec_index - input_offset); Ok (add acc x)
      else Ok acc) (zrange 0 (2 ^ len_remaining)) zero.
  (** :371-382 *)
  Fixpoint any_loop (prob : Z -> res D) (outcomes : list Z) (r : D) (last : Z * D) : res (Z * D) :=
    match outcomes with
    | [] => Ok last
    | p_index :: outcomes =>
        do acc <- prob p_index;
        let r := sub r acc in
        if le0 r then Ok (p_index, acc) else any_loop prob outcomes r (p_index, acc)
    end.
  (** :331-383 without a forced outcome *)
  Definition any_soft_measure (rand : D) (indices : list Z) (n input_offset : Z) : res (Z * D) :=
    let len_indices := zlen indices in
    let len_remaining_indices := n - len_indices in
    let r := if len_indices <? 2 ^ n then mul rand any_magnitude else rand in
    do row_mask <- make_row_mask indices n;
    any_loop (any_outcome len_indices len_remaining_indices row_mask input_offset) (zrange 0 (2 ^ len_indices)) r (0, zero).
  (** :402-428 [measure] without forced arguments, up to the division *)
  Definition any_measure (rand : D) (indices : list Z) (n : Z) : res (Z * D) :=
    do mp <- any_soft_measure rand indices n 0;
    if is0 (snd mp) then Raise ZeroDivisionError else Ok mp.
End Any.

(** doubles: the standard library's definition of IEEE arithmetic, rounding to nearest even *)
Notation double := SpecFloat.spec_float.
Definition d_zero : double := SpecFloat.S754_zero false.
Definition d_add : double -> double -> double := SpecFloat.SFadd 53 1024.
Definition d_sub : double -> double -> double := SpecFloat.SFsub 53 1024.
Definition d_mul : double -> double -> double := SpecFloat.SFmul 53 1024.
Definition d_le0 (x : double) : bool := SpecFloat.SFleb x d_zero.
Definition d_is0 (x : double) : bool := SpecFloat.SFeqb x d_zero.
(** [measure] of a state with real amplitudes; abs of such an amplitude is exact, its square is rounded *)
Definition double_measure (rand : double) (indices : list Z) (n : Z) (vec : list double) : res (Z * double) :=
  any_measure d_zero d_add d_sub d_mul d_le0 d_is0 (map (fun x => d_mul x x) vec) rand indices n.
Definition double_soft_measure (rand : double) (indices : list Z) (n : Z) (vec : list double) : res (Z * double) :=
  any_soft_measure d_zero d_add d_sub d_mul d_le0 (map (fun x => d_mul x x) vec) rand indices n 0.
