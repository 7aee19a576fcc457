(** Model of the matrix operations of qip/operators.py. *)
From Verif Require Import Base M_Bits M_Kron.

Section Ops.
  Context {K : Type} {OK : OrdRing K}.
  Notation C := (Cx K).

  (** Operation objects. The scalars computed with floating point when the object or its matrix is built
      are parameters: [h] stands for 1/numpy.sqrt(2) (qip/operators.py:98), [e] for
      numpy.exp(1.0j * phi) (qip/operators.py:111); RmOp (:124-127) is ROp with phi = +-2 pi / 2^m.
      XOp (:52-57) inherits everything from NotOp. [OSwap n]: n is self.inputs[0].n (:145). *)
  Inductive op :=
  | ONot | OY | OZ | OH (h : K) | OR (e : C) | OSwap (n : Z) | OC (o : op).

  (** numpy.flip(numpy.eye(2), 0), qip/operators.py:42 *)
  Definition not_mat : mat K := MNum 2 2 [0; 1; 1; 0]%r.
  (** qip/operators.py:68 *)
  Definition y_mat : mat K := MNum 2 2 [0; - cxi; cxi; 0]%r.
  (** qip/operators.py:83 *)
  Definition z_mat : mat K := MNum 2 2 [1; 0; 0; - (1)]%r.
  (** qip/operators.py:98 *)
  Definition h_mat (h : K) : mat K :=
    MNum 2 2 (map (fun x => creal h * x)%r [1; 1; 1; - (1)]%r).
  (** qip/operators.py:114 *)
  Definition r_mat (e : C) : mat K := MNum 2 2 [1; 0; 0; e]%r.

  (** dictionaries with int or tuple keys: [d[k] = v] *)
  Definition key_eqb (a b : key) : bool :=
    match a, b with
    | KInt i, KInt j => (i =? j)
    | KTuple l, KTuple l' => zlist_eqb l l'
    | _, _ => false
    end.
  Fixpoint kdict_set (d : mats_arg K) (k : key) (v : mat K) : mats_arg K :=
    match d with
    | [] => [(k, v)]
    | (k', v') :: d => if key_eqb k' k then (k', v) :: d else (k', v') :: kdict_set d k v
    end.

  (** [{i: m for i in flatten(index_groups)}], qip/operators.py:42,68,83,98,114; flatten (qip/util.py:152-167)
      of a list of lists of ints is the concatenation *)
  Definition per_index (m : mat K) (index_groups : list (list Z)) : mats_arg K :=
    fold_left (fun d i => kdict_set d (KInt i) m) (concat index_groups) [].

  (** the elements flatten produces for a dictionary key (an int is wrapped, qip/util.py:160-163) *)
  Definition key_flat (k : key) : res (list Z) :=
    match k with KInt i => Ok [i] | KTuple l => Ok l | KOther => Raise TypeError end.

  (** [op.makemats(index_groups)]: qip/operators.py:41-43, 67-69, 82-84, 97-99, 113-115, 144-148, 221-227 *)
  Fixpoint makemats (o : op) (index_groups : list (list Z)) : res (mats_arg K) :=
    match o with
    | ONot => Ok (per_index not_mat index_groups)
    | OY => Ok (per_index y_mat index_groups)
    | OZ => Ok (per_index z_mat index_groups)
    | OH h => Ok (per_index (h_mat h) index_groups)
    | OR e => Ok (per_index (r_mat e) index_groups)
    | OSwap swapn =>
        do a_indices <- pyget index_groups 0;
        do b_indices <- pyget index_groups 1;
        Ok (kdict_set [] (KTuple (a_indices ++ b_indices)) (MSwap swapn))
    | OC o =>
        do opm <- makemats o (tl index_groups);
        mfold (fun newdict '(indices, m) =>
          do c <- pyget index_groups 0;
          do idx <- key_flat indices;
          Ok (kdict_set newdict (KTuple (c ++ idx)) (MC m))) opm []
    end.

  (** [m.conj()]: numpy for arrays, qip/operators.py:256-257 for CMat; SwapMat has no such method *)
  Fixpoint mat_conj (m : mat K) : res (mat K) :=
    match m with
    | MNum r c d => Ok (MNum r c (map cconj d))
    | MC m => do m <- mat_conj m; Ok (MC m)
    | MSwap _ | MOther _ _ _ => Raise AttributeError
    end.
  (** [m.T]: numpy for arrays, qip/operators.py:259-261 for CMat; SwapMat has no such attribute *)
  Fixpoint mat_T (m : mat K) : res (mat K) :=
    match m with
    | MNum r c d =>
        Ok (MNum c r (map (fun x => znth 0%r d ((x mod r) * c + x / r)) (zrange 0 (c * r))))
    | MC m => do m <- mat_T m; Ok (MC m)
    | MSwap _ | MOther _ _ _ => Raise AttributeError
    end.

  (** qip/operators.py:17-23: the dictionary self.ms computed by the first feed_indices call *)
  Definition op_ms (o : op) (dagger : bool) (index_groups : list (list Z)) : res (mats_arg K) :=
    do ms <- makemats o index_groups;
    if dagger then
      mmap (fun '(k, m) => do m <- mat_conj m; do m <- mat_T m; Ok (k, m)) ms
    else Ok ms.
End Ops.
Arguments op K : clear implicits.
