(** Model of the wire format: qip/distributed/proto/conversion.py, the message types it uses (messages.proto), and
    the client and worker code around it. *)
From Verif Require Import Base M_Bits M_Kron M_Ops M_Feed.

Section Proto.
  Context {K : Type} {OK : OrdRing K}.
  Notation C := (Cx K).

  (** Messages (qip/distributed/proto/messages.proto:6-25, 108-115, 40-44) as Python sees them. A oneof holds at most
      one of its fields. The binary encoding of protobuf (SerializeToString, FromString) is trusted to give back the
      same message and is not modelled. *)
  Record pbvec := mkVec { pv_real : list K; pv_imag : list K }.
  Record pbmat := mkMat { pm_shape : list Z; pm_data : pbvec }.
  Inductive pbmatop := PB (indices : list Z) (op : pbop)
  with pbop := PNone | PMatrix (m : pbmat) | PControlled (o : pbmatop) | PSwap (b : bool).
  Inductive pbstate_value := PSNone | PSVector (v : pbvec) | PSIndex (i : Z).
  Record pbstate := mkState { ps_indices : list Z; ps_value : pbstate_value }.

  (** assigning to or appending to an int32 or int64 field: ValueError outside the range *)
  Definition int32 (i : Z) : res Z := if (- 2 ^ 31 <=? i) && (i <? 2 ^ 31) then Ok i else Raise ValueError.
  Definition int64 (i : Z) : res Z := if (- 2 ^ 63 <=? i) && (i <? 2 ^ 63) then Ok i else Raise ValueError.

  (** conversion.py:7-12 [indices_to_pbindices], :15-16 [pbindices_to_indices] *)
  Definition indices_to_pbindices (indices : list Z) : res (list Z) := mmap int32 indices.
  Definition pbindices_to_indices (indices : list Z) : list Z := indices.
  (** conversion.py:19-25 [vec_to_pbvec] *)
  Definition vec_to_pbvec (vec : list C) : pbvec := mkVec (map fst vec) (map snd vec).
  (** conversion.py:28-29 [pbvec_to_vec]: array(real) + 1j*array(imag); arrays of different lengths do not add
      (numpy's broadcasting of a length 1 array is not modelled: the two lists always have the same length) *)
  Definition pbvec_to_vec (v : pbvec) : res (list C) :=
    if (zlen (pv_real v) =? zlen (pv_imag v)) then
      Ok (map (fun '(re, im) => (creal re + cxi * creal im)%r) (combine (pv_real v) (pv_imag v)))
    else Raise ValueError.
  (** conversion.py:32-40 [mat_to_pbmat] for a 2-dimensional array *)
  Definition mat_to_pbmat (rows cols : Z) (data : list C) : res pbmat :=
    do shape <- mmap int32 [rows; cols]; Ok (mkMat shape (vec_to_pbvec data)).
  (** conversion.py:43-44 [pbmat_to_mat]: reshape raises ValueError when the sizes do not match; other than 2
      dimensions cannot occur (mat_to_pbmat) *)
  Definition pbmat_to_mat (m : pbmat) : res (mat K) :=
    do v <- pbvec_to_vec (pm_data m);
    match pm_shape m with
    | [r; c] => if (zlen v =? r * c) then Ok (MNum r c v) else Raise ValueError
    | _ => Raise ValueError
    end.

  (** conversion.py:47-59 [matop_to_pbmatop] for a tuple [indices]. Matrix objects of other classes than SwapMat,
      CMat and arrays (MOther) are not modelled: numpy.asarray is taken to fail on them. indices[1:] is [tl]. *)
  Fixpoint matop_to_pbmatop (indices : list Z) (m : mat K) : res pbmatop :=
    do pbi <- indices_to_pbindices indices;
    match m with
    | MSwap _ => Ok (PB pbi (PSwap true))
    | MC m => do o <- matop_to_pbmatop (tl indices) m; Ok (PB pbi (PControlled o))
    | MNum r c d => do pm <- mat_to_pbmat r c d; Ok (PB pbi (PMatrix pm))
    | MOther _ _ _ => Raise TypeError
    end.
  (** conversion.py:62-71 [pbmatop_to_matop]; None (no field set) makes the callers raise TypeError. int(len/2) of a
      length is exact *)
  Fixpoint pbmatop_to_matop (o : pbmatop) : res (list Z * mat K) :=
    match o with
    | PB pbi (PSwap _) => let indices := pbindices_to_indices pbi in Ok (indices, MSwap (zlen indices / 2))
    | PB pbi (PMatrix pm) => do m <- pbmat_to_mat pm; Ok (pbindices_to_indices pbi, m)
    | PB pbi (PControlled o) => do im <- pbmatop_to_matop o; Ok (pbindices_to_indices pbi, MC (snd im))
    | PB pbi PNone => Raise TypeError
    end.

  (** qip/distributed/backend.py:56-62 [DistributedBackend.kronselect_dot], the kronprod message: iterating over an
      int key raises TypeError (conversion.py:10) *)
  Definition encode_kronprod (mats : mats_arg K) : res (list pbmatop) :=
    mmap (fun '(indices, m) => match indices with KTuple l => matop_to_pbmatop l m | KInt _ | KOther => Raise TypeError end) mats.
  (** qip/distributed/worker/worker.py:67-71: the dictionary the worker builds from it *)
  Definition decode_kronprod (msg : list pbmatop) : res (mats_arg K) :=
    mfold (fun mats o => do im <- pbmatop_to_matop o; Ok (kdict_set mats (KTuple (fst im)) (snd im))) msg [].

  (** qip/distributed/backend.py:36-45 [DistributedBackend.make_state], the states of the message; zip stops at the
      shorter list *)
  Definition encode_states (index_groups : list (list Z)) (feed_list : list (feed_t K)) : res (list pbstate) :=
    mmap (fun '(g, f) =>
      do pbi <- indices_to_pbindices g;
      match f with
      | FInt i => do i <- int64 i; Ok (mkState pbi (PSIndex i))
      | FArr a => Ok (mkState pbi (PSVector (vec_to_pbvec a)))
      end) (combine index_groups feed_list).
  (** worker.py:36-37 and :159-163 [get_state_value]; a State without vector has index 0 by default *)
  Definition decode_states (states : list pbstate) : res (list (list Z) * list (feed_t K)) :=
    do feeds <- mmap (fun s =>
      match ps_value s with
      | PSVector v => do v <- pbvec_to_vec v; Ok (FArr v)
      | PSIndex i => Ok (FInt i)
      | PSNone => Ok (FInt 0)
      end) states;
    Ok (map (fun s => pbindices_to_indices (ps_indices s)) states, feeds).
End Proto.
Arguments pbvec K : clear implicits.
Arguments pbmat K : clear implicits.
Arguments pbmatop K : clear implicits.
Arguments pbstate K : clear implicits.
