(** What the distributed execution of a job should do. *)
From Verif Require Import Base M_Bits S_Bits M_Kron S_Kron M_Feed M_Measure S_Measure M_Net M_Worker.

(** a connection holds n messages before sending blocks (None: any number) *)
Definition fits (c : option nat) (n : nat) : Prop := match c with None => True | Some c => (n <= c)%nat end.

Section S_Worker.
  Context {K : Type} {OK : OrdRing K}.
  Notation C := (Cx K).

  (** an acknowledgement left over from an earlier transfer of the same job *)
  Definition accept_ok (job : Z) (m : msg K) : Prop := exists c w, m = MAccept job c w /\ 1 <= c /\ 1 <= w.

  (** the receiver's new state *)
  Definition received (overwrite : bool) (old new : list C) : list C :=
    if overwrite then new else map (fun '(a, b) => (a + b)%r) (combine old new).
End S_Worker.

(** workers that exchange states: an off-diagonal worker with the diagonal workers of its input and output range *)
Definition partner (w v : wid) : bool :=
  if range_eqb (fst w) (snd w)
  then negb (range_eqb (fst v) (snd v)) && (range_eqb (fst v) (fst w) || range_eqb (snd v) (fst w))
  else range_eqb (fst v) (snd v) && (range_eqb (fst v) (fst w) || range_eqb (fst v) (snd w)).
(** all connections are made and registered, in any order, when the operations begin *)
Definition connected (workers : list wid) (cfg : wid -> worker_cfg) : Prop :=
  forall w, In w workers -> Permutation (c_reg (cfg w)) (filter (partner w) workers).
(** the workers know the job and their own ranges; chunk size and window are positive *)
Definition configured (job : Z) (workers : list wid) (cfg : wid -> worker_cfg) : Prop :=
  forall w, In w workers -> c_job (cfg w) = job /\ c_id (cfg w) = w /\ 1 <= c_chunk (cfg w) /\ 1 <= c_window (cfg w).
(** connections hold one message; those between workers hold n messages *)
Definition capacities (cap : pid -> pid -> option nat) (workers : list wid) (n : nat) : Prop :=
  forall w w', In w workers -> In w' workers -> fits (cap Mgr (Wk w)) 1 /\ fits (cap (Wk w) Mgr) 1 /\ fits (cap (Wk w) (Wk w')) n.

Section S_Job.
  Context {K : Type} {OK : OrdRing K}.
  Notation C := (Cx K).

  (** a range of a state *)
  Definition slice (r : range) (vec : list C) : list C := pyslice vec (fst r) (snd r).
  (** worker w holds its part of the n-qubit state [vec]: the block of its input range *)
  Definition holds (n : Z) (vec : list C) (w : wid) (b : backend K) : Prop :=
    bk_n b = n /\ bk_state b = slice (fst w) vec /\ zlen (bk_arena b) = zlen (bk_state b).
  (** amplitude i of the state of block [a] after a sync of workers with states [v]: the sum of what the workers with
      output range [a] hold, or (overwrite) what the diagonal worker of [a] holds *)
  Definition sync_amp (overwrite : bool) (workers : list wid) (v : wid -> list C) (a : range) (i : Z) : C :=
    if overwrite then znth 0%r (v (a, a)) i
    else sum (filter (fun w => range_eqb (snd w) a) workers) (fun w => znth 0%r (v w) i).
  (** the same operations on one computer; each comes with the schedule of its parallel loop *)
  Definition local_run (b : backend K) (ops : list (mats_arg K * list Z)) : res (backend K) :=
    mfold (fun b op => bk_kronselect_dot (snd op) b (fst op) 0 0) ops b.
  (** enough outside influences for [k] operations on blocks of [size] amplitudes *)
  Definition scheduled (size : Z) (k : nat) (es : list (env K)) : Prop :=
    (k <= length es)%nat /\ forall e, In e es -> Permutation (e_sched e) (zrange 0 size).
End S_Job.

(** ** Jobs with measurements *)
Section S_Measured.
  Context {K : Type} {OK : OrdRing K}.
  Notation C := (Cx K).

  (** what a client asks for: a kronprod (with the schedule of the parallel loop on one computer) or a measurement *)
  Inductive lop := LKron (mats : mats_arg K) (sched : list Z) | LMeasure (indices : list Z).
  Definition wop_of (o : lop) : wop K :=
    match o with LKron mats _ => OKron mats | LMeasure indices => OMeasure (mkMeasure indices None false false 0) end.
  (** how many operations a worker carries out for it *)
  Definition used (diagonal : bool) (o : lop) : nat := match o with LKron _ _ => 2 | LMeasure _ => if diagonal then 4 else 1 end.
  Definition used_all (diagonal : bool) (ops : list lop) : nat := fold_right (fun o k => used diagonal o + k)%nat 0%nat ops.
  Definition is_diagonal (w : wid) : bool := range_eqb (fst w) (snd w).

  (** The manager draws r, which falls into block [a]; the worker of that block draws r2, which falls into outcome [m]:
      the probabilities of the basis states before the block are below r, those up to its end are not; within the block
      the probabilities of the outcomes below m are below r2 times that of the block, those up to m are not. *)
  Definition drawn (n : Z) (indices : list Z) (vec : list C) (r : K) (a : range) (r2 : K) (m : Z) : Prop :=
    let part := slice a vec in
    let below := below n (measured_order n indices) (amp_at (fst a) part) in
    (rlt (tprob (slice (0, fst a) vec)) r /\ rle r (tprob (slice (0, snd a) vec))) /\
    0 <= m < 2 ^ zlen indices /\ rlt (below m) (r2 * tprob part)%r /\ rle (r2 * tprob part)%r (below (m + 1)).

  (** the job on one computer. The outcomes of measurements are given (and bk_measure is made to use them): they are those
      the draws of the manager (paired with the operations) and of the workers determine. *)
  Inductive local_job (rsqrt : K -> K) (workers : list wid) : (range -> list K) -> backend K -> list (lop * K) -> list (mresult K) -> backend K -> Prop :=
  | lj_end draws b : local_job rsqrt workers draws b [] [] b
  | lj_kron draws b b1 b2 mats sched r ops results :
      bk_kronselect_dot sched b mats 0 0 = Ok b1 ->
      local_job rsqrt workers (fun a => skipn 2 (draws a)) b1 ops results b2 ->
      local_job rsqrt workers draws b ((LKron mats sched, r) :: ops) (None :: results) b2
  | lj_measure draws b b1 b2 indices r ops results a r2 m p :
      In (a, a) workers -> nth_error (draws a) 1 = Some r2 -> drawn (bk_n b) indices (bk_state b) r a r2 m ->
      bk_measure rsqrt 0%r 0%r b indices (Some m) None 0 0 = Ok ((m, p), b1) -> rle p 1%r ->
      local_job rsqrt workers (fun a => skipn 4 (draws a)) b1 ops results b2 ->
      local_job rsqrt workers draws b ((LMeasure indices, r) :: ops) (Some (inl (m, p)) :: results) b2.
  (** valid arguments *)
  Definition lop_ok (n : Z) (o : lop) : Prop :=
    match o with LKron mats sched => mats_wf n mats /\ Permutation sched (zrange 0 (2 ^ n)) | LMeasure indices => qubits_ok n indices end.
End S_Measured.
Arguments lop K : clear implicits.
