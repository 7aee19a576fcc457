(** Specification of contexts, controlled functions and the Fourier transform. From the model only the types of op
    constructors, contexts and the library state are used. *)
From Verif Require Import Base S_Bits M_Kron M_Ops S_Ops M_Graph S_Graph M_Context.

Section ContextSpec.
  Context {K : Type} {OK : OrdRing K}.
  Notation C := (Cx K).

  (** the op that a constructor without stored arguments stands for, on inputs with the given qubits; [MakeR m] is the
      phase gate of qfft.py *)
  Inductive denotes (cn : consts K) : ctor -> list (list Z) -> op K -> Prop :=
  | denotes_not gs : denotes cn (Wrap BNot no_kw) gs ONot
  | denotes_y gs : denotes cn (Wrap BY no_kw) gs OY
  | denotes_z gs : denotes cn (Wrap BZ no_kw) gs OZ
  | denotes_h gs : denotes cn (Wrap BH no_kw) gs (OH (c_h cn))
  | denotes_r m gs : denotes cn (MakeR m) gs (OR (c_rm cn m false))
  | denotes_swap a b : zlen a = zlen b -> denotes cn (Wrap BSwap no_kw) [a; b] (OSwap (zlen a))
  | denotes_c c a gs o : zlen a = 1 -> gs <> [] -> denotes cn c gs o -> denotes cn (WrapC c no_kw) (a :: gs) (OC o).

  (** [U] applied where all the qubits in [cs] are 1 *)
  Definition when (n : Z) (cs : list Z) (U : (Z -> C) -> Z -> C) (v : Z -> C) (r : Z) : C :=
    if forallb (qbit n r) cs then U v r else v r.

  (** ** straight-line circuit functions *)
  (** a user's function that applies op constructors one after the other: each step takes the qubits at given positions
      of an array and stores the outputs at the same positions *)
  Definition fetch (qarr : list nat) (ps : list nat) : list nat := map (fun p => nth p qarr O) ps.
  Fixpoint store {A} (qarr : list A) (ps : list nat) (outs : list A) : list A :=
    match ps, outs with p :: ps, o :: outs => store (upd qarr p o) ps outs | _, _ => qarr end.
  Fixpoint run_steps (cn : consts K) (steps : list (ctor * list nat)) (w : world K) (qarr : list nat) : st (world K) (list nat) :=
    match steps with
    | [] => (w, Ok qarr)
    | (c, ps) :: steps =>
        sbind (call_op cn w c (map AQ (fetch qarr ps)) no_kw) (fun w outs => run_steps cn steps w (store qarr ps outs))
    end.
  (** what it computes when entry [p] of the array stands for the qubits [nth p gs]: the ops in order *)
  Definition slots (gs : list (list Z)) (ps : list nat) : list (list Z) := map (fun p => nth p gs []) ps.
  Definition acts (n : Z) (gs : list (list Z)) (ops : list (op K * list nat)) (v : Z -> C) : Z -> C :=
    fold_left (fun v s => op_acts n (fst s) (slots gs (snd s)) v) ops v.
  Definition step_denotes (cn : consts K) (gs : list (list Z)) (s : ctor * list nat) (s' : op K * list nat) : Prop :=
    snd s' = snd s /\ NoDup (snd s) /\ snd s <> [] /\ (forall p, In p (snd s) -> (p < length gs)%nat) /\
    denotes cn (fst s) (slots gs (snd s)) (fst s').

  (** ** circuits that continue other circuits *)
  (** the requirements of C33 on a circuit *)
  Definition circuit (h : heap K) (vis args srcs : list nat) : Prop :=
    built h vis /\ incl args vis /\ splits_in_range h vis /\ no_swap_dagger h vis /\ sources h args srcs /\
    circuit_ok h args srcs (widths h srcs).
  (** Running the circuit [args'] of the later heap [h'] gives [U] of what running the circuit [args] of [h] gives: for
      all runs of both from the same initial registers in which the Measure nodes of [args] report the same results. *)
  Definition runs_then (h : heap K) (vis args srcs : list nat) (h' : heap K) (vis' args' : list nat) (U : (Z -> C) -> Z -> C) : Prop :=
    let n := widths h srcs in
    forall c1 l1 ev1 feed1 strict1 state1 init c2 l2 ev2 feed2 strict2 state2 d1 st1 cm1 d2 st2 cm2,
      session h vis c1 l1 -> (forall a, In a l1 -> same_qubits h args a) ->
      enum_ok ev1 -> scheds_ok ev1 h n -> initial h srcs n feed1 state1 init ->
      session h' vis' c2 l2 -> (forall a, In a l2 -> same_qubits h' args' a) ->
      enum_ok ev2 -> scheds_ok ev2 h' n -> initial h' srcs n feed2 state2 init -> e_rsqrt ev1 = e_rsqrt ev2 ->
      run ev1 c1 h args feed1 strict1 state1 = (d1, Ok (st1, cm1)) ->
      run ev2 c2 h' args' feed2 strict2 state2 = (d2, Ok (st2, cm2)) ->
      (forall i cv, In (i, cv) cm1 -> nd_kind (nd h i) = KMeasure -> In (i, cv) cm2) ->
      forall r, 0 <= r < 2 ^ n -> amp st2 r = U (amp st1) r.
  (** ... and the later circuit meets the requirements, needs no new qubits or measurements, and can be reached from
      every history that reached the earlier one *)
  Definition continues (h : heap K) (vis args srcs : list nat) (h' : heap K) (vis' args' : list nat) (U : (Z -> C) -> Z -> C) : Prop :=
    circuit h' vis' args' srcs /\ widths h' srcs = widths h srcs /\ incl vis vis' /\
    (forall c l, session h vis c l -> session h' vis' c l) /\ (no_measure h args -> no_measure h' args') /\
    (forall i w, In i vis -> wires h srcs i w -> wires h' srcs i w) /\
    runs_then h vis args srcs h' vis' args' U.
End ContextSpec.

(** ** the discrete Fourier transform *)
Section FourierSpec.
  Context {K : Type} {OK : OrdRing K}.
  Notation C := (Cx K).
  Fixpoint cpow (z : C) (k : nat) : C := match k with O => 1%r | S k => (z * cpow z k)%r end.
  (** the register [ins] (first qubit most significant) transformed with the root of unity [z] and factor [s]; the result
      is read off the register [outs] *)
  Definition fourier (n : Z) (z s : C) (ins outs : list Z) (v : Z -> C) (r : Z) : C :=
    (s * sum (zrange 0 (2 ^ zlen ins)) (fun x => cpow z (Z.to_nat (x * reg n outs r)) * v (setreg n ins r x)))%r.
End FourierSpec.

(** C applied [k] times to an object *)
Fixpoint C_times {K} (k : nat) (w : world K) (v : opval) : world K * opval :=
  match k with O => (w, v) | S k => let '(w, v) := C_times k w v in apply_C w v end.

(** ** weaving the qubits of contexts into the inputs of an op *)
(** [woven ps l l']: the qubits of [ps], given with their positions, outermost context first, are put into [l]; the
    outermost one is at its position in the result [l'] *)
Inductive woven : list (nat * Z) -> list nat -> list nat -> Prop :=
| woven_nil l : woven [] l l
| woven_cons x k ps l a b : woven ps l (a ++ b) -> zlen a = k -> woven ((x, k) :: ps) l (a ++ x :: b).
(** the qubits of contexts, outermost context first *)
Definition context_qubits (all : list ctx) : list nat := flat_map cx_qubits all.
(** every context holds one qubit, with a position that exists when [m] qubits and those of the inner contexts are there *)
Fixpoint single_contexts (all : list ctx) (m : Z) : Prop :=
  match all with
  | [] => True
  | cx :: all => (exists q k, cx_qubits cx = [q] /\ cx_idx cx = [k] /\ 0 <= k <= m + zlen all) /\ single_contexts all m
  end.
(** the call that changed the heap [h] to [h'] created an op with the inputs [l], and [ids] are its outputs, one for each
    input and in the same order: the op itself if there is one input, and otherwise SplitQubits of the op that select
    consecutive pieces as wide as the inputs *)
Definition new_outputs {K} (h h' : heap K) (l ids : list nat) : Prop :=
  length ids = length l /\
  exists op, (size h <= op < size h')%nat /\ inputs_of h' op = l /\
    ((length l = 1%nat /\ ids = [op]) \/
     ((forall i, In i ids -> (size h <= i < size h')%nat) /\
      exists pieces, Forall2 (selects h' op) pieces ids /\ map zlen pieces = map (width h) l /\ concat pieces = zrange 0 (width h' op))).

(** the op of a one-qubit constructor without parameter *)
Definition gate_of {K} {OK : OrdRing K} (b : base) (cn : consts K) : option (op K) :=
  match b with BNot => Some ONot | BY => Some OY | BZ => Some OZ | BH => Some (OH (c_h cn)) | _ => None end.
(** the heap after q = Qubit(n=k); q is object 0 *)
Definition one_qubit {K} (k : Z) : heap K := fst (exec empty_heap (NewQubit (Some k) None)).
