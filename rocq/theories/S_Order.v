(** Specification of circuits that are built in another order. From the model only the types of nodes and heaps are used. *)
From Verif Require Import Base S_Bits M_Kron M_Ops S_Ops M_Feed S_Feed S_Func S_Measure M_Graph S_Graph.

Section OrderSpec.
  Context {K : Type} {OK : OrdRing K}.
  Implicit Types h : heap K.

  (** the circuit of [args'] is that of [args] with its objects created in another order: [f] takes every object that is needed to
      the one that is the same call on the corresponding objects. The qubits the circuits start from come in the same order. *)
  Definition same_circuit h args srcs h' args' srcs' (f : nat -> nat) : Prop :=
    (forall j, In j args' <-> exists i, In i args /\ j = f i) /\ srcs' = map f srcs /\
    (forall i j, ancestor h args i -> ancestor h args j -> f i = f j -> i = j) /\
    (forall i, ancestor h args i ->
       nd_kind (nd h' (f i)) = nd_kind (nd h i) /\ width h' (f i) = width h i /\ inputs_of h' (f i) = map f (inputs_of h i)).
  (** no qubit is used twice: when two calls use the same object and the same qubit of it, they are the same call *)
  Definition used_once h args srcs : Prop := forall i j j' w w' q,
    ancestor h args j -> ancestor h args j' -> In i (inputs_of h j) -> In i (inputs_of h j') ->
    wires h srcs j w -> wires h srcs j' w' -> In q w -> In q w' -> j = j'.
  (** the same report; the most likely outcomes may come in another order when their probabilities are equal *)
  Definition same_report (x y : cval K) : Prop :=
    match x, y with
    | CProbs (inr (ms, ps)), CProbs (inr (ms', ps')) => Permutation (combine ms ps) (combine ms' ps') /\ ps = ps'
    | _, _ => x = y
    end.
  (** the outcome a node reported *)
  Definition reports (l : list (nat * cval K)) (i : nat) (m : Z) (p : K) : Prop := In (i, CMeas m p) l.
  (** product of the probabilities of the reported outcomes *)
  Fixpoint likelihood (l : list (nat * cval K)) : K :=
    match l with
    | [] => 1%r
    | (_, CMeas _ p) :: l => (p * likelihood l)%r
    | _ :: l => likelihood l
    end.

  (** a program that can run the circuit of [args], which starts from the qubits [srcs] *)
  Definition prepared h vis c l args srcs : Prop :=
    session h vis c l /\ splits_in_range h vis /\ no_swap_dagger h vis /\ incl args vis /\
    (forall a, In a l -> same_qubits h args a) /\ sources h args srcs.
  (** two such programs with the same circuit, in which no qubit is used twice *)
  Definition twins h vis c l args srcs h' vis' c' l' args' srcs' (f : nat -> nat) : Prop :=
    prepared h vis c l args srcs /\ prepared h' vis' c' l' args' srcs' /\
    same_circuit h args srcs h' args' srcs' f /\ used_once h args srcs.
  (** how a run starts: the sets are enumerated and the threads scheduled in some order, the amplitudes are those of [init] *)
  Definition starts h srcs n (ev : env K) feed state init : Prop :=
    enum_ok ev /\ scheds_ok ev h n /\ initial h srcs n feed state init.
End OrderSpec.
