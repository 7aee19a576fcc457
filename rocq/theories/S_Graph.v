(** Specification of circuit graphs and their execution. From the model only the types of nodes and heaps and the
    field accesses ([nd h i] is the object at address [i]) are used. *)
From Coq Require Import Sorted.
From Verif Require Import Base S_Bits M_Kron M_Ops S_Ops M_Feed S_Feed S_Func S_Measure M_Graph.

Section GraphSpec.
  Context {K : Type} {OK : OrdRing K}.
  Notation C := (Cx K).
  Implicit Types h : heap K.

  Definition inputs_of h i : list nat := nd_inputs (nd h i).
  Definition width h i : Z := nd_n (nd h i).

  (** [i] is needed to compute [args]: it is one of them or an input of a needed node *)
  Inductive ancestor h (args : list nat) : nat -> Prop :=
  | anc_arg i : In i args -> ancestor h args i
  | anc_input i j : ancestor h args i -> In j (inputs_of h i) -> ancestor h args j.

  (** the needed nodes without inputs, in creation order *)
  Definition sources h args (srcs : list nat) : Prop :=
    StronglySorted lt srcs /\ forall i, In i srcs <-> ancestor h args i /\ inputs_of h i = [].

  (** number of qubits of a list of nodes *)
  Definition widths h (l : list nat) : Z := fold_right (fun i s => width h i + s) 0 l.

  (** [wires h srcs i w]: node [i] carries the qubits [w] of the state. The sources own consecutive positions in
      creation order, a split output owns the selected ones, every other node those of its inputs in order. *)
  Inductive wires h (srcs : list nat) : nat -> list Z -> Prop :=
  | wires_source l i l' : srcs = l ++ i :: l' ->
      wires h srcs i (zrange (widths h l) (widths h l + width h i))
  | wires_split i idx gs ws : nd_kind (nd h i) = KSplit idx -> inputs_of h i <> [] ->
      Forall2 (wires h srcs) (inputs_of h i) gs ->
      Forall2 (fun k w => 0 <= k /\ nth_error (concat gs) (Z.to_nat k) = Some w) idx ws -> wires h srcs i ws
  | wires_keep i gs : (forall idx, nd_kind (nd h i) <> KSplit idx) -> inputs_of h i <> [] ->
      Forall2 (wires h srcs) (inputs_of h i) gs -> wires h srcs i (concat gs).

  (** the outputs of split and extract_index select qubits that exist *)
  Definition splits_in_range h (vis : list nat) : Prop :=
    forall i idx k, In i vis -> nd_kind (nd h i) = KSplit idx -> In k idx -> 0 <= k < widths h (inputs_of h i).

  (** the nondeterminism that is constrained: list(set) lists every element once *)
  Definition enum_ok (ev : env K) : Prop := forall l, Permutation (e_enum ev l) l.

  (** textbook meaning of an op on the qubits [groups] of its inputs, as a map of amplitude functions *)
  Fixpoint op_acts (n : Z) (o : op K) (groups : list (list Z)) (v : Z -> C) (r : Z) : C :=
    match o with
    | OSwap k =>
        let a := hd [] groups in let b := hd [] (tl groups) in
        v (setreg n (a ++ b) r (reg n (b ++ a) r))
    | OC o => if forallb (qbit n r) (hd [] groups) then op_acts n o (tl groups) v r else v r
    | ONot => apply_each n gate_X (concat groups) v r
    | OY => apply_each n gate_Y (concat groups) v r
    | OZ => apply_each n gate_Z (concat groups) v r
    | OH h => apply_each n (gate_H h) (concat groups) v r
    | OR e => apply_each n (gate_R e) (concat groups) v r
    end.
  (** the adjoint op *)
  Fixpoint op_adj (o : op K) : op K :=
    match o with OR e => OR (cconj e) | OC o => OC (op_adj o) | o => o end.

  (** one node turns the amplitudes [v] into [v'] and reports [cv]; [groups] are the qubits of its inputs *)
  Inductive node_sem (rsqrt : K -> K) (n : Z) (groups : list (list Z)) (v v' : Z -> C) : kind K -> cval K -> Prop :=
  | sem_qubit : (forall r, 0 <= r < 2 ^ n -> v' r = v r) -> node_sem rsqrt n groups v v' KQubit CZero
  | sem_split l : (forall r, 0 <= r < 2 ^ n -> v' r = v r) -> node_sem rsqrt n groups v v' (KSplit l) CZero
  | sem_op o : (forall r, 0 <= r < 2 ^ n -> v' r = op_acts n o groups v r) -> node_sem rsqrt n groups v v' (KMat o false) CZero
  | sem_adjoint o : (forall r, 0 <= r < 2 ^ n -> v' r = op_acts n (op_adj o) groups v r) ->
      node_sem rsqrt n groups v v' (KMat o true) CZero
  | sem_f func f reg1 reg2 : groups = [reg1; reg2] -> (forall x, 0 <= x < 2 ^ zlen reg1 -> func x = Ok (f x)) ->
      (forall x, 0 <= x < 2 ^ n -> v' (fxor n reg1 reg2 f x) = v x) -> node_sem rsqrt n groups v v' (KF func) CZero
  | sem_measure m p : 0 <= m < 2 ^ zlen (concat groups) ->
      p = marginal n (measured_order n (concat groups)) v m -> p <> 0%r ->
      (forall r, 0 <= r < 2 ^ n -> v' r = collapsed n (concat groups) m (rsqrt p) v r) ->
      node_sem rsqrt n groups v v' KMeasure (CMeas m p)
  | sem_probs ps : (forall r, 0 <= r < 2 ^ n -> v' r = v r) ->
      ps = map (marginal n (rev (concat groups)) v) (zrange 0 (2 ^ zlen (concat groups))) ->
      node_sem rsqrt n groups v v' (KStoch 0) (CProbs (inl ps))
  | sem_top k l : (forall r, 0 <= r < 2 ^ n -> v' r = v r) -> 2 ^ zlen (concat groups) <= k ->
      Permutation l (map (fun m => (m, marginal n (measured_order n (concat groups)) v m)) (zrange 0 (2 ^ zlen (concat groups)))) ->
      decreasing (map snd l) -> node_sem rsqrt n groups v v' (KStoch k) (CProbs (inr (map fst l, map snd l))).

  (** a sequence of executed nodes with what they report turns [v] into [v'] *)
  Inductive evolves (rsqrt : K -> K) h (srcs : list nat) (n : Z) : list (nat * cval K) -> (Z -> C) -> (Z -> C) -> Prop :=
  | evolves_nil v v' : (forall r, 0 <= r < 2 ^ n -> v' r = v r) -> evolves rsqrt h srcs n [] v v'
  | evolves_cons i cv l groups v v1 v' : Forall2 (wires h srcs) (inputs_of h i) groups ->
      node_sem rsqrt n groups v v1 (nd_kind (nd h i)) cv -> evolves rsqrt h srcs n l v1 v' ->
      evolves rsqrt h srcs n ((i, cv) :: l) v v'.

  (** ** requirements on circuits *)
  (** what a needed node must satisfy to be executable: ops and measurements have inputs and act on distinct qubits,
      no adjoint of a swap (C07), F leaves no qubit or as many qubits as its second register has (C27), top_k is 0 or not
      smaller than the number of outcomes (C25) *)
  Definition node_ok h (srcs : list nat) (n : Z) (i : nat) : Prop :=
    match nd_kind (nd h i) with
    | KQubit | KSplit _ => True
    | k =>
        inputs_of h i <> [] /\
        (forall gs, Forall2 (wires h srcs) (inputs_of h i) gs -> NoDup (concat gs)) /\
        match k with
        | KMat o true => has_swap o = false
        | KF func => forall reg1 reg2, Forall2 (wires h srcs) (inputs_of h i) [reg1; reg2] ->
            (zlen (others n reg1 reg2) = zlen reg2 \/ others n reg1 reg2 = []) /\
            exists f, forall x, 0 <= x < 2 ^ zlen reg1 -> func x = Ok (f x)
        | KStoch k => k = 0 \/ 2 ^ widths h (inputs_of h i) <= k
        | _ => True
        end
    end.
  Definition circuit_ok h args srcs n : Prop := forall i, ancestor h args i -> node_ok h srcs n i.
  (** no needed node measures *)
  Definition no_measure h args : Prop := forall i, ancestor h args i -> nd_kind (nd h i) <> KMeasure.

  (** the parallel loops run every iteration once; reads past the end of an array do not crash (F only) *)
  Definition scheds_ok (ev : env K) h (n : Z) : Prop := forall i,
    match nd_kind (nd h i) with
    | KMat _ _ => Permutation (e_sched ev i) (zrange 0 (2 ^ n))
    | KF _ => Permutation (e_sched ev i) (zrange 0 (2 ^ width h (hd O (inputs_of h i)))) /\ tame (e_mach ev)
    | _ => True
    end.

  (** ** initial state *)
  Definition key_nodes (k : fkey) : list nat := match k with FNode i => [i] | FTuple l => l end.
  Definition fed_nodes (feed : list (fkey * feed_t K)) : list nat := concat (map (fun kv => key_nodes (fst kv)) feed).
  (** the registers a feed dictionary sets, with their amplitudes *)
  Definition fed_registers h srcs (feed : list (fkey * feed_t K)) (fs : list (list Z * list C)) : Prop :=
    Forall2 (fun kv f => snd kv = FArr (snd f) /\
      exists gs, Forall2 (wires h srcs) (key_nodes (fst kv)) gs /\ fst f = concat gs) feed fs.
  (** the amplitudes the default of a node stands for; an int outside 1 .. 2^n-1 leaves the qubits at 0 *)
  Definition default_amps h (i : nat) : option (list C) :=
    match nd_default (nd h i) with
    | None => None
    | Some (DList l) | Some (DArray l) => Some l
    | Some (DInt d) => if (0 <? d) && (d <? 2 ^ width h i)
                       then Some (map (fun j => if (j =? d) then 1%r else 0%r) (zrange 0 (2 ^ width h i))) else None
    end.
  (** the registers set by the defaults of the nodes in [l] that are not fed *)
  Inductive default_registers h srcs (fed : list nat) : list nat -> list (list Z * list C) -> Prop :=
  | dr_nil : default_registers h srcs fed [] []
  | dr_skip i l ds : In i fed \/ default_amps h i = None -> default_registers h srcs fed l ds ->
      default_registers h srcs fed (i :: l) ds
  | dr_use i l ds g a : ~ In i fed -> default_amps h i = Some a -> wires h srcs i g ->
      default_registers h srcs fed l ds -> default_registers h srcs fed (i :: l) ((g, a) :: ds).
  (** a feed dictionary for the given sources: different keys, made of sources; [init] are the registers it sets,
      followed by those the defaults set *)
  Definition feed_ok h srcs n (feed : list (fkey * feed_t K)) (init : list (list Z * list C)) : Prop :=
    NoDup (map (fun kv => key_nodes (fst kv)) feed) /\ incl (fed_nodes feed) srcs /\
    exists fs ds, fed_registers h srcs feed fs /\ default_registers h srcs (fed_nodes feed) srcs ds /\
      init = fs ++ ds /\ feeds_ok n init.
  (** the registers a run starts from: those of the feed and the defaults, or, when the state argument is given as a
      list, all qubits with the amplitudes of that list *)
  Inductive initial h srcs n (feed : list (fkey * feed_t K)) : state_kw K -> list (list Z * list C) -> Prop :=
  | initial_feed init : feed_ok h srcs n feed init -> initial h srcs n feed SNone init
  | initial_state l : NoDup (map (fun kv => key_nodes (fst kv)) feed) -> incl (fed_nodes feed) srcs ->
      zlen l = 2 ^ n -> initial h srcs n feed (SList l) [(zrange 0 n, l)].

  (** [id] is a SplitQubit that selects the qubits at the positions [p] of [self] *)
  Definition selects h (self : nat) (p : list Z) (id : nat) : Prop :=
    nd_kind (nd h id) = KSplit p /\ inputs_of h id = [self] /\ width h id = zlen p.

  (** ** histories *)
  (** a program builds circuits and runs some of them: the objects it holds, the state of the ops' caches and the
      arguments of the runs so far, latest first *)
  Inductive session : heap K -> list nat -> cache K -> list (list nat) -> Prop :=
  | session_start : session empty_heap [] cache0 []
  | session_call h vis c l x h' ids : session h vis c l -> incl (call_refs x) vis -> exec h x = (h', Ok ids) ->
      session h' (vis ++ ids) c l
  | session_raise h vis c l x h' e : session h vis c l -> incl (call_refs x) vis -> exec h x = (h', Raise e) -> session h' vis c l
  | session_run h vis c l ev args feed strict state c' r : session h vis c l -> incl args vis -> enum_ok ev ->
      run ev c h args feed strict state = (c', r) -> session h vis c' (args :: l).
  (** ops needed by both circuits have the same input qubits in both *)
  Definition same_qubits h args args' : Prop := forall srcs srcs' i o d gs gs',
    sources h args srcs -> sources h args' srcs' -> ancestor h args i -> ancestor h args' i -> nd_kind (nd h i) = KMat o d ->
    Forall2 (wires h srcs) (inputs_of h i) gs -> Forall2 (wires h srcs') (inputs_of h i) gs' -> gs = gs'.
  Definition no_swap_dagger h (vis : list nat) : Prop :=
    forall i o, In i vis -> nd_kind (nd h i) = KMat o true -> has_swap o = false.

  (** the same nodes reported, with the same measurement outcomes *)
  Definition same_outcomes h (l l' : list (nat * cval K)) : Prop :=
    Forall2 (fun x y => fst x = fst y /\ (nd_kind (nd h (fst x)) = KMeasure -> snd x = snd y)) l l'.
End GraphSpec.
