(** Model of the circuit graph: qip/qip.py (node constructors, split, extract_index) and qip/pipeline.py
    (get_deps, run_graph, run, make_circuit_mat). Objects are addresses in a heap of nodes, in allocation order. *)
From Verif Require Import Base M_Bits M_Kron M_Ops M_Feed M_Func M_Measure.

(** a computation with a persistent state that may raise: the state survives the exception *)
Definition st (S A : Type) : Type := (S * res A)%type.
Definition sbind {S A B} (x : st S A) (f : S -> A -> st S B) : st S B :=
  match x with (s, Ok a) => f s a | (s, Raise e) => (s, Raise e) end.
(** a [for] loop over such computations *)
Fixpoint sfold {S I} (f : S -> I -> st S unit) (l : list I) (s : S) : st S unit :=
  match l with
  | [] => (s, Ok tt)
  | i :: l => sbind (f s i) (fun s _ => sfold f l s)
  end.

(** Python dictionaries whose keys are objects (identity equality, qip/pipeline.py:67-68 only defines the hash) *)
Fixpoint odict_get {V} (d : list (nat * V)) (k : nat) : res V :=
  match d with
  | [] => Raise KeyError
  | (k', v) :: d => if Nat.eqb k' k then Ok v else odict_get d k
  end.
Fixpoint odict_set {V} (d : list (nat * V)) (k : nat) (v : V) : list (nat * V) :=
  match d with
  | [] => [(k, v)]
  | (k', v') :: d => if Nat.eqb k' k then (k', v) :: d else (k', v') :: odict_set d k v
  end.
(** [x in l], for lists and sets of objects *)
Definition mem (x : nat) (l : list nat) : bool := existsb (Nat.eqb x) l.
(** [s.add(x)] / adding one element of [s.update(...)] *)
Definition set_add (s : list nat) (x : nat) : list nat := if mem x s then s else s ++ [x].

Section Graph.
  Context {K : Type} {OK : OrdRing K}.
  Notation C := (Cx K).

  (** the [default] argument: a list, another array-like, or an int *)
  Inductive default_t := DList (l : list C) | DArray (l : list C) | DInt (i : Z).

  (** node classes: Qubit (qip/qip.py:8), SplitQubit (:123), Measure (:135), StochasticMeasure (:161),
      the MatrixOp subclasses (qip/operators.py:9) with their dagger flag, FOp (qip/operators.py:271) *)
  Inductive kind :=
  | KQubit
  | KSplit (indices : list Z)
  | KMat (o : op K) (dagger : bool)
  | KF (func : Z -> res Z)
  | KMeasure
  | KStoch (top_k : Z).

  (** attributes of a node, qip/pipeline.py:8-14 and qip/qip.py:23-42. [quantum] is stored but never read. *)
  Record node := mkNode {
    nd_kind : kind; nd_inputs : list nat; nd_n : Z; nd_qid : Z; nd_default : option default_t; nd_sink : list nat }.
  (** the allocated nodes and the class variable Qubit.QID (qip/qip.py:13) *)
  Record heap := mkHeap { h_nodes : list node; h_qid : Z }.
  Definition empty_heap : heap := mkHeap [] 0.

  Definition dummy : node := mkNode KQubit [] 1 0 None [].
  (** dereference; the addresses used are always allocated *)
  Definition nd (h : heap) (i : nat) : node := nth i (h_nodes h) dummy.
  Definition size (h : heap) : nat := length (h_nodes h).

  (** [type(sink) == Qubit] *)
  Definition is_qubit (k : kind) : bool := match k with KQubit => true | _ => false end.

  Definition add_sink (h : heap) (i sink : nat) : heap :=
    let x := nd h i in
    mkHeap (upd (h_nodes h) i (mkNode (nd_kind x) (nd_inputs x) (nd_n x) (nd_qid x) (nd_default x) (nd_sink x ++ [sink])))
           (h_qid h).

  (** qip/qip.py:91-99 [set_sink] *)
  Definition set_sink (h : heap) (i sink : nat) : st heap unit :=
    if is_qubit (nd_kind (nd h sink)) then
      match nd_sink (nd h i) with
      | [] => (add_sink h i sink, Ok tt)
      | s0 :: _ =>
          if (nd_qid (nd h s0) =? nd_qid (nd h sink)) then (add_sink h i sink, Ok tt)
          else (h, Raise GenericException)
      end
    else (add_sink h i sink, Ok tt).

  Definition sum_n (h : heap) (inputs : list nat) : Z := fold_left (fun a q => a + nd_n (nd h q)) inputs 0.

  (** qip/qip.py:15-42 [Qubit.__init__] for an object of class [k]. [n], [qid] and [default] are None or given. *)
  Definition new_node (h : heap) (k : kind) (inputs : list nat) (n qid : option Z) (nosink : bool)
      (dflt : option default_t) : st heap nat :=
    let n := match n with
             | Some n => n
             | None => match inputs with [] => 1 | _ => sum_n h inputs end
             end in
    if match dflt with Some (DList l) => negb (zlen l =? 2 ^ n) | _ => false end then (h, Raise ValueError) else
    if n <=? 0 then (h, Raise GenericException) else
    let '(qid, nextqid) := match qid with Some q => (q, h_qid h) | None => (h_qid h, h_qid h + 1) end in
    let self := size h in
    let h := mkHeap (h_nodes h ++ [mkNode k inputs n qid dflt []]) nextqid in
    if nosink then (h, Ok self) else
    sbind (sfold (fun h item => set_sink h item self) inputs h) (fun h _ => (h, Ok self)).

  (** qip/qip.py:124-126 [SplitQubit.__init__] *)
  Definition new_split (h : heap) (indices : list Z) (inputs : list nat) (qid : option Z) : st heap nat :=
    new_node h (KSplit indices) inputs (Some (zlen indices)) qid false None.

  (** [self.n = n] *)
  Definition set_n (h : heap) (i : nat) (n : Z) : heap :=
    let x := nd h i in
    mkHeap (upd (h_nodes h) i (mkNode (nd_kind x) (nd_inputs x) n (nd_qid x) (nd_default x) (nd_sink x))) (h_qid h).
  (** qip/qip.py:138-146 [Measure.__init__] and :169-175 [StochasticMeasure.__init__] (nosink is not given):
      the constructor of Qubit sets the sinks, and they are set again here; Measure also sets n again (:141) *)
  Definition new_measure (h : heap) (k : kind) (inputs : list nat) : st heap nat :=
    sbind (new_node h k inputs None None false None) (fun h self =>
      let h := match k with KMeasure => set_n h self (sum_n h inputs) | _ => h end in
      sbind (sfold (fun h item => set_sink h item self) inputs h) (fun h _ => (h, Ok self))).

  (** qip/operators.py:275-285 [FOp.__init__] *)
  Definition new_f (h : heap) (func : Z -> res Z) (reg1 reg2 : nat) : st heap nat :=
    new_node h (KF func) [reg1; reg2] None None false None.

  (** op constructors: classes of qip/operators.py; [GC g nosink] is COp applied to the constructor g, and
      [nosink] says whether g honours the nosink argument COp passes (:209-211; a QubitOpWrapper drops it,
      qip/qubit_util.py:142-143, a class takes it) *)
  Inductive gate := GNot | GY | GZ | GH (s : K) | GR (e : C) | GSwap | GC (g : gate) (nosink : bool).

  (** [len(set(inputs)) < len(inputs)] *)
  Definition repeated (l : list nat) : bool := Nat.ltb (length (nodup Nat.eq_dec l)) (length l).

  (** the MatrixOp constructors: qip/operators.py:10-13 and the subclasses; SwapOp checks its inputs after the
      node has been linked (:137-142); COp (:198-216) checks, builds the inner op, and takes over its qid *)
  Fixpoint new_gate (h : heap) (g : gate) (inputs : list nat) (qid : option Z) (nosink dagger : bool) : st heap nat :=
    let simple o := new_node h (KMat o dagger) inputs None qid nosink None in
    match g with
    | GNot => simple ONot
    | GY => simple OY
    | GZ => simple OZ
    | GH s => simple (OH s)
    | GR e => simple (OR e)
    | GSwap =>
        sbind (simple (OSwap (match inputs with a :: _ => nd_n (nd h a) | [] => 0 end))) (fun h self =>
          match inputs with
          | [a; b] => if nd_n (nd h a) =? nd_n (nd h b) then (h, Ok self) else (h, Raise GenericException)
          | _ => (h, Raise GenericException)
          end)
    | GC g inner_nosink =>
        if (zlen inputs <? 2) then (h, Raise ValueError) else
        match inputs with
        | [] => (h, Raise ValueError)
        | c :: rest =>
            if negb (nd_n (nd h c) =? 1) then (h, Raise ValueError) else
            if repeated inputs then (h, Raise ValueError) else
            sbind (new_gate h g rest None inner_nosink dagger) (fun h inner =>
              match nd_kind (nd h inner) with
              | KMat o _ => new_node h (KMat (OC o) dagger) inputs None (Some (nd_qid (nd h inner))) nosink None
              | _ => (h, Raise ValueError)
              end)
        end
    end.

  (** ** split and extract_index *)
  (** stable insertion sort by a key: Python's sorted(l, key=...) *)
  Fixpoint insert_by {A} (key : A -> Z) (x : A) (l : list A) : list A :=
    match l with
    | [] => [x]
    | y :: l' => if (key y <=? key x) then y :: insert_by key x l' else x :: l
    end.
  Definition sort_by {A} (key : A -> Z) (l : list A) : list A := fold_left (fun acc x => insert_by key x acc) l [].
  Definition zmem (x : Z) (l : list Z) : bool := existsb (Z.eqb x) l.

  (** qip/qip.py:50-60: the boundaries, or None when the node itself is returned (:57-58) *)
  Definition split_bounds (h : heap) (self : nat) (indices : option (list Z)) : option (list Z) :=
    match indices with
    | None =>
        let l := snd (fold_left (fun '(index, l) q => (index + nd_n (nd h q), l ++ [nd_n (nd h q) + index]))
                                (nd_inputs (nd h self)) (0, [])) in
        if (zlen l =? 1) then None else Some l
    | Some l => Some (sort_by (fun x => x) l)
    end.

  (** qip/qip.py:69-74: one SplitQubit per pair of neighbouring boundaries, all with the qid of the first *)
  Fixpoint split_loop (h : heap) (self : nat) (bounds : list Z) (qid : option Z) (qs : list nat) : st heap (list nat) :=
    match bounds with
    | startn :: (endn :: _) as rest =>
        sbind (new_split h (zrange startn endn) [self] qid) (fun h sq =>
          split_loop h self rest (Some (nd_qid (nd h sq))) (qs ++ [sq]))
    | _ => (h, Ok qs)
    end.

  (** qip/qip.py:44-76 [split] *)
  Definition split (h : heap) (self : nat) (indices : option (list Z)) : st heap (list nat) :=
    match split_bounds h self indices with
    | None => (h, Ok [self])
    | Some indices =>
        let indices := if zmem 0 indices then indices else 0 :: indices in
        let indices := if zmem (nd_n (nd h self)) indices then indices else indices ++ [nd_n (nd h self)] in
        split_loop h self indices None []
    end.

  (** the argument of extract_index: an int or an iterable; an int is not iterable, and the test
      [indices == int] (qip/qip.py:84) is false of both *)
  Inductive index_arg := IInt (i : Z) | IList (l : list Z).
  (** qip/qip.py:78-89 [extract_index] *)
  Definition extract_index (h : heap) (self : nat) (indices : index_arg) : st heap (list nat) :=
    match indices with
    | IInt _ => (h, Raise TypeError)
    | IList indices =>
        let n := nd_n (nd h self) in
        sbind (new_split h (filter (fun i => (0 <=? i) && (i <? n)) indices) [self] None) (fun h sq =>
        sbind (new_split h (filter (fun i => negb (zmem i indices) && ((0 <=? i) && (i <? n))) (zrange 0 n)) [self]
                 (Some (nd_qid (nd h sq)))) (fun h qs => (h, Ok [sq; qs])))
    end.

  (** ** get_deps and run_graph *)
  (** the nondeterminism of a run: which element set.pop() returns at each step, the order list(set) lists the
      elements in, the prange schedules of each node's kernel, the random draw of each Measure node and the initial
      content of its uninitialised accumulator, the content of fresh numpy.ndarray memory, what undefined behaviour in
      func_apply yields *)
  Record env := mkEnv {
    e_pick : nat -> nat; e_enum : list nat -> list nat; e_sched : nat -> list Z;
    e_rand : nat -> K; e_acc0 : nat -> K; e_rsqrt : K -> K; e_junk : Z -> C;
    e_mach : machine }.

  (** qip/pipeline.py:153-159. [node in feed] is left out: run only passes feeds whose keys are tuples (:90), and a
      node never equals a tuple. [fuel] bounds the iterations. *)
  Fixpoint deps_loop (pick : nat -> nat) (h : heap) (fuel : nat) (frontier seen deps : list nat)
    : res (list nat * list nat) :=
    match frontier with
    | [] => Ok (deps, seen)
    | x0 :: _ =>
        match fuel with
        | O => Raise OutOfFuel
        | S fuel =>
            let k := Nat.modulo (pick fuel) (length frontier) in
            let node := nth k frontier x0 in
            let frontier := firstn k frontier ++ skipn (S k) frontier in
            let '(deps, frontier) :=
              match nd_inputs (nd h node) with
              | [] => (set_add deps node, frontier)
              | inputs => (deps, fold_left set_add inputs frontier)
              end in
            deps_loop pick h fuel frontier (set_add seen node) deps
        end
    end.
  (** qip/pipeline.py:138-160 [get_deps]; the fuel is enough for every heap whose nodes only have older inputs *)
  Definition get_deps (ev : env) (h : heap) (args : list nat) : res (list nat * list nat) :=
    do r <- deps_loop (e_pick ev) h (Nat.pow 2 (size h)) (fold_left set_add args []) [] [];
    Ok (e_enum ev (fst r), snd r).

  (** qip/pipeline.py:118-122 and 195-200: consecutive positions for the top level nodes *)
  Definition assign_indices (h : heap) (frontier : list nat) : list (nat * list Z) * Z :=
    fold_left (fun '(d, n) q => (odict_set d q (zrange n (n + nd_n (nd h q))), n + nd_n (nd h q))) frontier ([], 0).

  (** [node.select_index(indices)]: qip/pipeline.py:44-50, SplitQubit qip/qip.py:128-129 *)
  Definition select_index (k : kind) (indices : list Z) : res (list Z) :=
    match k with KSplit l => mmap (fun i => pyget indices i) l | _ => Ok indices end.

  (** qip/pipeline.py:213-222: the loop over node.sink *)
  Definition push_sinks (h : heap) (graphnodes seen : list nat) (sinks : list nat)
      (frontier : list nat) (qbitindex : list (nat * list Z)) : res (list nat * list (nat * list Z)) :=
    mfold (fun '(frontier, qbitindex) nextnode =>
      if mem nextnode graphnodes && negb (mem nextnode seen) && negb (mem nextnode frontier) then
        if forallb (fun prev => mem prev seen) (nd_inputs (nd h nextnode)) then
          do gs <- mmap (odict_get qbitindex) (nd_inputs (nd h nextnode));
          do sel <- select_index (nd_kind (nd h nextnode)) (concat gs);
          Ok (frontier ++ [nextnode], odict_set qbitindex nextnode sel)
        else Ok (frontier, qbitindex)
      else Ok (frontier, qbitindex)) sinks (frontier, qbitindex).

  Definition qid_of (h : heap) (i : nat) : Z := nd_qid (nd h i).

  (** qip/pipeline.py:202-222. [feed acc node groups] is graphacc.feed; it is given the index groups
      [qbitindex[q] for q in node.inputs], which is all that NodeFeeder (:236, :29) and PrintFeeder (:262) read.
      remap_index (:209) is the identity for every class. *)
  Fixpoint graph_loop {A} (feed : A -> nat -> list (list Z) -> st A unit) (h : heap) (graphnodes : list nat)
      (fuel : nat) (frontier seen : list nat) (qbitindex : list (nat * list Z)) (a : A) : st A unit :=
    match sort_by (qid_of h) frontier with
    | [] => (a, Ok tt)
    | node :: frontier =>
        match fuel with
        | O => (a, Raise OutOfFuel)
        | S fuel =>
            match mmap (odict_get qbitindex) (nd_inputs (nd h node)) with
            | Raise e => (a, Raise e)
            | Ok groups =>
                sbind (feed a node groups) (fun a _ =>
                  let seen := set_add seen node in
                  match push_sinks h graphnodes seen (nd_sink (nd h node)) frontier qbitindex with
                  | Raise e => (a, Raise e)
                  | Ok (frontier, qbitindex) => graph_loop feed h graphnodes fuel frontier seen qbitindex a
                  end)
            end
        end
    end.
  (** qip/pipeline.py:186-222 [run_graph] *)
  Definition run_graph {A} (feed : A -> nat -> list (list Z) -> st A unit) (h : heap) (frontier graphnodes : list nat)
      (a : A) : st A unit :=
    graph_loop feed h graphnodes (length graphnodes) frontier []
      (fst (assign_indices h (sort_by (qid_of h) frontier))) a.

  (** ** Executing nodes *)
  (** the annotation a node returns: 0, a measurement result, probabilities or the top k *)
  Inductive cval := CZero | CMeas (bits : Z) (prob : K) | CProbs (p : list K + (list Z * list K)).
  (** self.ms of each MatrixOp (qip/operators.py:12, 18); it survives from one run to the next *)
  Definition cache := nat -> option (mats_arg K).
  Definition cache0 : cache := fun _ => None.
  Definition cache_set (c : cache) (i : nat) (ms : mats_arg K) : cache := fun j => if Nat.eqb j i then Some ms else c j.

  (** qip/operators.py:20-23 *)
  Definition adj_ms (ms : mats_arg K) : res (mats_arg K) :=
    mmap (fun '(k, m) => do m <- mat_conj m; do m <- mat_T m; Ok (k, m)) ms.
  (** qip/operators.py:17-23: the dictionary the op uses, and the cache afterwards *)
  Definition op_mats (c : cache) (i : nat) (o : op K) (dagger : bool) (groups : list (list Z)) : st cache (mats_arg K) :=
    match c i with
    | Some ms => (c, Ok ms)
    | None =>
        match makemats o groups with
        | Raise e => (c, Raise e)
        | Ok ms =>
            let c := cache_set c i ms in
            if dagger then
              match adj_ms ms with
              | Raise e => (c, Raise e)
              | Ok ms => (cache_set c i ms, Ok ms)
              end
            else (c, Ok ms)
        end
    end.

  (** qip/backend.py:112-116 *)
  Definition bk_kron (sched : list Z) (b : backend K) (ms : mats_arg K) : res (backend K) :=
    do out <- kronselect_dot ms (bk_state b) (bk_n b) (bk_arena b) 0 0 (Cython sched);
    Ok (mkBackend (bk_n b) out (bk_state b)).

  (** NodeFeeder, qip/pipeline.py:225-240: backend, n, classic_map; and the caches of the ops *)
  Record acc := mkAcc { a_back : backend K; a_n : Z; a_cm : list (nat * cval); a_cache : cache }.

  (** qip/pipeline.py:236-240 with the feed_indices method of the node's class: identity (qip/pipeline.py:31-42),
      MatrixOp (qip/operators.py:15-26), FOp (:287-292), Measure (qip/qip.py:148-155),
      StochasticMeasure (:177-182). No class removes qubits: n_bits is 0. *)
  Definition node_feed (ev : env) (h : heap) (a : acc) (i : nat) (groups : list (list Z)) : st acc unit :=
    let ok b c bits := (mkAcc b (a_n a - 0) (odict_set (a_cm a) i bits) c, Ok tt) in
    match nd_kind (nd h i) with
    | KQubit | KSplit _ => ok (a_back a) (a_cache a) CZero
    | KMat o dagger =>
        match op_mats (a_cache a) i o dagger groups with
        | (c, Raise e) => (mkAcc (a_back a) (a_n a) (a_cm a) c, Raise e)
        | (c, Ok ms) =>
            match bk_kron (e_sched ev i) (a_back a) ms with
            | Raise e => (mkAcc (a_back a) (a_n a) (a_cm a) c, Raise e)
            | Ok b => ok b c CZero
            end
        end
    | KF func =>
        match fop_feed (e_mach ev) (e_sched ev i) (a_back a) groups func (a_n a) with
        | Raise e => (a, Raise e)
        | Ok b => ok b (a_cache a) CZero
        end
    | KMeasure =>
        match bk_measure (e_rsqrt ev) (e_rand ev i) (e_acc0 ev i) (a_back a) (concat groups) None None 0 0 with
        | Raise e => (a, Raise e)
        | Ok ((m, p), b) => ok b (a_cache a) (CMeas m p)
        end
    | KStoch top_k =>
        match bk_measure_probabilities (a_back a) (concat groups) top_k with
        | Raise e => (a, Raise e)
        | Ok p => ok (a_back a) (a_cache a) (CProbs p)
        end
    end.

  (** ** run *)
  (** keys of the feed argument: a node or a tuple of nodes *)
  Inductive fkey := FNode (i : nat) | FTuple (l : list nat).
  Definition fkey_tuple (k : fkey) : list nat := match k with FNode i => [i] | FTuple l => l end.
  Fixpoint olist_eqb (a b : list nat) : bool :=
    match a, b with
    | [], [] => true
    | x :: a, y :: b => Nat.eqb x y && olist_eqb a b
    | _, _ => false
    end.
  (** dictionaries whose keys are tuples of nodes *)
  Fixpoint tdict_set {V} (d : list (list nat * V)) (k : list nat) (v : V) : list (list nat * V) :=
    match d with
    | [] => [(k, v)]
    | (k', v') :: d => if olist_eqb k' k then (k', v) :: d else (k', v') :: tdict_set d k v
    end.

  (** qip/pipeline.py:105-106: numpy.zeros((2**n,)) with entry i set to 1.0 *)
  Definition basis_vec (n i : Z) : list C := map (fun j => if (j =? i) then 1%r else 0%r) (zrange 0 (2 ^ n)).

  (** qip/pipeline.py:101-109: the defaults of the top level nodes that are not in the feed *)
  Definition add_defaults (h : heap) (frontier : list nat) (all_qubits_in_feed : list nat)
      (feed : list (list nat * feed_t K)) : list (list nat * feed_t K) :=
    fold_left (fun feed q =>
      if mem q all_qubits_in_feed then feed else
      match nd_default (nd h q) with
      | None => feed
      | Some (DInt d) =>
          if (0 <? d) && (d <? 2 ^ nd_n (nd h q)) then tdict_set feed [q] (FArr (basis_vec (nd_n (nd h q)) d)) else feed
      | Some (DList l) => tdict_set feed [q] (FArr l)
      | Some (DArray l) => tdict_set feed [q] (FArr l)
      end) frontier feed.

  (** the deprecated keyword argument state: missing, an int, a list, a numpy array *)
  Inductive state_kw := SNone | SInt (i : Z) | SList (l : list C) | SArray (l : list C).
  (** [kwargs['state']] used as a condition (qip/pipeline.py:129): the truth value of an array with more than one
      element raises ValueError *)
  Definition truthy (s : state_kw) : res bool :=
    match s with
    | SNone => Ok false
    | SInt i => Ok (negb (i =? 0))
    | SList l => Ok (match l with [] => false | _ => true end)
    | SArray [] => Ok false
    | SArray [x] => Ok (negb (cx_is0 x))
    | SArray _ => Raise ValueError
    end.
  Definition state_feed (s : state_kw) : feed_t K :=
    match s with SNone => FInt 0 | SInt i => FInt i | SList l => FArr l | SArray l => FArr l end.

  (** qip/pipeline.py:71-135 [run] with the default backend; [c] are the op caches before the run *)
  Definition run (ev : env) (c : cache) (h : heap) (args : list nat) (feed : list (fkey * feed_t K)) (strict : bool)
      (state : state_kw) : st cache (list C * list (nat * cval)) :=
    let feed := fold_left (fun d '(k, v) => tdict_set d (fkey_tuple k) v) feed [] in
    let all_qubits_in_feed := concat (map fst feed) in
    match get_deps ev h args with
    | Raise e => (c, Raise e)
    | Ok (frontier, graphnodes) =>
        let feed := add_defaults h frontier all_qubits_in_feed feed in
        let frontier := sort_by (qid_of h) frontier in
        if strict && negb (forallb (fun q => mem q all_qubits_in_feed) frontier) then (c, Raise ValueError) else
        let '(qbitindex, n) := assign_indices h frontier in
        match (do feed_index_groups <- mmap (fun '(qs, _) => do gs <- mmap (odict_get qbitindex) qs; Ok (concat gs)) feed;
               do use_state <- truthy state;
               let '(groups, states) := if use_state then ([zrange 0 n], [state_feed state])
                                        else (feed_index_groups, map snd feed) in
               make_state (e_junk ev) n groups states None None None None) with
        | Raise e => (c, Raise e)
        | Ok b =>
            (* feed_forward, qip/pipeline.py:243-248 *)
            match run_graph (node_feed ev h) h frontier graphnodes
                    (mkAcc b (fold_left (fun s f => s + nd_n (nd h f)) frontier 0) [] c) with
            | (a, Raise e) => (a_cache a, Raise e)
            | (a, Ok _) => (a_cache a, Ok (bk_state (a_back a), a_cm a))
            end
        end
    end.

  (** qip/pipeline.py:163-178 [make_circuit_mat]: the columns of the matrix. The assignment mat[:,i] = o of a
      vector of another length would raise ValueError; all runs return vectors of the same length. *)
  Fixpoint columns (ev : env) (c : cache) (h : heap) (args : list nat) (is_ : list Z) : st cache (list (list C)) :=
    match is_ with
    | [] => (c, Ok [])
    | i :: is_ =>
        sbind (run ev c h args [] false (SInt i)) (fun c o =>
        sbind (columns ev c h args is_) (fun c cols => (c, Ok (fst o :: cols))))
    end.
  Definition make_circuit_mat (ev : env) (c : cache) (h : heap) (args : list nat) : st cache (list (list C)) :=
    sbind (run ev c h args [] false SNone) (fun c o =>
      let n := Z.log2 (zlen (fst o)) in
      sbind (columns ev c h args (zrange 1 (2 ^ n))) (fun c cols => (c, Ok (fst o :: cols)))).

  (** ** Calls a program makes to build a circuit *)
  (** Only the public arguments: qid and nosink (internal, qip/qip.py:21) are not given; n is given for fresh
      qubits only (qip/qip.py:20 "set by inputs if inputs given"). *)
  Inductive call :=
  | NewQubit (n : option Z) (dflt : option default_t)
  | Identity (inputs : list nat)
  | Gate (g : gate) (inputs : list nat) (dagger : bool)
  | Fun (func : Z -> res Z) (reg1 reg2 : nat)
  | Meas (inputs : list nat)
  | Stoch (inputs : list nat) (top_k : Z)
  | Split (q : nat) (indices : option (list Z))
  | Extract (q : nat) (indices : index_arg).
  (** the objects a call is given *)
  Definition call_refs (c : call) : list nat :=
    match c with
    | NewQubit _ _ => []
    | Identity l | Gate _ l _ | Meas l | Stoch l _ => l
    | Fun _ a b => [a; b]
    | Split q _ | Extract q _ => [q]
    end.
  Definition one (x : st heap nat) : st heap (list nat) := sbind x (fun h i => (h, Ok [i])).
  Definition exec (h : heap) (c : call) : st heap (list nat) :=
    match c with
    | NewQubit n d => one (new_node h KQubit [] n None false d)
    | Identity l => one (new_node h KQubit l None None false None)
    | Gate g l dagger => one (new_gate h g l None false dagger)
    | Fun f a b => one (new_f h f a b)
    | Meas l => one (new_measure h KMeasure l)
    | Stoch l k => one (new_measure h (KStoch k) l)
    | Split q l => split h q l
    | Extract q l => extract_index h q l
    end.
  (** the heaps programs can build, with the objects they hold: every call is given objects returned before;
      a call that raises may leave unreachable objects behind *)
  Inductive built : heap -> list nat -> Prop :=
  | built_empty : built empty_heap []
  | built_ok h vis c h' ids : built h vis -> incl (call_refs c) vis -> exec h c = (h', Ok ids) -> built h' (vis ++ ids)
  | built_raise h vis c h' e : built h vis -> incl (call_refs c) vis -> exec h c = (h', Raise e) -> built h' vis.
End Graph.
Arguments node K : clear implicits.
Arguments heap K : clear implicits.
Arguments kind K : clear implicits.
Arguments env K : clear implicits.
Arguments cache K : clear implicits.
Arguments acc K : clear implicits.
Arguments call K : clear implicits.
Arguments gate K : clear implicits.
Arguments default_t K : clear implicits.
Arguments cval K : clear implicits.
Arguments state_kw K : clear implicits.
