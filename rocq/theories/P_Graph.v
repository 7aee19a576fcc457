(** Properties C28-C34: circuit graphs and their execution. *)
From Coq Require Import Sorted.
From Verif Require Import Base S_Bits M_Kron M_Ops S_Ops M_Feed S_Feed M_Func S_Func M_Measure S_Measure M_Graph S_Graph
  L_Graph1 L_Graph2 L_Graph5 L_Graph7 L_Graph8 L_Graph9 L_Graph10 L_Graph11 L_Graph12.

(** ** Data for the examples
    q = Qubit(n=2); p = Qubit(default=[0, 1]); a, b = q.split([1]); c = C(Not)(a, p); d = R(i)(b, dagger=True);
    s = StochasticMeasure(c); the circuit [s, d] *)
Definition exg_calls : list (call Z) :=
  [NewQubit (Some 2) None; NewQubit None (Some (DList [(0, 0); (1, 0)])); Split 0 (Some [1]);
   Gate (GC GNot true) [2; 1]%nat false; Gate (GR (0, 1)) [3]%nat true; Stoch [5]%nat 0].
Definition exg : heap Z * list nat :=
  Eval vm_compute in match program exg_calls empty_heap [] with Some x => x | None => (empty_heap, []) end.
Definition exg_h : heap Z := fst exg.
Definition exg_vis : list nat := snd exg.
Definition exg_args : list nat := [7; 6]%nat.
Definition exg_needed : list nat := [0; 1; 2; 3; 5; 6; 7]%nat.
Definition exg_srcs : list nat := [0; 1]%nat.
Definition exg_ev : env Z :=
  mkEnv (fun i => i) (fun l => rev l) (fun _ => rev (zrange 0 8)) (fun _ => 0) (fun _ => 0) (fun x => x) (fun i => (i, 7)) strict.
Definition exg_feed : list (fkey * feed_t Z) := [(FNode 0, FArr [(0, 0); (0, 0); (1, 0); (0, 2)])].
Definition exg_init : list (list Z * list (Cx Z)) :=
  [([0; 1], [(0, 0); (0, 0); (1, 0); (0, 2)]); ([2], [(0, 0); (1, 0)])].

Lemma exg_built : built exg_h exg_vis.
Proof. apply (program_built exg_calls empty_heap []); [constructor|vm_compute; reflexivity]. Qed.
Lemma exg_session : session exg_h exg_vis cache0 [].
Proof. apply (program_session exg_calls cache0 [] empty_heap []); [constructor|vm_compute; reflexivity]. Qed.
Lemma exg_incl : incl exg_args exg_vis.
Proof. intros i [<-|[<-|[]]]; cbn; auto 12. Qed.
Lemma exg_splits : splits_in_range exg_h exg_vis.
Proof.
  intros i idx k Hi Hk Hin. cbn in Hi. repeat destruct Hi as [<-|Hi]; cbn in Hk; try discriminate; try (destruct Hi; fail);
    inversion Hk; subst; destruct Hin as [<-|[]]; cbn; lia.
Qed.
Lemma exg_anc : forall i, ancestor exg_h exg_args i <-> In i exg_needed.
Proof.
  apply anc_iff.
  - intros i [<-|[<-|[]]]; cbn; auto 12.
  - intros i Hi. cbn in Hi. repeat destruct Hi as [<-|Hi]; try (destruct Hi; fail); intros j Hj; cbn in Hj |- *; intuition.
  - assert (A7 : ancestor exg_h exg_args 7) by (apply anc_arg; left; auto).
    assert (A6 : ancestor exg_h exg_args 6) by (apply anc_arg; right; left; auto).
    assert (A5 : ancestor exg_h exg_args 5) by (apply (anc_input _ _ 7); cbn; auto).
    assert (A3 : ancestor exg_h exg_args 3) by (apply (anc_input _ _ 6); cbn; auto).
    assert (A2 : ancestor exg_h exg_args 2) by (apply (anc_input _ _ 5); cbn; auto).
    assert (A1 : ancestor exg_h exg_args 1) by (apply (anc_input _ _ 5); cbn; auto).
    assert (A0 : ancestor exg_h exg_args 0) by (apply (anc_input _ _ 2); cbn; auto).
    unfold exg_needed. repeat (apply Forall_cons; [assumption|]). constructor.
Qed.
Lemma exg_sources : sources exg_h exg_args exg_srcs.
Proof. apply (sources_iff _ _ exg_needed); [exact exg_anc|repeat constructor|reflexivity]. Qed.
Lemma exg_ok : circuit_ok exg_h exg_args exg_srcs 3.
Proof.
  apply (circuit_ok_iff _ exg_vis _ exg_needed); [exact exg_built|exact exg_incl|exact exg_splits|exact exg_anc|exact exg_sources|].
  unfold exg_needed. repeat (apply Forall_cons; [vm_compute; try exact I; (split; [discriminate|split; [|auto]]);
    repeat (constructor; [cbn; intuition discriminate|]); constructor|]). constructor.
Qed.
Lemma exg_noswap : no_swap_dagger exg_h exg_vis.
Proof.
  intros i o Hi Hk. cbn in Hi. repeat destruct Hi as [<-|Hi]; cbn in Hk; try discriminate; try (destruct Hi; fail); inversion Hk; reflexivity.
Qed.
Lemma exg_env : enum_ok exg_ev /\ scheds_ok exg_ev exg_h 3.
Proof.
  split; [intros l; symmetry; apply Permutation_rev|]. intros i. cbn [exg_ev e_sched].
  do 8 (destruct i as [|i]; [cbn; auto; try (symmetry; apply (Permutation_rev (zrange 0 8)))|]).
  destruct i; cbn; auto.
Qed.
Lemma exg_initial : initial exg_h exg_srcs 3 exg_feed SNone exg_init.
Proof.
  assert (W0 : wires exg_h exg_srcs 0 [0; 1]) by (apply (wires_source exg_h exg_srcs [] 0 [1%nat]); reflexivity).
  assert (W1 : wires exg_h exg_srcs 1 [2]) by (apply (wires_source exg_h exg_srcs [0%nat] 1 []); reflexivity).
  constructor. split; [cbn; repeat constructor; cbn; tauto|]. split; [intros i [<-|[]]; cbn; auto|].
  exists [([0; 1], [(0, 0); (0, 0); (1, 0); (0, 2)])], [([2], [(0, 0); (1, 0)])]. split; [|split; [|split; [reflexivity|]]].
  - repeat constructor. cbn. exists [[0; 1]]. split; auto.
  - apply dr_skip; [left; left; auto|]. apply dr_use; [cbn; intuition discriminate|reflexivity|exact W1|constructor].
  - split; [split; [cbn; repeat constructor; cbn; intuition discriminate|cbn; intros q Hq; intuition; subst; lia]|].
    intros g a [E|[E|[]]]; inversion E; reflexivity.
Qed.

(** ** C28: for every graph a program builds, every argument list and every enumeration of the sets, run_graph feeds
    exactly the needed nodes, each once, in creation order and so each after its inputs *)
Theorem C28_run_order : forall {K} {OK : OrdRing K} (h : heap K) vis args,
  built h vis -> incl args vis -> splits_in_range h vis ->
  exists srcs order groups, sources h args srcs /\ StronglySorted lt order /\ (forall i, In i order <-> ancestor h args i) /\
    (forall l1 i l2, order = l1 ++ i :: l2 -> incl (inputs_of h i) l1) /\
    (forall i, In i order -> Forall2 (wires h srcs) (inputs_of h i) (groups i)) /\
    forall ev, enum_ok ev -> exists frontier graphnodes, get_deps ev h args = Ok (frontier, graphnodes) /\
      forall A (feed : A -> nat -> list (list Z) -> st A unit) a,
        run_graph feed h frontier graphnodes a = sfold (fun a i => feed a i (groups i)) order a.
Proof. exact @run_trace. Qed.
Print Assumptions C28_run_order.
Example C28_ex : built exg_h exg_vis /\ incl exg_args exg_vis /\ splits_in_range exg_h exg_vis /\
  get_deps exg_ev exg_h exg_args = Ok ([1; 0], [6; 7; 5; 3; 0; 2; 1])%nat /\
  run_graph (fun (a : list (nat * list (list Z))) i gs => (a ++ [(i, gs)], Ok tt)) exg_h [1; 0]%nat [6; 7; 5; 3; 0; 2; 1]%nat []
  = ([(0%nat, []); (1%nat, []); (2%nat, [[0; 1]]); (3%nat, [[0; 1]]); (5%nat, [[0]; [2]]); (6%nat, [[1]]); (7%nat, [[0; 2]])], Ok tt).
Proof.
  split; [exact exg_built|]. split; [exact exg_incl|]. split; [exact exg_splits|]. split; vm_compute; reflexivity.
Qed.

(** ** C29: the positions of every needed node are determined, as many as it has qubits, within the state;
    C28_run_order says that they are what run_graph passes on *)
Theorem C29_node_qubits : forall {K} (h : heap K) vis args srcs i,
  built h vis -> incl args vis -> splits_in_range h vis -> sources h args srcs -> ancestor h args i ->
  exists w, wires h srcs i w /\ (forall w', wires h srcs i w' -> w' = w) /\ zlen w = width h i /\
    forall q, In q w -> 0 <= q < widths h srcs.
Proof. exact @node_wires. Qed.
Print Assumptions C29_node_qubits.
Example C29_ex : sources exg_h exg_args exg_srcs /\ ancestor exg_h exg_args 5 /\
  wires exg_h exg_srcs 5 [0; 2] /\ width exg_h 5 = 2 /\ widths exg_h exg_srcs = 3.
Proof.
  split; [exact exg_sources|]. split; [apply exg_anc; cbn; auto 12|]. split; [|split; reflexivity].
  apply (wires_keep exg_h exg_srcs 5 [[0]; [2]]); [discriminate|discriminate|].
  constructor; [|constructor; [apply (wires_source exg_h exg_srcs [0%nat] 1 []); reflexivity|constructor]].
  apply (wires_split exg_h exg_srcs 2 [0] [[0; 1]]); [reflexivity|discriminate| |].
  - constructor; [|constructor]. apply (wires_source exg_h exg_srcs [] 0 [1%nat]); reflexivity.
  - repeat constructor. lia.
Qed.

(** ** C30 *)
(** split(indices): the pieces are consecutive, not empty, cover the qubits and start at the given indices *)
Theorem C30_split_indices : forall {K} (h : heap K) vis self l,
  built h vis -> In self vis -> 0 < width h self -> NoDup l -> (forall x, In x l -> 0 <= x <= width h self) ->
  exists h' ids pieces, exec h (Split self (Some l)) = (h', Ok ids) /\ Forall2 (selects h' self) pieces ids /\
    (forall i, In i ids -> ~ In i vis) /\
    concat pieces = zrange 0 (width h self) /\ (forall p, In p pieces -> p <> []) /\
    forall x, In x (map (hd 0) pieces) <-> x = 0 \/ (In x l /\ x <> width h self).
Proof. exact @built_split_indices. Qed.
Print Assumptions C30_split_indices.
(** split() of an object with two or more inputs: one piece for each input, as wide as that input *)
Theorem C30_split : forall {K} (h : heap K) vis self,
  built h vis -> In self vis -> (length (inputs_of h self) >= 2)%nat -> (forall i, In i (inputs_of h self) -> 0 < width h i) ->
  exists h' ids pieces, exec h (Split self None) = (h', Ok ids) /\ Forall2 (selects h' self) pieces ids /\
    (forall i, In i ids -> ~ In i vis) /\
    map zlen pieces = map (width h) (inputs_of h self) /\ concat pieces = zrange 0 (width h self).
Proof. exact @built_split_inputs. Qed.
Print Assumptions C30_split.
(** with one input split() returns the object itself, without inputs one output with all qubits *)
Theorem C30_split_trivial : forall {K} (h : heap K) vis self,
  built h vis -> In self vis ->
  ((exists q, inputs_of h self = [q]) -> exec h (Split self None) = (h, Ok [self])) /\
  (inputs_of h self = [] -> 0 < width h self ->
   exists h' id, exec h (Split self None) = (h', Ok [id]) /\ selects h' self (zrange 0 (width h self)) id).
Proof. exact @built_split_trivial. Qed.
Print Assumptions C30_split_trivial.
(** extract_index(indices): the selected qubits in the given order, then the others in increasing order *)
Theorem C30_extract : forall {K} (h : heap K) vis self l,
  built h vis -> In self vis -> NoDup l -> (forall x, In x l -> 0 <= x < width h self) -> l <> [] ->
  (exists x, 0 <= x < width h self /\ ~ In x l) ->
  exists h' sq qs, exec h (Extract self (IList l)) = (h', Ok [sq; qs]) /\ ~ In sq vis /\ ~ In qs vis /\
    selects h' self l sq /\ selects h' self (filter (fun i => negb (existsb (Z.eqb i) l)) (zrange 0 (width h self))) qs.
Proof. exact @built_extract. Qed.
Print Assumptions C30_extract.
(** outputs whose pieces cover the positions of the object hold exactly its qubits *)
Theorem C30_qubits : forall {K} (h : heap K) srcs self w pieces ids,
  wires h srcs self w -> Forall2 (selects h self) pieces ids -> concat pieces = zrange 0 (zlen w) ->
  exists ws, Forall2 (wires h srcs) ids ws /\ concat ws = w.
Proof. exact @partition_wires. Qed.
Print Assumptions C30_qubits.
Example C30_ex : In 0%nat exg_vis /\ width exg_h 0 = 2 /\ In 5%nat exg_vis /\ length (inputs_of exg_h 5) = 2%nat /\
  map (fun i => nd_kind (nd (fst (exec exg_h (Split 5 None))) i)) [8; 9]%nat = [KSplit [0]; KSplit [1]] /\
  map (fun i => nd_kind (nd (fst (exec exg_h (Extract 5 (IList [1])))) i)) [8; 9]%nat = [KSplit [1]; KSplit [0]].
Proof. do 5 (split; [vm_compute; auto 12|]); vm_compute; reflexivity. Qed.
(** invalid index lists: split accepts indices outside the register ([-1; 0] makes a second output with the last
    qubit, [1; 2; 3] an output with a qubit that does not exist), and extract_index drops them or duplicates qubits silently *)
Theorem C30_invalid_refuted : exists (h : heap Z) vis self, built h vis /\ In self vis /\ width h self = 2 /\
  (forall l, In l [[-1; 0]; [1; 2; 3]] -> exists h' ids, exec h (Split self (Some l)) = (h', Ok ids) /\
     exists p, In p ids /\ exists k idx, nd_kind (nd h' p) = KSplit idx /\ In k idx /\ ~ (0 <= k < 2)) /\
  (exists h' a b, exec h (Extract self (IList [0; 0; 7])) = (h', Ok [a; b]) /\ nd_kind (nd h' a) = KSplit [0; 0] /\ nd_kind (nd h' b) = KSplit [1]) /\
  snd (exec h (Extract self (IInt 0))) = Raise TypeError /\ snd (exec h (Extract self (IList [0; 1]))) = Raise GenericException.
Proof. exact invalid_splits. Qed.
Print Assumptions C30_invalid_refuted.

(** ** C31 *)
(** every op accepts a qubit, whether or not it has been used before *)
Theorem C31_refuted : forall {K} (h : heap K) vis q d,
  built h vis -> In q vis -> 0 < width h q ->
  exists h' id, exec h (Gate GNot [q] d) = (h', Ok [id]) /\ inputs_of h' id = [q].
Proof. exact @built_accepts. Qed.
Print Assumptions C31_refuted.
Example C31_ex : In 3%nat exg_vis /\ In 6%nat exg_vis /\ In 3%nat (inputs_of exg_h 6) /\ 0 < width exg_h 3 /\
  snd (exec exg_h (Gate GNot [3%nat] false)) = Ok [8%nat].
Proof. repeat split; cbn; auto 12. Qed.
(** only the identity node Qubit(...) raises when one of its inputs has been used *)
Theorem C31_identity_partial : forall {K} (h : heap K) vis l q user,
  built h vis -> incl l vis -> In q l -> In user vis -> In q (inputs_of h user) ->
  snd (exec h (Identity l)) = Raise GenericException.
Proof. exact @built_identity. Qed.
Print Assumptions C31_identity_partial.
Example C31_identity_ex : incl [7; 3]%nat exg_vis /\ In 3%nat (inputs_of exg_h 6) /\ In 6%nat exg_vis /\
  snd (exec exg_h (Identity [7; 3]%nat)) = Raise GenericException /\ snd (exec exg_h (Identity [7%nat])) = Ok [8%nat].
Proof. split; [intros i [<-|[<-|[]]]; cbn; auto 12|]. repeat split; cbn; auto 12. Qed.

(** ** C32 *)
(** the matrices of an op are kept from its first run: p, q = Qubit(), Qubit(); r = Not(q); run(r); run(p, r) flips p
    instead of q *)
Theorem C32_refuted : exists (h : heap Z) vis c args, session h vis c [[2%nat]] /\ splits_in_range h vis /\ incl args vis /\
  no_swap_dagger h vis /\ exists ev, enum_ok ev /\
  snd (run ev c h args [] false SNone) = Ok ([(0, 0); (0, 0); (1, 0); (0, 0)], [(0%nat, CZero); (1%nat, CZero); (2%nat, CZero)]) /\
  snd (run ev cache0 h args [] false SNone) = Ok ([(0, 0); (1, 0); (0, 0); (0, 0)], [(0%nat, CZero); (1%nat, CZero); (2%nat, CZero)]).
Proof. exact stale_cache. Qed.
Print Assumptions C32_refuted.
(** the adjoint of a swap: the first run raises AttributeError, later runs succeed *)
Theorem C32_adjoint_swap_refuted : exists (h : heap Z) vis args ev, built h vis /\ incl args vis /\ enum_ok ev /\
  let '(c, r) := run ev cache0 h args [] false SNone in
  r = Raise AttributeError /\ exists x, snd (run ev c h args [] false SNone) = Ok x.
Proof. exact swap_dagger_reuse. Qed.
Print Assumptions C32_adjoint_swap_refuted.
(** earlier runs have no effect as long as every op they share with this run had its inputs at the same qubits *)
Theorem C32_reuse_partial : forall {K} {OK : OrdRing K} (h : heap K) vis c l args,
  session h vis c l -> splits_in_range h vis -> no_swap_dagger h vis -> incl args vis ->
  (forall args', In args' l -> same_qubits h args args') ->
  forall ev feed strict state, enum_ok ev ->
    snd (run ev c h args feed strict state) = snd (run ev cache0 h args feed strict state).
Proof. exact @session_reuse. Qed.
Print Assumptions C32_reuse_partial.
(** in particular runs of the same arguments, with any feeds *)
Theorem C32_same_args_partial : forall {K} {OK : OrdRing K} (h : heap K) vis c l args,
  session h vis c l -> splits_in_range h vis -> no_swap_dagger h vis -> incl args vis ->
  (forall args', In args' l -> args' = args) ->
  forall ev feed strict state, enum_ok ev ->
    snd (run ev c h args feed strict state) = snd (run ev cache0 h args feed strict state).
Proof. exact @same_args_reuse. Qed.
Print Assumptions C32_same_args_partial.
Example C32_ex : session exg_h exg_vis (fst (run exg_ev cache0 exg_h exg_args exg_feed false SNone)) [exg_args] /\
  no_swap_dagger exg_h exg_vis /\ fst (run exg_ev cache0 exg_h exg_args exg_feed false SNone) 5%nat <> None.
Proof.
  split; [|split; [exact exg_noswap|vm_compute; discriminate]].
  eapply session_run; [exact exg_session|exact exg_incl|exact (proj1 exg_env)|apply surjective_pairing].
Qed.

(** ** C33 *)
(** what run returns is the fed state with the defaults, evolved by the textbook action of every needed node on the
    qubits of its inputs; without measurements it does return; strict mode raises exactly if a source is not fed *)
Theorem C33_run : forall {K} {OK : OrdRing K} (h : heap K) vis c l args srcs,
  session h vis c l -> splits_in_range h vis -> no_swap_dagger h vis -> incl args vis ->
  (forall args', In args' l -> same_qubits h args args') -> sources h args srcs ->
  let n := widths h srcs in circuit_ok h args srcs n ->
  forall ev feed strict state init, enum_ok ev -> scheds_ok ev h n -> initial h srcs n feed state init ->
  (forall c' st_ cm, run ev c h args feed strict state = (c', Ok (st_, cm)) ->
     zlen st_ = 2 ^ n /\ StronglySorted lt (map fst cm) /\ (forall i, In i (map fst cm) <-> ancestor h args i) /\
     evolves (e_rsqrt ev) h srcs n cm (amp (map (fed_amp n init) (zrange 0 (2 ^ n)))) (amp st_)) /\
  (no_measure h args -> (strict = true -> incl srcs (fed_nodes feed)) -> exists c' r, run ev c h args feed strict state = (c', Ok r)) /\
  (strict = true -> ~ incl srcs (fed_nodes feed) -> run ev c h args feed strict state = (c, Raise ValueError)).
Proof. exact @run_top. Qed.
Print Assumptions C33_run.
(** the evolution is determined by the initial amplitudes, the nodes and the measurement outcomes *)
Theorem C33_evolution_determined : forall {K} {OK : OrdRing K} (h : heap K) vis args srcs,
  built h vis -> incl args vis -> splits_in_range h vis -> sources h args srcs ->
  let n := widths h srcs in circuit_ok h args srcs n ->
  forall rsqrt l l' v v' v'', evolves rsqrt h srcs n l v v' -> evolves rsqrt h srcs n l' v v'' ->
    (forall i, In i (map fst l) -> ancestor h args i) -> same_outcomes h l l' ->
    forall r, 0 <= r < 2 ^ n -> v' r = v'' r.
Proof. exact @evolution_determined. Qed.
Print Assumptions C33_evolution_determined.
(** feeding an object that is not a top level qubit of the circuit raises KeyError *)
Theorem C33_unknown_feed : forall {K} {OK : OrdRing K} (h : heap K) vis args srcs,
  built h vis -> incl args vis -> splits_in_range h vis -> sources h args srcs ->
  forall ev c feed strict state, enum_ok ev -> NoDup (map (fun kv => key_nodes (fst kv)) feed) -> ~ incl (fed_nodes feed) srcs ->
  (strict = true -> incl srcs (fed_nodes feed)) -> run ev c h args feed strict state = (c, Raise KeyError).
Proof. exact @built_unknown. Qed.
Print Assumptions C33_unknown_feed.
Example C33_ex : session exg_h exg_vis cache0 [] /\ splits_in_range exg_h exg_vis /\ no_swap_dagger exg_h exg_vis /\
  incl exg_args exg_vis /\ sources exg_h exg_args exg_srcs /\ circuit_ok exg_h exg_args exg_srcs 3 /\
  enum_ok exg_ev /\ scheds_ok exg_ev exg_h 3 /\ initial exg_h exg_srcs 3 exg_feed SNone exg_init /\ no_measure exg_h exg_args /\
  snd (run exg_ev cache0 exg_h exg_args exg_feed false SNone)
  = Ok ([(0, 0); (0, 0); (0, 0); (0, 0); (1, 0); (0, 0); (2, 0); (0, 0)],
        [(0%nat, CZero); (1%nat, CZero); (2%nat, CZero); (3%nat, CZero); (5%nat, CZero); (6%nat, CZero);
         (7%nat, CProbs (inl [0; 5; 0; 0]))]) /\
  snd (run exg_ev cache0 exg_h exg_args exg_feed true SNone) = Raise ValueError.
Proof.
  split; [exact exg_session|]. split; [exact exg_splits|]. split; [exact exg_noswap|]. split; [exact exg_incl|].
  split; [exact exg_sources|]. split; [exact exg_ok|]. split; [apply exg_env|]. split; [apply exg_env|]. split; [exact exg_initial|].
  split; [|split; vm_compute; reflexivity].
  intros i Hi. apply exg_anc in Hi. cbn in Hi. repeat destruct Hi as [<-|Hi]; try (destruct Hi; fail); discriminate.
Qed.

(** ** C34 *)
(** make_circuit_mat raises TypeError for every circuit that can be run: it gives run the basis states as ints *)
Theorem C34_refuted : forall {K} {OK : OrdRing K} (h : heap K) vis c l args srcs,
  session h vis c l -> splits_in_range h vis -> no_swap_dagger h vis -> incl args vis ->
  (forall args', In args' l -> same_qubits h args args') -> sources h args srcs ->
  let n := widths h srcs in circuit_ok h args srcs n -> no_measure h args -> 1 <= n ->
  forall ev init, enum_ok ev -> scheds_ok ev h n -> initial h srcs n [] SNone init ->
  snd (make_circuit_mat ev c h args) = Raise TypeError.
Proof. exact @mat_raises. Qed.
Print Assumptions C34_refuted.
Example C34_ex : snd (make_circuit_mat exg_ev cache0 exg_h exg_args) = Raise TypeError.
Proof. vm_compute. reflexivity. Qed.
(** what the matrix would be: with the basis states given as lists, run returns its columns, and the state returned
    for any initial state is the product of the matrix with it *)
Theorem C34_columns_partial : forall {K} {OK : OrdRing K} (h : heap K) vis c l args srcs,
  session h vis c l -> splits_in_range h vis -> no_swap_dagger h vis -> incl args vis ->
  (forall args', In args' l -> same_qubits h args args') -> sources h args srcs ->
  let n := widths h srcs in circuit_ok h args srcs n -> no_measure h args ->
  exists column : Z -> list (Cx K), forall ev, enum_ok ev -> scheds_ok ev h n ->
    (forall x, 0 <= x < 2 ^ n -> exists c' cm,
       run ev c h args [] false (SList (map (fun j => if j =? x then 1%r else 0%r) (zrange 0 (2 ^ n)))) = (c', Ok (column x, cm))) /\
    forall v, zlen v = 2 ^ n -> exists c' st_ cm, run ev c h args [] false (SList v) = (c', Ok (st_, cm)) /\ zlen st_ = 2 ^ n /\
      forall r, 0 <= r < 2 ^ n -> amp st_ r = sum (zrange 0 (2 ^ n)) (fun x => (amp v x * amp (column x) r)%r).
Proof. exact @mat_columns. Qed.
Print Assumptions C34_columns_partial.
Example C34_columns_ex :
  match snd (run exg_ev cache0 exg_h exg_args [] false (SList (map (fun j => if j =? 6 then 1%r else 0%r) (zrange 0 8)))) with
  | Ok (s, _) => s | Raise _ => [] end = [(0, 0); (0, 0); (0, 0); (0, 0); (0, 0); (0, 0); (0, 0); (0, -1)].
Proof. vm_compute. reflexivity. Qed.
