(** Properties C35-C38 and C56-C59: contexts, controlled functions and the Fourier transform. *)
From Coq Require Import Reals.
From Verif Require Import Base BaseR S_Bits M_Kron M_Ops S_Ops M_Feed M_Func M_Measure M_Graph S_Graph L_Graph7 L_Graph12 M_Context M_ContextR
  S_Context S_ContextR L_Context6 L_Context7 L_Context8 L_Context9 L_ContextNeg L_ContextBeyond.
Local Open Scope Z_scope.

(** ** Data for the examples: a, b, c = Qubit(), Qubit(), Qubit() and one function object without wrappers *)
Definition exc_calls {K} : list (call K) := [NewQubit None None; NewQubit None None; NewQubit None None].
Definition exc_h {K} : heap K := match program exc_calls empty_heap [] with Some x => fst x | None => empty_heap end.
Definition exc_vis : list nat := [0; 1; 2]%nat.
Definition exc_w {K} : world K := mkWorld exc_h [] 0 [[]].
Definition exc_cn : consts Z := mkConsts 1 (fun m negate => (0, if negate then -1 else 1)).
Lemma exc_node {K} i : In i exc_vis -> nd_kind (nd (exc_h (K := K)) i) = KQubit /\ inputs_of (exc_h (K := K)) i = [] /\ width (exc_h (K := K)) i = 1.
Proof. intros [<-|[<-|[<-|[]]]]; vm_compute; auto. Qed.
Lemma exc_circuit {K} : circuit (K := K) exc_h exc_vis exc_vis exc_vis.
Proof.
  assert (B : built (K := K) exc_h exc_vis) by (apply (program_built exc_calls empty_heap []); [constructor|vm_compute; reflexivity]).
  assert (A : forall i, ancestor (exc_h (K := K)) exc_vis i <-> In i exc_vis).
  { apply anc_iff; [apply incl_refl| |].
    - intros i Hi j Hj. destruct (exc_node (K := K) i Hi) as (_ & E & _). rewrite E in Hj. destruct Hj.
    - apply Forall_forall. intros i Hi. apply anc_arg. auto. }
  assert (S : sources (exc_h (K := K)) exc_vis exc_vis) by (apply (sources_iff _ _ exc_vis); [exact A|repeat constructor|reflexivity]).
  split; [exact B|]. split; [apply incl_refl|]. split; [|split; [|split; [exact S|]]].
  - intros i idx k Hi Hk. destruct (exc_node (K := K) i Hi) as (E & _). congruence.
  - intros i o Hi Hk. destruct (exc_node (K := K) i Hi) as (E & _). congruence.
  - intros i Hi. apply A in Hi. destruct (exc_node (K := K) i Hi) as (E & _). unfold node_ok. rewrite E. exact I.
Qed.
Lemma exc_wires {K} : Forall2 (wires (exc_h (K := K)) exc_vis) exc_vis [[0]; [1]; [2]].
Proof.
  constructor; [apply (wires_source (exc_h (K := K)) exc_vis [] 0 [1; 2]%nat); reflexivity|].
  constructor; [apply (wires_source (exc_h (K := K)) exc_vis [0]%nat 1 [2]%nat); reflexivity|].
  constructor; [apply (wires_source (exc_h (K := K)) exc_vis [0; 1]%nat 2 []); reflexivity|constructor].
Qed.

(** ** C35: the qubits of contexts and the inputs of the op *)
(** a context with two qubits and the default positions: the op gets the inputs in the right order, but after it the second qubit of the context
    is the third output of the op, and the second output is returned to the caller *)
Theorem C35_refuted : forall {K} {OK : OrdRing K} cn (w : world K) fn c0 c1 c args given w' outs,
  w_stack w = [[add_context fn [c0; c1] None]] -> w_total w = 2 -> args <> [] ->
  (forall i, In i (c0 :: c1 :: args) -> (i < size (w_heap w))%nat /\ 0 < width (w_heap w) i) ->
  call_op cn w c (map AQ args) given = (w', Ok outs) ->
  exists o0 o1 o2 rest, new_outputs (w_heap w) (w_heap w') (c0 :: c1 :: args) (o0 :: o1 :: o2 :: rest) /\
    w_stack w' = [[mkCtx fn [o0; o2] [0; 1]]] /\ outs = o1 :: rest.
Proof. exact @call_two. Qed.
Print Assumptions C35_refuted.
(** ... which happens: QubitWrapperContext(lambda op: C(C(op)), [a, b]) around Not(c) *)
Example C35_ex : let w := mkWorld exc_h [[add_context (fun c => C_ctor (C_ctor c)) [0; 1]%nat None]] 2 [[]] in
  (forall i, In i [0; 1; 2]%nat -> (i < size (exc_h (K := Z)))%nat /\ 0 < width (exc_h (K := Z)) i) /\
  exists w', call_op exc_cn w (Wrap BNot no_kw) (map AQ [2%nat]) no_kw = (w', Ok [7%nat]) /\
    map (fun i => nd_kind (nd (w_heap w') i)) [6; 7; 8]%nat = [KSplit [0]; KSplit [1]; KSplit [2]] /\
    map cx_qubits (concat (w_stack w')) = [[6; 8]%nat].
Proof.
  cbv zeta. split; [intros i [<-|[<-|[<-|[]]]]; vm_compute; repeat constructor|].
  eexists. split; [vm_compute; reflexivity|]. split; reflexivity.
Qed.
(** negative positions count from the end, for the inputs without the qubit and for the outputs with it: the qubit is put in
    before the last |x :: r| inputs, and after the call the context holds the output of x and the caller gets the qubit *)
Theorem C35_negative_refuted : forall {K} {OK : OrdRing K} cn (w : world K) fn q c l x r given w' outs,
  w_stack w = [[add_context fn [q] (Some [- zlen (x :: r)])]] -> w_total w = 1 ->
  (forall i, In i (l ++ q :: x :: r) -> (i < size (w_heap w))%nat /\ 0 < width (w_heap w) i) ->
  call_op cn w c (map AQ (l ++ x :: r)) given = (w', Ok outs) ->
  exists ol oq ox o_r, new_outputs (w_heap w) (w_heap w') (l ++ q :: x :: r) (ol ++ oq :: ox :: o_r) /\ length ol = length l /\
    w_stack w' = [[mkCtx fn [ox] [- zlen (x :: r)]]] /\ outs = ol ++ oq :: o_r.
Proof. exact @call_negative. Qed.
Print Assumptions C35_negative_refuted.
(** ... which happens: QubitWrapperContext(C, [a], [-1]) around Not(c) makes C(Not) on a and c; the context keeps the output for c,
    the caller gets the control *)
Example C35_negative_ex : let w := mkWorld exc_h [[add_context C_ctor [0]%nat (Some [-1])]] 1 [[]] in
  (forall i, In i [0; 2]%nat -> (i < size (exc_h (K := Z)))%nat /\ 0 < width (exc_h (K := Z)) i) /\
  exists w', call_op exc_cn w (Wrap BNot no_kw) (map AQ [2%nat]) no_kw = (w', Ok [5%nat]) /\ inputs_of (w_heap w') 4 = [0; 2]%nat /\
    map (fun i => nd_kind (nd (w_heap w') i)) [5; 6]%nat = [KSplit [0]; KSplit [1]] /\ map cx_qubits (concat (w_stack w')) = [[6]%nat].
Proof.
  cbv zeta. split; [intros i [<-|[<-|[]]]; vm_compute; repeat constructor|].
  eexists. split; [vm_compute; reflexivity|]. split; [reflexivity|]. split; reflexivity.
Qed.
(** a position beyond the ends: the qubit is put in at the end (or at the front), but looked for where no output is, so that no
    call of any op returns; the context keeps its old qubit *)
Theorem C35_beyond_refuted : forall {K} {OK : OrdRing K} cn (w : world K) fn q k c args given w' r,
  w_stack w = [[add_context fn [q] (Some [k])]] -> w_total w = 1 -> args <> [] -> k > zlen args \/ k < - (zlen args + 1) ->
  (forall i, In i (q :: args) -> (i < size (w_heap w))%nat /\ 0 < width (w_heap w) i) ->
  call_op cn w c (map AQ args) given = (w', r) ->
  w_stack w' = w_stack w /\ w_total w' = 1 /\ exists e, r = Raise e.
Proof. exact @call_beyond. Qed.
Print Assumptions C35_beyond_refuted.
(** QubitWrapperContext(C, [a], [2]) around Not(c): the op C(Not) is made, of c and a in this order, then IndexError *)
Example C35_beyond_ex : let w := mkWorld exc_h [[add_context C_ctor [0]%nat (Some [2])]] 1 [[]] in
  exists w', call_op exc_cn w (Wrap BNot no_kw) (map AQ [2%nat]) no_kw = (w', Raise IndexError) /\ inputs_of (w_heap w') 4 = [2; 0]%nat.
Proof. cbv zeta. eexists. split; [vm_compute; reflexivity|]. reflexivity. Qed.
(** one negative position is right: the one that is the front of the outputs *)
Theorem C35_front_partial : forall {K} {OK : OrdRing K} cn (w : world K) fn q c args given w' outs,
  w_stack w = [[add_context fn [q] (Some [- (zlen args + 1)])]] -> w_total w = 1 -> args <> [] ->
  (forall i, In i (q :: args) -> (i < size (w_heap w))%nat /\ 0 < width (w_heap w) i) ->
  call_op cn w c (map AQ args) given = (w', Ok outs) ->
  exists o, new_outputs (w_heap w) (w_heap w') (q :: args) (o :: outs) /\ w_stack w' = [[mkCtx fn [o] [- (zlen args + 1)]]] /\ w_total w' = 1.
Proof. exact @call_front. Qed.
Print Assumptions C35_front_partial.
Example C35_front_ex : let w := mkWorld exc_h [[add_context C_ctor [0]%nat (Some [-2])]] 1 [[]] in
  exists w', call_op exc_cn w (Wrap BNot no_kw) (map AQ [2%nat]) no_kw = (w', Ok [6%nat]) /\ inputs_of (w_heap w') 4 = [0; 2]%nat /\
    map cx_qubits (concat (w_stack w')) = [[5]%nat].
Proof. cbv zeta. eexists. split; [vm_compute; reflexivity|]. split; reflexivity. Qed.
(** any nesting of contexts that hold one qubit each, at any position: the inputs of the op are the arguments with the
    qubits of the contexts woven in; the outputs in the same order are what the caller gets, with the new qubits of the
    contexts at the same places *)
Theorem C35_single_partial : forall {K} {OK : OrdRing K} cn (w : world K) c args given w' outs,
  let all := concat (w_stack w) in
  single_contexts all (zlen args) -> w_total w = zlen (context_qubits all) -> args <> [] ->
  (forall i, In i args \/ In i (context_qubits all) -> (i < size (w_heap w))%nat /\ 0 < width (w_heap w) i) ->
  call_op cn w c (map AQ args) given = (w', Ok outs) ->
  exists L ids, woven (combine (context_qubits all) (flat_map cx_idx all)) args L /\ new_outputs (w_heap w) (w_heap w') L ids /\
    woven (combine (context_qubits (concat (w_stack w'))) (flat_map cx_idx all)) outs ids /\
    length (context_qubits (concat (w_stack w'))) = length (context_qubits all) /\ w_total w' = w_total w /\
    map (map (fun cx => (cx_fn cx, cx_idx cx))) (w_stack w') = map (map (fun cx => (cx_fn cx, cx_idx cx))) (w_stack w).
Proof. exact @call_weave. Qed.
Print Assumptions C35_single_partial.
(** two nested contexts: the outer one puts a at position 2, the inner one b at position 0; the op is C(C(Not)) on b, c, a *)
Example C35_single_ex : let w := mkWorld exc_h [[mkCtx C_ctor [0]%nat [2]]; [mkCtx C_ctor [1]%nat [0]]] 2 [[]] in
  single_contexts (concat (w_stack w)) 1 /\ w_total w = zlen (context_qubits (concat (w_stack w))) /\
  woven (combine (context_qubits (concat (w_stack w))) (flat_map cx_idx (concat (w_stack w)))) [2%nat] [1; 2; 0]%nat /\
  exists w', call_op exc_cn w (Wrap BNot no_kw) (map AQ [2%nat]) no_kw = (w', Ok [7%nat]) /\
    inputs_of (w_heap w') 5 = [1; 2; 0]%nat /\ map cx_qubits (concat (w_stack w')) = [[8]; [6]]%nat.
Proof.
  cbv zeta. split; [|split; [reflexivity|split]].
  - cbn. split; [exists 0%nat, 2|split; [exists 1%nat, 0|exact I]]; repeat split; discriminate.
  - cbn. apply (woven_cons 0 2 [(1%nat, 0)] [2]%nat [1; 2]%nat []); [|reflexivity].
    apply (woven_cons 1 0 [] [2]%nat [] [2]%nat); [constructor|reflexivity].
  - eexists. split; [vm_compute; reflexivity|]. split; reflexivity.
Qed.

(** one context with one qubit and the default position: the qubit of the context is the first input of the op, and its
    first output afterwards *)
Theorem C35_default_partial : forall {K} {OK : OrdRing K} cn (w : world K) fn q c args given w' outs,
  w_stack w = [[add_context fn [q] None]] -> w_total w = 1 -> args <> [] ->
  (forall i, In i (q :: args) -> (i < size (w_heap w))%nat /\ 0 < width (w_heap w) i) ->
  call_op cn w c (map AQ args) given = (w', Ok outs) ->
  exists o, new_outputs (w_heap w) (w_heap w') (q :: args) (o :: outs) /\ w_stack w' = [[mkCtx fn [o] [0]]] /\ w_total w' = 1.
Proof. exact @call_default. Qed.
Print Assumptions C35_default_partial.
Example C35_default_ex : let w := mkWorld exc_h [[add_context C_ctor [0]%nat None]] 1 [[]] in
  exists w', call_op exc_cn w (Wrap BNot no_kw) (map AQ [2%nat]) no_kw = (w', Ok [6%nat]) /\ inputs_of (w_heap w') 4 = [0; 2]%nat /\
    w_stack w' = [[mkCtx C_ctor [5]%nat [0]]].
Proof. cbv zeta. eexists. split; [vm_compute; reflexivity|]. split; vm_compute; reflexivity. Qed.

(** ** C36: C(f) and f *)
(** f = lambda a, b: (Not(a), b). Before C(f) the call f(a, b) flips a. After it the same call flips b where a is 1. *)
Theorem C36_refuted : forall {K} {OK : OrdRing K} cn (w0 w1 : world K) f a b ga gb vis srcs rest v,
  (f < length (w_funcs w0))%nat -> wrappers_of w0 f = [] -> apply_C w0 (VFun f) = (w1, v) -> w_stack w0 = [] -> w_total w0 = 0 ->
  circuit (w_heap w0) vis (a :: b :: rest) srcs -> wires (w_heap w0) srcs a [ga] -> wires (w_heap w0) srcs b [gb] -> ga <> gb ->
  width (w_heap w0) a = 1 -> width (w_heap w0) b = 1 ->
  let flip_first := fun (_ : unit) => run_steps cn [(Wrap BNot no_kw, [0%nat])] in
  let n := widths (w_heap w0) srcs in
  (exists w' vis' a' b', call_func w0 f flip_first tt [a; b] = (w', Ok [a'; b']) /\
     continues (w_heap w0) vis (a :: b :: rest) srcs (w_heap w') vis' (a' :: b' :: rest) (apply_each n gate_X [ga])) /\
  (exists w' vis' a' b', call_func w1 f flip_first tt [a; b] = (w', Ok [a'; b']) /\
     continues (w_heap w0) vis (a :: b :: rest) srcs (w_heap w') vis' (a' :: b' :: rest) (when n [ga] (apply_each n gate_X [gb]))).
Proof. exact @C_changes. Qed.
Print Assumptions C36_refuted.
Example C36_ex : (0 < length (w_funcs (exc_w (K := Z))))%nat /\ wrappers_of (exc_w (K := Z)) 0 = [] /\
  circuit (K := Z) exc_h exc_vis [0; 1; 2]%nat exc_vis /\ wires (exc_h (K := Z)) exc_vis 0 [0] /\ wires (exc_h (K := Z)) exc_vis 1 [1] /\
  width (exc_h (K := Z)) 0 = 1 /\ width (exc_h (K := Z)) 1 = 1.
Proof.
  pose proof (exc_wires (K := Z)) as H. inversion H as [|? ? ? ? H1 H2]; subst. inversion H2; subst.
  split; [auto|]. split; [reflexivity|]. split; [exact exc_circuit|]. do 3 (split; [auto|]). reflexivity.
Qed.
(** C of an op changes nothing, and C of a function does not touch other functions *)
Theorem C36_others_partial : forall {K} (w : world K), (forall c, fst (apply_C w (VOp c)) = w) /\
  (forall f g, f <> g -> wrappers_of (fst (apply_C w (VFun f))) g = wrappers_of w g).
Proof. exact @C_keeps. Qed.
Print Assumptions C36_others_partial.
Example C36_others_ex : let w := mkWorld (exc_h (K := Z)) [] 0 [[]; [(C_ctor, [0])]] in
  length (wrappers_of (fst (apply_C w (VFun 1))) 1) = 2%nat /\ length (wrappers_of (fst (apply_C w (VFun 1))) 0) = 0%nat.
Proof. split; reflexivity. Qed.

(** ** C37: keyword arguments *)
(** the keyword arguments of a call are ignored, whatever they are *)
Theorem C37_refuted : forall {K} {OK : OrdRing K} cn (w : world K) q e m given,
  w_stack w = [] -> (q < size (w_heap w))%nat -> 0 < width (w_heap w) q ->
  (exists w' r, call_op cn w (Wrap BR no_kw) [APhi e; AQ q] given = (w', Ok [r]) /\ nd_kind (nd (w_heap w') r) = KMat (OR e) false) /\
  (exists w' r, call_op cn w (Wrap BRm no_kw) [AInt m; AQ q] given = (w', Ok [r]) /\
     nd_kind (nd (w_heap w') r) = KMat (OR (c_rm cn m false)) false).
Proof. exact @kw_dropped. Qed.
Print Assumptions C37_refuted.
Example C37_ex : exists w', call_op exc_cn exc_w (Wrap BRm no_kw) [AInt 2; AQ 0%nat] (mkKw (Some true) (Some true) None) = (w', Ok [3%nat]) /\
  nd_kind (nd (w_heap w') 3) = KMat (OR (0, 1)) false /\ c_rm exc_cn 2 true = (0, -1).
Proof. eexists. split; [vm_compute; reflexivity|]. split; reflexivity. Qed.
(** those given when the op object is made are used *)
Theorem C37_stored_partial : forall {K} {OK : OrdRing K} cn (w : world K) q kw given,
  w_stack w = [] -> (q < size (w_heap w))%nat -> 0 < width (w_heap w) q -> flag (kw_nosink kw) = false ->
  (forall b o, gate_of b cn = Some o ->
     exists w' r, call_op cn w (Wrap b kw) [AQ q] given = (w', Ok [r]) /\ nd_kind (nd (w_heap w') r) = KMat o (flag (kw_dagger kw))) /\
  (forall e, exists w' r, call_op cn w (Wrap BR kw) [APhi e; AQ q] given = (w', Ok [r]) /\
     nd_kind (nd (w_heap w') r) = KMat (OR e) (flag (kw_dagger kw))) /\
  (forall m, exists w' r, call_op cn w (Wrap BRm kw) [AInt m; AQ q] given = (w', Ok [r]) /\
     nd_kind (nd (w_heap w') r) = KMat (OR (c_rm cn m (flag (kw_negate kw)))) (flag (kw_dagger kw))).
Proof. exact @kw_stored_all. Qed.
Print Assumptions C37_stored_partial.
Example C37_stored_ex : exists w', call_op exc_cn exc_w (Wrap BRm (mkKw (Some true) (Some true) None)) [AInt 2; AQ 0%nat] no_kw = (w', Ok [3%nat]) /\
  nd_kind (nd (w_heap w') 3) = KMat (OR (0, -1)) true.
Proof. eexists. split; [vm_compute; reflexivity|]. reflexivity. Qed.

(** ** C38: the Fourier transform *)
(** q = Qubit(n=k); QFFT(q, rev=rev_): running it from the amplitudes v gives
    1/sqrt(2^k) * sum over x of exp(2 pi i x y / 2^k) v(x) at y, or at y with its bits reversed if rev_ is false *)
Theorem C38_fourier : forall k (v : list (Cx R)) rev_ (ev : env R), 0 < k -> zlen v = 2 ^ k -> enum_ok ev ->
  exists (w' : world R) (q : nat), QFFT consts_R (mkWorld (one_qubit k) [] 0 [[]]) 0%nat rev_ [0%nat] = (w', Ok [q]) /\
    (scheds_ok ev (w_heap w') k -> exists c st_ cm, run ev cache0 (w_heap w') [q] [] false (SList v) = (c, Ok (st_, cm)) /\ zlen st_ = 2 ^ k /\
     forall r, 0 <= r < 2 ^ k -> let y := if rev_ then r else reg k (rev (zrange 0 k)) r in
       amp st_ r = ((1 / sqrt (IZR (2 ^ k)), 0)%R * sum (zrange 0 (2 ^ k)) (fun x =>
         let t := (2 * PI * IZR (x * y) / IZR (2 ^ k))%R in (cos t, sin t) * amp v x))%r).
Proof. exact qfft_run. Qed.
Print Assumptions C38_fourier.
Example C38_ex : exec (K := R) empty_heap (NewQubit (Some 3) None) = (one_qubit 3, Ok [0%nat]).
Proof. reflexivity. Qed.
(** inside any circuit: QFFT of the objects qs transforms the register made of the qubits of qs and leaves the others alone *)
Theorem C38_in_circuits : forall (w : world R) f rev_ vis srcs qs rest gs,
  (f < length (w_funcs w))%nat -> wrappers_of w f = [] -> w_stack w = [] -> w_total w = 0 ->
  circuit (w_heap w) vis (qs ++ rest) srcs -> Forall2 (wires (w_heap w) srcs) qs gs ->
  (forall q, In q qs -> 0 < width (w_heap w) q) -> qs <> [] -> NoDup (concat gs) ->
  exists w' vis' qs', QFFT consts_R w f rev_ qs = (w', Ok qs') /\ w_stack w' = [] /\ w_total w' = 0 /\ w_funcs w' = w_funcs w /\
    Forall2 (wires (w_heap w') srcs) qs' gs /\
    continues (w_heap w) vis (qs ++ rest) srcs (w_heap w') vis' (qs' ++ rest)
      (dft_R (widths (w_heap w) srcs) (concat gs) (if rev_ then concat gs else rev (concat gs))).
Proof. exact qfft_top. Qed.
Print Assumptions C38_in_circuits.
(** C applied any number of times to QFFT: the transform where all controls are 1 *)
Theorem C38_controlled : forall (w0 w : world R) v f rev_ vis srcs cs qs rest csg gs,
  (f < length (w_funcs w0))%nat -> wrappers_of w0 f = [] -> C_times (length cs) w0 (VFun f) = (w, v) -> w_stack w0 = [] -> w_total w0 = 0 ->
  circuit (w_heap w0) vis (cs ++ qs ++ rest) srcs -> Forall2 (wires (w_heap w0) srcs) cs csg -> Forall2 (wires (w_heap w0) srcs) qs gs ->
  (forall c, In c cs -> width (w_heap w0) c = 1) -> (forall q, In q qs -> 0 < width (w_heap w0) q) -> qs <> [] -> NoDup (concat csg ++ concat gs) ->
  let n := widths (w_heap w0) srcs in
  v = VFun f /\ exists w' vis' cs' qs', QFFT consts_R w f rev_ (cs ++ qs) = (w', Ok (cs' ++ qs')) /\
    w_stack w' = [] /\ w_total w' = 0 /\ w_funcs w' = w_funcs w /\
    Forall2 (wires (w_heap w') srcs) cs' (rev csg) /\ Forall2 (wires (w_heap w') srcs) qs' gs /\
    continues (w_heap w0) vis (cs ++ qs ++ rest) srcs (w_heap w') vis' (cs' ++ qs' ++ rest)
      (when n (concat csg) (dft_R n (concat gs) (if rev_ then concat gs else rev (concat gs)))).
Proof. exact qfft_call. Qed.
Print Assumptions C38_controlled.
Example C38_circuits_ex : (0 < length (w_funcs (exc_w (K := R))))%nat /\ wrappers_of (exc_w (K := R)) 0 = [] /\
  circuit (K := R) exc_h exc_vis ([0%nat] ++ [1; 2]%nat ++ []) exc_vis /\ Forall2 (wires (exc_h (K := R)) exc_vis) [0%nat] [[0]] /\
  Forall2 (wires (exc_h (K := R)) exc_vis) [1; 2]%nat [[1]; [2]] /\ (forall q, In q exc_vis -> width (exc_h (K := R)) q = 1) /\
  NoDup (concat [[0]] ++ concat [[1]; [2]]).
Proof.
  pose proof (exc_wires (K := R)) as H. inversion H as [|? ? ? ? H1 H2]; subst.
  split; [auto|]. split; [reflexivity|]. split; [exact exc_circuit|]. split; [repeat constructor; auto|]. split; [auto|].
  split; [intros q Hq; apply (exc_node (K := R) q Hq)|]. cbn. repeat constructor; cbn; intuition discriminate.
Qed.

(** ** C56: functions that apply ops one after the other *)
Theorem C56_in_order : forall {K} {OK : OrdRing K} (cn : consts K) steps ops gs (w : world K) vis srcs qs rest,
  w_stack w = [] -> w_total w = 0 ->
  circuit (w_heap w) vis (qs ++ rest) srcs -> Forall2 (wires (w_heap w) srcs) qs gs -> (forall q, In q qs -> 0 < width (w_heap w) q) ->
  NoDup (concat gs) -> Forall2 (step_denotes cn gs) steps ops ->
  exists w' vis' outs, run_steps cn steps w qs = (w', Ok outs) /\ w_stack w' = [] /\ w_total w' = 0 /\ w_funcs w' = w_funcs w /\
    Forall2 (wires (w_heap w') srcs) outs gs /\
    continues (w_heap w) vis (qs ++ rest) srcs (w_heap w') vis' (outs ++ rest) (acts (widths (w_heap w) srcs) gs ops).
Proof. exact @steps_continues. Qed.
Print Assumptions C56_in_order.
(** H on the first, then C(Not) on the first and third, then Swap of the second and third *)
Example C56_ex : Forall2 (step_denotes exc_cn [[0]; [1]; [2]])
  [(Wrap BH no_kw, [0%nat]); (WrapC (Wrap BNot no_kw) no_kw, [0; 2]%nat); (Wrap BSwap no_kw, [1; 2]%nat)]
  [(OH 1, [0%nat]); (OC ONot, [0; 2]%nat); (OSwap 1, [1; 2]%nat)].
Proof.
  assert (P : forall (l : list nat), (forall p, In p l -> (p < 3)%nat) -> forall p, In p l -> (p < length [[0]; [1]; [2]])%nat) by auto.
  constructor; [|constructor; [|constructor; [|constructor]]]; cbn [step_denotes fst snd].
  - split; [reflexivity|]. split; [repeat constructor; cbn; intuition discriminate|]. split; [discriminate|].
    split; [intros p [<-|[]]; cbn; repeat constructor|]. apply (denotes_h exc_cn).
  - split; [reflexivity|]. split; [repeat constructor; cbn; intuition discriminate|]. split; [discriminate|].
    split; [intros p [<-|[<-|[]]]; cbn; repeat constructor|]. apply (denotes_c exc_cn); [reflexivity|discriminate|]. constructor.
  - split; [reflexivity|]. split; [repeat constructor; cbn; intuition discriminate|]. split; [discriminate|].
    split; [intros p [<-|[<-|[]]]; cbn; repeat constructor|]. apply (denotes_swap exc_cn [1] [2]). reflexivity.
Qed.

(** ** C57: C applied to a function any number of times: the function where all controls are 1 *)
Theorem C57_controlled : forall {K} {OK : OrdRing K} (cn : consts K) steps ops gs (w0 w : world K) v f vis srcs cs qs rest csg,
  (f < length (w_funcs w0))%nat -> wrappers_of w0 f = [] -> C_times (length cs) w0 (VFun f) = (w, v) ->
  w_stack w0 = [] -> w_total w0 = 0 ->
  circuit (w_heap w0) vis (cs ++ qs ++ rest) srcs -> Forall2 (wires (w_heap w0) srcs) cs csg -> Forall2 (wires (w_heap w0) srcs) qs gs ->
  (forall c, In c cs -> width (w_heap w0) c = 1) -> (forall q, In q qs -> 0 < width (w_heap w0) q) ->
  NoDup (concat csg ++ concat gs) -> Forall2 (step_denotes cn gs) steps ops ->
  v = VFun f /\ exists w' vis' cs' qs', call_func w f (fun (_ : unit) => run_steps cn steps) tt (cs ++ qs) = (w', Ok (cs' ++ qs')) /\
    w_stack w' = [] /\ w_total w' = 0 /\ w_funcs w' = w_funcs w /\
    Forall2 (wires (w_heap w') srcs) cs' (rev csg) /\ Forall2 (wires (w_heap w') srcs) qs' gs /\
    continues (w_heap w0) vis (cs ++ qs ++ rest) srcs (w_heap w') vis' (cs' ++ qs' ++ rest)
      (when (widths (w_heap w0) srcs) (concat csg) (acts (widths (w_heap w0) srcs) gs ops)).
Proof. exact @steps_func. Qed.
Print Assumptions C57_controlled.
(** two controls: C(C(f))(a, b, c) for f = lambda q: Not(q); the hypotheses on the circuit are those of C36_ex *)
Example C57_ex : Forall2 (step_denotes exc_cn [[2]]) [(Wrap BNot no_kw, [0%nat])] [(ONot, [0%nat])] /\
  snd (C_times 2 (exc_w (K := Z)) (VFun 0)) = VFun 0 /\ circuit (K := Z) exc_h exc_vis ([0; 1]%nat ++ [2%nat] ++ []) exc_vis /\
  Forall2 (wires (exc_h (K := Z)) exc_vis) [0; 1]%nat [[0]; [1]] /\ Forall2 (wires (exc_h (K := Z)) exc_vis) [2%nat] [[2]].
Proof.
  pose proof (exc_wires (K := Z)) as H. inversion H as [|? ? ? ? H1 H2]; subst. inversion H2 as [|? ? ? ? H3 H4]; subst.
  split; [|split; [reflexivity|split; [exact exc_circuit|split; [repeat constructor; auto|auto]]]].
  constructor; [|constructor]. cbn [step_denotes fst snd]. split; [reflexivity|]. split; [repeat constructor; cbn; intuition discriminate|].
  split; [discriminate|]. split; [intros p [<-|[]]; cbn; repeat constructor|]. constructor.
Qed.

(** ** C58: the order of the outputs *)
(** with two controls the first output holds the second control and the second output the first *)
Theorem C58_refuted : forall {K} {OK : OrdRing K} (cn : consts K) steps ops gs (w0 w : world K) v f vis srcs c1 c2 qs rest g1 g2,
  (f < length (w_funcs w0))%nat -> wrappers_of w0 f = [] -> C_times 2 w0 (VFun f) = (w, v) ->
  w_stack w0 = [] -> w_total w0 = 0 ->
  circuit (w_heap w0) vis (c1 :: c2 :: qs ++ rest) srcs -> wires (w_heap w0) srcs c1 [g1] -> wires (w_heap w0) srcs c2 [g2] ->
  Forall2 (wires (w_heap w0) srcs) qs gs ->
  width (w_heap w0) c1 = 1 -> width (w_heap w0) c2 = 1 -> (forall q, In q qs -> 0 < width (w_heap w0) q) ->
  NoDup (g1 :: g2 :: concat gs) -> Forall2 (step_denotes cn gs) steps ops ->
  exists w' c1' c2' qs', call_func w f (fun (_ : unit) => run_steps cn steps) tt (c1 :: c2 :: qs) = (w', Ok (c1' :: c2' :: qs')) /\
    wires (w_heap w') srcs c1' [g2] /\ wires (w_heap w') srcs c2' [g1] /\ Forall2 (wires (w_heap w') srcs) qs' gs.
Proof. exact @order_two. Qed.
Print Assumptions C58_refuted.
Example C58_ex : exists w', call_func (fst (C_times 2 (exc_w (K := Z)) (VFun 0))) 0 (fun (_ : unit) => run_steps exc_cn [(Wrap BNot no_kw, [0%nat])]) tt [0; 1; 2]%nat
    = (w', Ok [6; 7; 8]%nat) /\
  map (fun i => nd_kind (nd (w_heap w') i)) [6; 7; 8]%nat = [KSplit [0]; KSplit [1]; KSplit [2]] /\ inputs_of (w_heap w') 5 = [1; 0; 2]%nat.
Proof. eexists. split; [vm_compute; reflexivity|]. split; reflexivity. Qed.
(** with at most one control the outputs hold the qubits of the inputs, in order *)
Theorem C58_one_control_partial : forall {K} {OK : OrdRing K} (cn : consts K) steps ops gs (w0 w : world K) v f vis srcs cs qs rest csg,
  (length cs <= 1)%nat ->
  (f < length (w_funcs w0))%nat -> wrappers_of w0 f = [] -> C_times (length cs) w0 (VFun f) = (w, v) ->
  w_stack w0 = [] -> w_total w0 = 0 ->
  circuit (w_heap w0) vis (cs ++ qs ++ rest) srcs -> Forall2 (wires (w_heap w0) srcs) cs csg -> Forall2 (wires (w_heap w0) srcs) qs gs ->
  (forall c, In c cs -> width (w_heap w0) c = 1) -> (forall q, In q qs -> 0 < width (w_heap w0) q) ->
  NoDup (concat csg ++ concat gs) -> Forall2 (step_denotes cn gs) steps ops ->
  exists w' outs, call_func w f (fun (_ : unit) => run_steps cn steps) tt (cs ++ qs) = (w', Ok outs) /\
    Forall2 (wires (w_heap w') srcs) outs (csg ++ gs).
Proof. exact @order_one. Qed.
Print Assumptions C58_one_control_partial.

(** ** C59: ops with parameters cannot be controlled: C(R)(c, phi, q) raises, and so does R(phi, q) inside controlled
    functions *)
Theorem C59_refuted : forall {K} {OK : OrdRing K} cn (w : world K) c args given x, In x args -> (forall i, x <> AQ i) ->
  (concat (w_stack w) = [] -> exists w' e, call_op cn w (C_ctor c) args given = (w', Raise e)) /\
  ((exists cx all, concat (w_stack w) = cx :: all /\ forall cx', In cx' (cx :: all) -> exists q, cx' = mkCtx C_ctor [q] [0]) ->
   exists w' e, call_op cn w c args given = (w', Raise e)).
Proof. exact @param_controlled. Qed.
Print Assumptions C59_refuted.
Example C59_ex :
  snd (call_op exc_cn exc_w (C_ctor (Wrap BR no_kw)) [AQ 0%nat; APhi (0, 1); AQ 1%nat] no_kw) = Raise AttributeError /\
  snd (call_op exc_cn (mkWorld exc_h [[mkCtx C_ctor [0]%nat [0]]] 1 [[]]) (Wrap BR no_kw) [APhi (0, 1); AQ 1%nat] no_kw) = Raise AttributeError /\
  (forall i, APhi (K := Z) (0, 1) <> AQ i).
Proof. split; [vm_compute; reflexivity|]. split; [vm_compute; reflexivity|]. discriminate. Qed.
