(** Context objects: C94 (their arguments), C95 (entering them). *)
From Verif Require Import Base M_Bits M_Kron M_Ops M_Feed M_Func M_Measure M_Graph M_Context M_CtxObj S_CtxObj L_CtxObj1 L_CtxObj2.

(** ** C94: QubitWrapperContext(...) holds what its arguments say *)
(** every series of doubles and triples is understood *)
Theorem C94_series : forall {F E} (int : Z -> E) (args : list (@carg F E)) l, series args l ->
  parse int args = Ok (map (fun a => let '(f, qubits, positions) := holds int a in (One f, qubits, positions)) l).
Proof. exact @parse_series. Qed.
Print Assumptions C94_series.
(** and nothing else, as long as the first argument is not a sequence: other arguments raise TypeError *)
Theorem C94_only_partial : forall {F E} (int : Z -> E) (args : list (@carg F E)) es, (forall l rest, args <> Many l :: rest) -> parse int args = Ok es ->
  exists l, series args l /\ es = map (fun a => let '(f, qubits, positions) := holds int a in (One f, qubits, positions)) l.
Proof. exact @parse_only. Qed.
Print Assumptions C94_only_partial.
Theorem C94_rejects_partial : forall {F E} (int : Z -> E) (args : list (@carg F E)), (forall l rest, args <> Many l :: rest) ->
  (forall l, ~ series args l) -> parse int args = Raise TypeError.
Proof. exact @parse_rejects. Qed.
Print Assumptions C94_rejects_partial.
(** a sequence in the place of the first constructor is accepted, and becomes the constructor *)
Theorem C94_leading_refuted : forall {F E} (int : Z -> E) (f : F) (a : @ctx_arg F E) l s, ca_fn a = f ->
  parse int (Many s :: tl (concat (map written (a :: l)))) =
    Ok ((Many s, snd (fst (holds int a)), snd (holds int a)) :: map (fun a => let '(f, qubits, positions) := holds int a in (One f, qubits, positions)) l).
Proof. exact @parse_leading. Qed.
Print Assumptions C94_leading_refuted.
(** QubitWrapperContext(C, [q1, q2], C, [q3], [1]); QubitWrapperContext(C); QubitWrapperContext(C, [q1], [0], [1]);
    QubitWrapperContext([q1], [q2]) *)
Example C94_ex : let int z := Z.to_nat z in let C := tt in
  series [One C; Many [5; 6]%nat; One C; Many [7%nat]; Many [1%nat]] [mkArg C [5; 6]%nat None; mkArg C [7%nat] (Some [1%nat])] /\
  parse int [One C; Many [5; 6]%nat; One C; Many [7%nat]; Many [1%nat]] = Ok [(One C, [5; 6], [0; 1]); (One C, [7], [1])]%nat /\
  parse int [One C] = Raise TypeError /\ parse int [One C; Many [5%nat]; Many [0%nat]; Many [1%nat]] = Raise TypeError /\
  (forall l, ~ series [One C] (l : list (@ctx_arg unit nat))) /\
  parse (F := unit) int [Many [5%nat]; Many [6%nat]] = Ok [(Many [5%nat], [6%nat], [0%nat])].
Proof. repeat split. intros [|a [|b l]] H; discriminate H. Qed.

(** the number of positions is not compared with the number of qubits when the object is made, but every op call inside of the
    context raises if the numbers differ *)
Theorem C94_count_partial : forall {K} {OK : OrdRing K} cn (w : oworld K) set c args, o_stack w = [] -> o_total w = 0 ->
  zlen (concat (map cx_idx set)) <> zlen (concat (map cx_qubits set)) ->
  exists w' e, owith_new w set (fun _ w => ocall_op cn w c args) = (w', Raise e).
Proof. intros. apply with_count; [assumption|]. rewrite H0. assumption. Qed.
Print Assumptions C94_count_partial.
(** the sums of the numbers are compared, not the numbers: with C, [a], [] and C, [b], [0, 1] around Not(x, y) the op is controlled
    by b and x instead of a and b, and y becomes the qubit of the second context *)
Definition ex_cn : consts Z := mkConsts 1 (fun m negate => (0, if negate then -1 else 1)).
Definition ex_heap : heap Z := fst (exec (fst (exec (fst (exec (fst (exec empty_heap (NewQubit None None))) (NewQubit None None))) (NewQubit None None))) (NewQubit None None)).
Definition ex_o : oworld Z := mkOW ex_heap [] 0 [] [].
Theorem C94_count_refuted : exists w' outs,
  owith_new ex_o [mkCtx C_ctor [0%nat] []; mkCtx C_ctor [1%nat] [0; 1]] (fun _ w => ocall_op ex_cn w (Wrap BNot no_kw) [AQ 2%nat; AQ 3%nat]) = (w', Ok outs) /\
  map (fun i => nd_inputs (nd (o_heap w') i)) [6; 7; 8; 9]%nat = [[1; 2; 3]; [6]; [6]; [6]]%nat /\
  map (fun i => nd_kind (nd (o_heap w') i)) [6; 7; 8; 9]%nat = [KMat (OC (OC ONot)) false; KSplit [0]; KSplit [1]; KSplit [2]] /\
  outs = [8%nat] /\ map (fun cx => cx_qubits cx) (fst (obj w' 0)) = [[7]; [9]]%nat.
Proof. eexists; eexists. split; [vm_compute; reflexivity|]. repeat split. Qed.
Print Assumptions C94_count_refuted.
(** QubitWrapperContext(C, [a], []) around Not(x) *)
Example C94_count_ex : o_stack ex_o = [] /\ o_total ex_o = 0 /\ exists w',
  owith_new ex_o [mkCtx C_ctor [0%nat] []] (fun _ w => ocall_op ex_cn w (Wrap BNot no_kw) [AQ 2%nat; AQ 3%nat]) = (w', Raise ValueError).
Proof. repeat split. eexists. vm_compute. reflexivity. Qed.

(** ** C95: a context object can be entered again, and goes on with its qubits as they were left *)
(** leaving an object and entering it again changes nothing, whatever has been done inside *)
Theorem C95_again_partial : forall {K} {OK : OrdRing K} A B (m : oworld K -> st (oworld K) A) (k : A -> oworld K -> st (oworld K) B) w i, object_code A m ->
  sbind (owith w i m) (fun w a => owith w i (k a)) = owith w i (fun w => sbind (m w) (fun w a => k a w)).
Proof. exact @enter_again. Qed.
Print Assumptions C95_again_partial.
(** contexts that are made in the with statement behave as M_Context says, so that all theorems about contexts hold for them *)
Theorem C95_with_partial : forall {K} {OK : OrdRing K} A (m : oworld K -> st (oworld K) A) m' h funcs objs o' r, same_code A m m' ->
  m (mkOW h [] 0 funcs objs) = (o', r) ->
  exists w', m' (mkWorld h [] 0 funcs) = (w', r) /\ w_heap w' = o_heap o' /\ w_funcs w' = o_funcs o' /\ w_stack w' = [] /\ o_stack o' = [] /\ w_total w' = o_total o'.
Proof. exact @code_same_top. Qed.
Print Assumptions C95_with_partial.
(** an object that is entered while it is active already controls by the same qubit twice: every op raises *)
Theorem C95_nested_refuted : forall {K} {OK : OrdRing K} cn (w : oworld K) i q c args, o_stack w = [] -> fst (obj w i) = [mkCtx C_ctor [q] [0]] ->
  snd (owith w i (fun w => owith w i (fun w => ocall_op cn w c args))) = Raise ValueError.
Proof. exact @nested. Qed.
Print Assumptions C95_nested_refuted.
(** add_context on an active object: the number of qubits in contexts is wrong ever after, and every op call in every later context raises *)
Theorem C95_late_refuted : forall {K} {OK : OrdRing K} (w : oworld K) i cx, o_stack w = [] -> o_total w = 0 -> (i < length (o_objs w))%nat -> cx_qubits cx <> [] ->
  exists w', owith w i (fun w => (add_to w i cx, Ok tt)) = (w', Ok tt) /\ o_stack w' = [] /\
    forall cn set c args, zlen (concat (map cx_idx set)) = zlen (concat (map cx_qubits set)) ->
      exists w2 e, owith_new w' set (fun _ w => ocall_op cn w c args) = (w2, Raise e).
Proof.
  intros K OK w i cx Hs Ht Hi Hc. destruct (late w i cx Hs Ht Hi) as (w' & E & S & T). exists w'. split; [exact E|]. split; [exact S|].
  intros cn set c args H. apply with_count; [exact S|]. rewrite T, H. destruct (cx_qubits cx); [congruence|]. unfold zlen. cbn [length]. lia.
Qed.
Print Assumptions C95_late_refuted.
(** ctx = QubitWrapperContext(C, [a]); with ctx: x1 = Not(x); with ctx: x2 = Not(x1) *)
Definition ex_o1 : oworld Z := fst (new_context ex_o [add_context C_ctor [0%nat] None]).
Definition ex_not (q : nat) (w : oworld Z) : st (oworld Z) nat :=
  sbind (ocall_op ex_cn w (Wrap BNot no_kw) [AQ q]) (fun w l => match l with [a] => (w, Ok a) | _ => (w, Raise TypeError) end).
Example C95_ex : object_code nat (ex_not 2%nat) /\ (exists w' x2, sbind (owith ex_o1 0 (ex_not 2%nat)) (fun w x1 => owith w 0 (ex_not x1)) = (w', Ok x2) /\
    map (fun i => nd_inputs (nd (o_heap w') i)) [9; 7; 6; 5]%nat = [[6; 7]; [5]; [5]; [0; 2]]%nat /\ o_stack w' = [] /\ o_total w' = 0) /\
  fst (obj ex_o1 0) = [mkCtx C_ctor [0%nat] [0]] /\
  same_code (list nat) (fun w => owith_new w [mkCtx C_ctor [0%nat] [0]] (fun _ w => ocall_op ex_cn w (Wrap BNot no_kw) [AQ 2%nat]))
    (fun w => with_context w [mkCtx C_ctor [0%nat] [0]] (fun w => call_op ex_cn w (Wrap BNot no_kw) [AQ 2%nat] no_kw)).
Proof.
  split; [|split; [eexists; eexists; split; [vm_compute; reflexivity|repeat split; vm_compute; reflexivity]|split; [reflexivity|]]].
  - apply (oc_then _ _ (fun w => ocall_op ex_cn w (Wrap BNot no_kw) [AQ 2%nat]) (fun l w => match l with [a] => (w, Ok a) | _ => (w, Raise TypeError) end)); [apply oc_op|].
    intros [|a [|b l]]; [exact (oc_end _ (Raise TypeError))|exact (oc_end _ (Ok a))|exact (oc_end _ (Raise TypeError))].
  - apply (sc_with _ _ (fun _ w => ocall_op ex_cn w (Wrap BNot no_kw) [AQ 2%nat])). intros i. apply sc_op.
Qed.
