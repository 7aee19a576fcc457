(** C102: contexts of different threads. *)
From Verif Require Import Base M_Bits M_Kron M_Ops M_Feed M_Func M_Measure M_Graph M_Context M_CtxObj S_CtxObj L_CtxObj2 M_CtxThreads S_CtxThreads L_CtxThreads L_CtxThreads2 P_CtxObj.

(** a thread that is alone does what C95 is about: its calls and with statements, one after the other; and the code of a function
    call is that of C56-C58 *)
Theorem C102_alone : forall {K} {OK : OrdRing K} cn (p : code K) (w : oworld K), exists n, forall ts j, nth_error ts j = Some (start p) ->
  cruns cn w ts (repeat j n) = Some (fst (orun cn p w), upd ts j (start (CEnd (snd (orun cn p w))))).
Proof. exact @alone. Qed.
Print Assumptions C102_alone.
Theorem C102_functions : forall {K} {OK : OrdRing K} cn {KW} (w : oworld K) f (body : KW -> oworld K -> list nat -> st (oworld K) (list nat)) kw inputs set rest (p : list nat -> code K),
  consume (nth f (o_funcs w) []) inputs = Ok (set, rest) -> (forall w, orun cn (p rest) w = body kw w rest) ->
  orun cn (func_code set p rest CEnd) w = ocall_func w f body kw inputs.
Proof. intros K OK cn KW. exact (func_ok cn). Qed.
Print Assumptions C102_functions.

(** contexts without qubits (functions to which C has not been applied, as QFFT): in every schedule the threads do what they do with a
    library that has no contexts at all, where each op call is one step on the circuit; and the global state is as before in the end *)
Theorem C102_plain : forall {K} {OK : OrdRing K} cn sched (w : oworld K) ps w' ts',
  (forall i, obj w i = ([], 0)) -> o_total w = 0 -> o_stack w = [] -> (forall p, In p ps -> no_qubits p) ->
  cruns cn w (map start ps) sched = Some (w', ts') ->
  exists qs, plain cn (o_heap w) (map (fun p => (p, [])) ps) (o_heap w') qs /\ length qs = length ts' /\
    (forall j r, (exists t, nth_error ts' j = Some t /\ finished t r) -> nth_error qs j = Some (CEnd r, [])) /\
    ((forall t, In t ts' -> outside t) -> o_stack w' = [] /\ o_total w' = 0).
Proof. exact @threads_plain. Qed.
Print Assumptions C102_plain.

(** any contexts, if a thread only takes steps when no other is in a call or in a block: the effect is that of whole calls and blocks, one
    after the other. Missing: overlapping blocks, see below. *)
Theorem C102_turns_partial : forall {K} {OK : OrdRing K} cn sched (w : oworld K) ps w' ts',
  exclusive cn w (map start ps) sched -> cruns cn w (map start ps) sched = Some (w', ts') -> (forall t, In t ts' -> outside t) ->
  exists who ps', in_turn cn w ps who = (w', ps') /\ ts' = map start ps'.
Proof. exact @turns. Qed.
Print Assumptions C102_turns_partial.

(** While a thread is in a block, the calls of all other threads are made in its context: another thread, which uses no contexts,
    gets the result of the call inside of the block. *)
Theorem C102_leak_refuted : forall {K} {OK : OrdRing K} cn (w : oworld K) set body k c args, exists sched w',
  let inside := oenter (fst (new_context w set)) (length (o_objs w)) in
  cruns cn w [start (CWith set body k); start (COp c args CEnd)] sched =
    Some (w', [(PRun (body (length (o_objs w))), [(length (o_objs w), k)]); start (CEnd (snd (ocall_op cn inside c args)))]) /\
  w' = fst (ocall_op cn inside c args).
Proof. exact @leak. Qed.
Print Assumptions C102_leak_refuted.
(** If the block that began first ends first, a thread inside of its own block is in the context of the other thread, which has left it,
    and not in its own. *)
Theorem C102_crossed_refuted : forall {K} {OK : OrdRing K} cn (w : oworld K) set1 r1 k1 set2 body2 k2, o_stack w = [] -> exists sched w',
  cruns cn w [start (CWith set1 (fun _ => CEnd r1) k1); start (CWith set2 body2 k2)] sched =
    Some (w', [start (k1 r1); (PRun (body2 (S (length (o_objs w)))), [(S (length (o_objs w)), k2)])]) /\
  contents w' = [set1] /\ o_total w' = o_total w + context_size set2.
Proof. exact @crossed. Qed.
Print Assumptions C102_crossed_refuted.
(** Two threads that enter contexts at the same time, one of them with qubits: the number of qubits in contexts can be wrong ever after,
    and then every op call in every later context raises, in every thread. *)
Theorem C102_forever_refuted : forall {K} {OK : OrdRing K} cn (w : oworld K) set1 r1 set2 r2,
  o_stack w = [] -> o_total w = 0 -> concat (map cx_qubits set1) <> [] -> exists sched w',
  cruns cn w [start (CWith set1 (fun _ => CEnd r1) CEnd); start (CWith set2 (fun _ => CEnd r2) CEnd)] sched = Some (w', [start (CEnd r1); start (CEnd r2)]) /\
  o_stack w' = [] /\
  forall set c args, zlen (concat (map cx_idx set)) = zlen (concat (map cx_qubits set)) ->
    exists w2 e, orun cn (CWith set (fun _ => COp c args CEnd) CEnd) w' = (w2, Raise e).
Proof.
  intros K OK cn w set1 r1 set2 r2 Hs Ht Hq. destruct (lost cn w set1 r1 set2 r2 Hs) as (sched & w' & E & S & T & _). exists sched, w'. split; [exact E|]. split; [exact S|].
  intros set c args H. destruct (with_count cn w' set c args S) as (w2 & e & E2).
  - rewrite T, Ht, H, context_size_len. destruct (concat (map cx_qubits set1)); [congruence|]. unfold zlen. cbn [length]. lia.
  - exists w2, e. cbn [orun]. change (owith_new w' set (fun (_ : nat) w0 => let (w, r) := ocall_op cn w0 c args in (w, r))) with (owith_new w' set (fun (_ : nat) w0 => orun cn (COp c args CEnd) w0)).
    assert (X : owith_new w' set (fun (_ : nat) w0 => orun cn (COp c args CEnd) w0) = owith_new w' set (fun _ w => ocall_op cn w c args)).
    { unfold owith_new, owith. cbn [orun]. destruct (ocall_op cn _ c args). reflexivity. }
    rewrite X, E2. reflexivity.
Qed.
Print Assumptions C102_forever_refuted.

(** ** Examples: the qubits 0 to 3 *)
Definition ext_not (q : nat) : code Z := COp (Wrap BNot no_kw) [AQ q] CEnd.
(** thread 0: with QubitWrapperContext(C, [0]): pass; thread 1: Not(2). The op of thread 1 is a CNot of 0 and 2. *)
Example C102_leak_ex : exists w' ts', cruns ex_cn ex_o [start (CWith [mkCtx C_ctor [0%nat] [0]] (fun _ => CEnd (Ok [])) CEnd); start (ext_not 2)] ([0; 0; 0; 0] ++ repeat 1 9)%nat = Some (w', ts') /\
  nth_error ts' 1 = Some (start (CEnd (Ok [7%nat]))) /\
  map (fun i => nd_inputs (nd (o_heap w') i)) [7; 5]%nat = [[5]; [0; 2]]%nat /\ nd_kind (nd (o_heap w') 5) = KMat (OC ONot) false.
Proof. eexists; eexists. split; [vm_compute; reflexivity|]. repeat split. Qed.
(** two threads that call functions without C: x = Not(x), twice *)
Definition ext_twice (q : nat) : code Z :=
  func_code [] (fun l => COp (Wrap BNot no_kw) (map AQ l) (fun r => match r with Ok l => COp (Wrap BNot no_kw) (map AQ l) CEnd | Raise e => CEnd (Raise e) end)) [q] CEnd.
Lemma ext_twice_plain q : no_qubits (ext_twice q).
Proof.
  unfold ext_twice, func_code. apply nq_with; [|intros r; apply nq_end]. intros i. cbn [cbind]. apply nq_op. intros [l|e]; cbn [cbind].
  - apply nq_op. intros [l'|e]; cbn [cbind]; [apply nq_local; intros; apply nq_end|apply nq_end].
  - apply nq_end.
Qed.
Example C102_plain_ex : (forall i, obj ex_o i = ([], 0)) /\ o_total ex_o = 0 /\ o_stack ex_o = [] /\ (forall p, In p [ext_twice 0; ext_twice 2] -> no_qubits p) /\
  exists w', cruns ex_cn ex_o (map start [ext_twice 0; ext_twice 2]) (concat (repeat [0; 1]%nat 26)) = Some (w', [start (CEnd (Ok [6%nat])); start (CEnd (Ok [7%nat]))]) /\
  map (fun i => nd_inputs (nd (o_heap w') i)) [4; 5; 6; 7]%nat = [[0]; [2]; [4]; [5]]%nat.
Proof.
  split; [intros [|i]; reflexivity|]. split; [reflexivity|]. split; [reflexivity|]. split; [intros p [<-|[<-|[]]]; apply ext_twice_plain|].
  eexists. split; vm_compute; reflexivity.
Qed.
Example C102_forever_ex : concat (map cx_qubits [mkCtx C_ctor [0%nat] [0]]) <> [] /\ zlen (concat (map cx_idx [mkCtx C_ctor [0%nat] [0]])) = zlen (concat (map cx_qubits [mkCtx C_ctor [0%nat] [0]])) /\
  exists w', cruns ex_cn ex_o [start (CWith [mkCtx C_ctor [0%nat] [0]] (fun _ => CEnd (Ok [])) CEnd); start (CWith [] (fun _ => CEnd (Ok [])) CEnd)] [0; 0; 0; 1; 1; 1; 0; 1; 0; 0; 0; 1; 1; 1]%nat =
    Some (w', [start (CEnd (Ok [])); start (CEnd (Ok []))]) /\ o_total w' = -1 /\
  snd (orun ex_cn (CWith [mkCtx C_ctor [1%nat] [0]] (fun _ => ext_not 2) CEnd) w') = Raise ValueError /\
  snd (orun ex_cn (CWith [mkCtx C_ctor [1%nat] [0]] (fun _ => ext_not 2) CEnd) ex_o) = Ok [7%nat].
Proof. split; [discriminate|]. split; [reflexivity|]. eexists. split; [vm_compute; reflexivity|]. repeat split; vm_compute; reflexivity. Qed.
(** thread 0: with QubitWrapperContext(C, [0]): Not(1); thread 1: Not(2), in between; both in turn *)
Fixpoint exclusive_check {K} {OK : OrdRing K} (cn : consts K) (w : oworld K) (ts : list (cthread K)) (sched : list nat) : bool :=
  match sched with
  | [] => true
  | j :: sched =>
      forallb (fun i => Nat.eqb i j || match nth_error ts i with Some (PRun _, []) => true | Some _ => false | None => true end)%bool (seq 0 (length ts)) &&
      match nth_error ts j with
      | Some t => match cstep cn w t with Some (w', t') => exclusive_check cn w' (upd ts j t') sched | None => false end
      | None => false
      end
  end.
Lemma exclusive_checked {K} {OK : OrdRing K} cn : forall sched (w : oworld K) ts, exclusive_check cn w ts sched = true -> exclusive cn w ts sched.
Proof.
  induction sched as [|j sched IH]; intros w ts H; [constructor|]. cbn [exclusive_check] in H. apply andb_prop in H. destruct H as [H1 H2]. rewrite forallb_forall in H1.
  destruct (nth_error ts j) as [t|] eqn:Ej; [|discriminate]. destruct (cstep cn w t) as [[w' t']|] eqn:Es; [|discriminate].
  apply (ex_step cn w ts j sched t w' t'); auto. intros i u Hi Hu. assert (Hl : (i < length ts)%nat) by (apply nth_error_Some; congruence).
  specialize (H1 i ltac:(apply in_seq; lia)). apply Nat.eqb_neq in Hi. rewrite Hi, Hu in H1. destruct u as [[] []]; cbn in H1; try discriminate. eexists. reflexivity.
Qed.
Definition ext_ps : list (code Z) := [CWith [mkCtx C_ctor [0%nat] [0]] (fun _ => ext_not 1) (fun _ => ext_not 3); ext_not 2].
Definition ext_turns : list nat := (repeat 0 16 ++ repeat 1 4 ++ repeat 0 4)%nat.
Example C102_turns_ex : exclusive ex_cn ex_o (map start ext_ps) ext_turns /\
  exists w' ts', cruns ex_cn ex_o (map start ext_ps) ext_turns = Some (w', ts') /\ (forall t, In t ts' -> outside t) /\
  ts' = [start (CEnd (Ok [9%nat])); start (CEnd (Ok [8%nat]))] /\ in_turn ex_cn ex_o ext_ps [0; 1; 0]%nat = (w', [CEnd (Ok [9%nat]); CEnd (Ok [8%nat])]).
Proof.
  split; [apply exclusive_checked; vm_compute; reflexivity|]. eexists; eexists. split; [vm_compute; reflexivity|]. split; [intros t [<-|[<-|[]]]; eexists; reflexivity|]. split; [reflexivity|vm_compute; reflexivity].
Qed.
