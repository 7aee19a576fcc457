(** Contexts and exceptions: C69; one wrapper of a function: C58. *)
From Coq Require Import Sorted.
From Verif Require Import Base M_Graph M_Context S_Code L_Code.

(** ** C69: whatever code runs, and whether or not it raises, the active contexts are the same afterwards, and at the top level
    there are none *)
Theorem C69_balanced : forall {K} {OK : OrdRing K} A (m : world K -> st (world K) A) w w' r, user_code A m -> m w = (w', r) ->
  active w' = active w /\ w_total w' = w_total w.
Proof. exact @code_balanced. Qed.
Print Assumptions C69_balanced.
Theorem C69_top : forall {K} {OK : OrdRing K} A (m : world K -> st (world K) A) w w' r, user_code A m -> m w = (w', r) ->
  w_stack w = [] -> w_total w = 0 -> w_stack w' = [] /\ w_total w' = 0.
Proof. exact @code_top. Qed.
Print Assumptions C69_top.
(** inside of contexts the number of their qubits, which every op call checks, is always right *)
Theorem C69_counted : forall {K} {OK : OrdRing K} A (m : world K -> st (world K) A) w set w' stack total, user_code A m -> counted w ->
  with_context w set (fun w => let w1 := fst (m w) in (w1, Ok (w_stack w1, w_total w1))) = (w', Ok (stack, total)) ->
  total = fold_right Z.add 0 (concat (context_sizes stack)) /\ context_sizes stack = context_sizes (w_stack w ++ [set]) /\ counted w'.
Proof. exact @code_counted. Qed.
Print Assumptions C69_counted.
(** QFFT is such code, and so is code that calls it and catches what it raises: C(QFFT)(c, c) with a control of two qubits *)
Theorem C69_qfft : forall {K} {OK : OrdRing K} (cn : consts K) f rev_ inputs, user_code (list nat) (fun w => QFFT cn w f rev_ inputs).
Proof. exact @code_qfft. Qed.
Print Assumptions C69_qfft.
Definition ex_cn : consts Z := mkConsts 1 (fun m negate => (0, if negate then -1 else 1)).
Definition ex_w : world Z := mkWorld (fst (exec empty_heap (NewQubit (Some 2) None))) [] 0 [[(C_ctor, [0])]].
Example C69_ex : (exists w', QFFT ex_cn ex_w 0 true [0; 0]%nat = (w', Raise ValueError) /\ w_stack w' = [] /\ w_total w' = 0) /\
  user_code (list nat) (fun w => match QFFT ex_cn w 0 true [0; 0]%nat with (w, Ok a) => (w, Ok a) | (w, Raise e) => call_op ex_cn w (Wrap BH no_kw) [AQ 0%nat] no_kw end).
Proof.
  split; [eexists; split; [vm_compute; reflexivity|split; reflexivity]|].
  apply (uc_try _ (fun w => QFFT ex_cn w 0 true [0; 0]%nat) (fun _ w => call_op ex_cn w (Wrap BH no_kw) [AQ 0%nat] no_kw)); [apply code_qfft|].
  intros; apply uc_op.
Qed.

(** a context of two qubits and one of one qubit inside of it, with a call in the inner one: no exception, five nodes more *)
Definition ex_w3 : world Z := mkWorld (fst (exec (fst (exec (fst (exec (fst (exec empty_heap (NewQubit None None))) (NewQubit None None))) (NewQubit None None))) (NewQubit None None))) [] 0 [].
Definition ex_code : world Z -> st (world Z) (list nat) :=
  fun w => with_context w [mkCtx (fun c => C_ctor (C_ctor c)) [0; 1]%nat [0; 1]] (fun w => with_context w [mkCtx C_ctor [2]%nat [0]] (fun w => call_op ex_cn w (Wrap BNot no_kw) [AQ 3%nat] no_kw)).
Example C69_counted_ex : user_code (list nat) ex_code /\ counted ex_w3 /\ (exists w' outs, ex_code ex_w3 = (w', Ok outs) /\ w_stack w' = [] /\ w_total w' = 0) /\
  exists w', with_context ex_w3 [mkCtx (fun c => c) [0; 1]%nat [0; 1]] (fun w => (w, Ok (w_total w))) = (w', Ok 2).
Proof.
  split; [|split; [reflexivity|split; [eexists; eexists; split; [vm_compute; reflexivity|split; reflexivity]|eexists; reflexivity]]].
  apply (uc_with _ _ (fun w => with_context w [mkCtx C_ctor [2]%nat [0]] (fun w => call_op ex_cn w (Wrap BNot no_kw) [AQ 3%nat] no_kw))). apply (uc_with _ _ (fun w => call_op ex_cn w (Wrap BNot no_kw) [AQ 3%nat] no_kw)). apply uc_op.
Qed.

(** ** C58: a function with one wrapper of any positions gets the arguments at the other positions, the context holds those at
    the positions, and the identity returns all arguments in order *)
Theorem C58_positions_partial : forall {K} {OK : OrdRing K} KW (w : world K) f fn idx inputs
    (body : KW -> world K -> list nat -> st (world K) (list nat)) kw,
  wrappers_of w f = [(fn, idx)] -> StronglySorted Z.lt idx -> (forall i, In i idx -> 0 <= i < zlen inputs) ->
  call_func w f body kw inputs = with_context w [mkCtx fn (at_positions idx inputs) idx] (fun w =>
    sbind (body kw w (elsewhere idx inputs)) (fun w outputs => (w, Ok (put_in_order (fun i => i) (last (w_stack w) []) outputs)))).
Proof. exact @one_wrapper. Qed.
Print Assumptions C58_positions_partial.
Theorem C58_identity_partial : forall {K} {OK : OrdRing K} KW (w : world K) f fn idx inputs (kw : KW),
  wrappers_of w f = [(fn, idx)] -> StronglySorted Z.lt idx -> (forall i, In i idx -> 0 <= i < zlen inputs) ->
  snd (call_func w f (fun _ w l => (w, Ok l)) kw inputs) = Ok inputs.
Proof. exact @one_wrapper_id. Qed.
Print Assumptions C58_identity_partial.
Example C58_positions_ex : StronglySorted Z.lt [0; 2] /\ at_positions [0; 2] [5; 6; 7; 8]%nat = [5; 7]%nat /\ elsewhere [0; 2] [5; 6; 7; 8]%nat = [6; 8]%nat.
Proof. split; [|split; reflexivity]. repeat constructor. Qed.
