(** Property C96: circuits built in another order. *)
From Coq Require Import Sorted.
From Verif Require Import Base S_Bits M_Kron M_Ops S_Ops M_Feed S_Feed M_Func S_Func M_Measure S_Measure M_Graph S_Graph S_Born S_Order
  L_Graph1 L_Graph2 L_Graph5 L_Graph7 L_Graph8 L_Graph9 L_Graph10 L_Graph11 L_Graph12 L_Born L_Order5 L_Order6 L_Order7 L_Order8.

(** ** Data for the examples
    first program: q = Qubit(); p = Qubit(); r = Qubit(); c = C(Not)(q, r); s = fin(c); b = R(i)(p); t = fin(b);
    second program: q = Qubit(); p = Qubit(); b = R(i)(p); t = fin(b); r = Qubit(); c = C(Not)(q, r); s = fin(c);
    fin is StochasticMeasure or Measure, the circuit is [s, t] *)
Definition exo_calls (fin : list nat -> call Z) : list (call Z) :=
  [NewQubit None None; NewQubit None None; NewQubit None None; Gate (GC GNot true) [0; 2]%nat false; fin [4]%nat; Gate (GR (0, 1)) [1]%nat false; fin [6]%nat].
Definition exo_calls' (fin : list nat -> call Z) : list (call Z) :=
  [NewQubit None None; NewQubit None None; Gate (GR (0, 1)) [1]%nat false; fin [2]%nat; NewQubit None None; Gate (GC GNot true) [0; 4]%nat false; fin [6]%nat].
Definition exo_prog (cs : list (call Z)) : heap Z * list nat := match program cs empty_heap [] with Some x => x | None => (empty_heap, []) end.
Definition stoch0 (l : list nat) : call Z := Stoch l 0.
Definition exo_s : heap Z * list nat := Eval vm_compute in exo_prog (exo_calls stoch0).
Definition exo_s' : heap Z * list nat := Eval vm_compute in exo_prog (exo_calls' stoch0).
Definition exo_m : heap Z * list nat := Eval vm_compute in exo_prog (exo_calls (fun l => Meas l)).
Definition exo_m' : heap Z * list nat := Eval vm_compute in exo_prog (exo_calls' (fun l => Meas l)).
Definition exo_args : list nat := [5; 7]%nat.
Definition exo_args' : list nat := [7; 3]%nat.
Definition exo_needed : list nat := [0; 1; 2; 4; 5; 6; 7]%nat.
Definition exo_needed' : list nat := [0; 1; 2; 3; 4; 6; 7]%nat.
Definition exo_srcs : list nat := [0; 1; 2]%nat.
Definition exo_srcs' : list nat := [0; 1; 4]%nat.
Definition exo_f (i : nat) : nat := nth i [0; 1; 4; 5; 6; 7; 2; 3]%nat 8%nat.
Definition exo_ev (n : Z) : env Z :=
  mkEnv (fun i => i) (fun l => rev l) (fun _ => rev (zrange 0 (2 ^ n))) (fun _ => 1) (fun _ => 0) (fun _ => 1) (fun i => (i, 7)) strict.

Lemma prog_prepared (cs : list (call Z)) h vis args srcs L : program cs empty_heap [] = Some (h, vis) -> forallb (fun i => mem i vis) args = true ->
  splits_in_range h vis -> no_swap_dagger h vis -> needed_check h args L = true -> StronglySorted lt srcs ->
  srcs = filter (fun i => match inputs_of h i with [] => true | _ => false end) L -> prepared h vis cache0 [] args srcs.
Proof.
  intros E Ha Hs Hn HL S Es. split; [apply (program_session cs cache0 [] empty_heap []); [constructor|exact E]|]. split; auto. split; auto.
  split; [intros i Hi; rewrite forallb_forall in Ha; apply mem_In; auto|]. split; [intros a []|].
  apply (sources_iff _ _ L); auto. apply needed_ok. exact HL.
Qed.
Lemma exo_env n (h : heap Z) : (forall i func, nd_kind (nd h i) <> KF func) -> enum_ok (exo_ev n) /\ scheds_ok (exo_ev n) h n.
Proof.
  intros H. split; [intros l; symmetry; apply Permutation_rev|]. intros i. cbn [exo_ev e_sched]. specialize (H i).
  destruct (nd_kind (nd h i)); auto; [symmetry; apply Permutation_rev|]. exfalso. eapply H. reflexivity.
Qed.
Ltac no_splits := intros i idx k Hi Hk Hin; cbn in Hi; repeat destruct Hi as [<-|Hi]; cbn in Hk; try discriminate; try (destruct Hi; fail).
Ltac no_swaps := intros i o Hi Hk; cbn in Hi; repeat destruct Hi as [<-|Hi]; cbn in Hk; try discriminate; try (destruct Hi; fail); inversion Hk; reflexivity.
Ltac prepared cs L := apply (prog_prepared cs _ _ _ _ L); [vm_compute; reflexivity|vm_compute; reflexivity|no_splits|no_swaps|vm_compute; reflexivity|repeat constructor|reflexivity].

Lemma exo_s_prepared : prepared (fst exo_s) (snd exo_s) cache0 [] exo_args exo_srcs.
Proof. prepared (exo_calls stoch0) exo_needed. Qed.
Lemma exo_s_prepared' : prepared (fst exo_s') (snd exo_s') cache0 [] exo_args' exo_srcs'.
Proof. prepared (exo_calls' stoch0) exo_needed'. Qed.
Lemma exo_m_prepared : prepared (fst exo_m) (snd exo_m) cache0 [] exo_args exo_srcs.
Proof. prepared (exo_calls (fun l => Meas l)) exo_needed. Qed.
Lemma exo_m_prepared' : prepared (fst exo_m') (snd exo_m') cache0 [] exo_args' exo_srcs'.
Proof. prepared (exo_calls' (fun l => Meas l)) exo_needed'. Qed.

Lemma exo_starts (l : list (Cx Z)) : zlen l = 8 ->
  starts (fst exo_s) exo_srcs 3 (exo_ev 3) [] (SList l) [(zrange 0 3, l)] /\ starts (fst exo_s') exo_srcs' 3 (exo_ev 3) [] (SList l) [(zrange 0 3, l)] /\
  starts (fst exo_m) exo_srcs 3 (exo_ev 3) [] (SList l) [(zrange 0 3, l)] /\ starts (fst exo_m') exo_srcs' 3 (exo_ev 3) [] (SList l) [(zrange 0 3, l)].
Proof.
  intros H.
  assert (G : forall h srcs, (forall i func, nd_kind (nd h i) <> KF func) -> starts h srcs 3 (exo_ev 3) [] (SList l) [(zrange 0 3, l)]).
  { intros h srcs Hk. destruct (exo_env 3 h Hk) as [A B]. split; auto. split; auto. apply initial_state; [constructor|intros i []|exact H]. }
  split; [|split; [|split]]; apply G; intros i func; do 9 (destruct i as [|i]; [cbn; discriminate|]); destruct i; cbn; discriminate.
Qed.
Lemma exo_needed_anc : (forall i, ancestor (fst exo_s) exo_args i <-> In i exo_needed) /\ (forall i, ancestor (fst exo_m) exo_args i <-> In i exo_needed).
Proof. split; apply needed_ok; vm_compute; reflexivity. Qed.
Lemma exo_twins : twins (fst exo_s) (snd exo_s) cache0 [] exo_args exo_srcs (fst exo_s') (snd exo_s') cache0 [] exo_args' exo_srcs' exo_f /\
  twins (fst exo_m) (snd exo_m) cache0 [] exo_args exo_srcs (fst exo_m') (snd exo_m') cache0 [] exo_args' exo_srcs' exo_f.
Proof.
  split.
  - split; [exact exo_s_prepared|]. split; [exact exo_s_prepared'|]. split.
    + apply (same_check _ _ _ _ _ _ _ exo_needed (proj1 exo_needed_anc)); [|reflexivity|cbn; repeat constructor; cbn; intuition discriminate|].
      * intros j. split; [intros [<-|[<-|[]]]; [exists 5%nat|exists 7%nat]; cbn; auto|intros (i & [<-|[<-|[]]] & ->); cbn; auto].
      * repeat (apply Forall_cons; [vm_compute; auto|]). constructor.
    + destruct exo_s_prepared as (S & Hs & _ & Ha & _ & Hsrc). apply (once_ok _ _ _ _ exo_needed (session_wf _ _ _ _ S) Ha Hs Hsrc (proj1 exo_needed_anc)). vm_compute. reflexivity.
  - split; [exact exo_m_prepared|]. split; [exact exo_m_prepared'|]. split.
    + apply (same_check _ _ _ _ _ _ _ exo_needed (proj2 exo_needed_anc)); [|reflexivity|cbn; repeat constructor; cbn; intuition discriminate|].
      * intros j. split; [intros [<-|[<-|[]]]; [exists 5%nat|exists 7%nat]; cbn; auto|intros (i & [<-|[<-|[]]] & ->); cbn; auto].
      * repeat (apply Forall_cons; [vm_compute; auto|]). constructor.
    + destruct exo_m_prepared as (S & Hs & _ & Ha & _ & Hsrc). apply (once_ok _ _ _ _ exo_needed (session_wf _ _ _ _ S) Ha Hs Hsrc (proj2 exo_needed_anc)). vm_compute. reflexivity.
Qed.
Lemma exo_ok : circuit_ok (fst exo_s) exo_args exo_srcs 3 /\ circuit_ok (fst exo_m) exo_args exo_srcs 3.
Proof.
  split.
  - destruct exo_s_prepared as (_ & Hs & _ & Ha & _ & Hsrc).
    apply (circuit_ok_iff _ (snd exo_s) _ exo_needed); [apply (program_built (exo_calls stoch0) empty_heap []); [constructor|vm_compute; reflexivity]|exact Ha|exact Hs|exact (proj1 exo_needed_anc)|exact Hsrc|].
    unfold exo_needed. repeat (apply Forall_cons; [vm_compute; try exact I; (split; [discriminate|split; [|auto]]);
      repeat (constructor; [cbn; intuition discriminate|]); constructor|]). constructor.
  - destruct exo_m_prepared as (_ & Hs & _ & Ha & _ & Hsrc).
    apply (circuit_ok_iff _ (snd exo_m) _ exo_needed); [apply (program_built (exo_calls (fun l => Meas l)) empty_heap []); [constructor|vm_compute; reflexivity]|exact Ha|exact Hs|exact (proj2 exo_needed_anc)|exact Hsrc|].
    unfold exo_needed. repeat (apply Forall_cons; [vm_compute; try exact I; (split; [discriminate|split; [|auto]]);
      repeat (constructor; [cbn; intuition discriminate|]); constructor|]). constructor.
Qed.
Lemma exo_gates : gates_exact (fst exo_s) exo_args /\ gates_exact (fst exo_m) exo_args.
Proof.
  split; intros i o d Hi Hk; apply exo_needed_anc in Hi; cbn in Hi; repeat destruct Hi as [<-|Hi]; cbn in Hk; try discriminate; try (destruct Hi; fail); inversion Hk; reflexivity || exact I.
Qed.
Definition exo_v : list (Cx Z) := [(1, 0); (0, 2); (0, 0); (3, 1); (0, 0); (1, 1); (2, 0); (0, 5)].
Definition exo_w : list (Cx Z) := [(0, 0); (0, 0); (0, 0); (0, 0); (0, 0); (0, 0); (0, 1); (0, 0)].

(** a pair of entangled qubits, s = StochasticMeasure(q) and m = Measure(p) called in the two orders *)
Definition exo_bell : list (call Z) := [NewQubit None None; NewQubit None None; Stoch [0]%nat 0; Meas [1]%nat].
Definition exo_bell' : list (call Z) := [NewQubit None None; NewQubit None None; Meas [1]%nat; Stoch [0]%nat 0].
Definition exo_b : heap Z * list nat := Eval vm_compute in exo_prog exo_bell.
Definition exo_b' : heap Z * list nat := Eval vm_compute in exo_prog exo_bell'.
(** the same qubit used twice: a = Not(q) and b = R(i)(q) called in the two orders *)
Definition exo_reuse : list (call Z) := [NewQubit None None; Gate GNot [0]%nat false; Gate (GR (0, 1)) [0]%nat false].
Definition exo_reuse' : list (call Z) := [NewQubit None None; Gate (GR (0, 1)) [0]%nat false; Gate GNot [0]%nat false].
Definition exo_r : heap Z * list nat := Eval vm_compute in exo_prog exo_reuse.
Definition exo_r' : heap Z * list nat := Eval vm_compute in exo_prog exo_reuse'.
Definition exo_bf (i : nat) : nat := nth i [0; 1; 3; 2]%nat 4%nat.
Definition exo_rf (i : nat) : nat := nth i [0; 2; 1]%nat 3%nat.
Lemma exo_b_prepared : prepared (fst exo_b) (snd exo_b) cache0 [] [2; 3]%nat [0; 1]%nat.
Proof. prepared exo_bell [0; 1; 2; 3]%nat. Qed.
Lemma exo_b_prepared' : prepared (fst exo_b') (snd exo_b') cache0 [] [3; 2]%nat [0; 1]%nat.
Proof. prepared exo_bell' [0; 1; 2; 3]%nat. Qed.
Lemma exo_r_prepared : prepared (fst exo_r) (snd exo_r) cache0 [] [1; 2]%nat [0]%nat.
Proof. prepared exo_reuse [0; 1; 2]%nat. Qed.
Lemma exo_r_prepared' : prepared (fst exo_r') (snd exo_r') cache0 [] [2; 1]%nat [0]%nat.
Proof. prepared exo_reuse' [0; 1; 2]%nat. Qed.
Lemma exo_b_twins : twins (fst exo_b) (snd exo_b) cache0 [] [2; 3]%nat [0; 1]%nat (fst exo_b') (snd exo_b') cache0 [] [3; 2]%nat [0; 1]%nat exo_bf.
Proof.
  assert (N : forall i, ancestor (fst exo_b) [2; 3]%nat i <-> In i [0; 1; 2; 3]%nat) by (apply needed_ok; vm_compute; reflexivity).
  split; [exact exo_b_prepared|]. split; [exact exo_b_prepared'|]. split.
  - apply (same_check _ _ _ _ _ _ _ [0; 1; 2; 3]%nat N); [|reflexivity|cbn; repeat constructor; cbn; intuition discriminate|].
    + intros j. split; [intros [<-|[<-|[]]]; [exists 2%nat|exists 3%nat]; cbn; auto|intros (i & [<-|[<-|[]]] & ->); cbn; auto].
    + repeat (apply Forall_cons; [vm_compute; auto|]). constructor.
  - destruct exo_b_prepared as (S & Hs & _ & Ha & _ & Hsrc). apply (once_ok _ _ _ _ [0; 1; 2; 3]%nat (session_wf _ _ _ _ S) Ha Hs Hsrc N). vm_compute. reflexivity.
Qed.
Lemma exo_b_ok : circuit_ok (fst exo_b) [2; 3]%nat [0; 1]%nat 2.
Proof.
  destruct exo_b_prepared as (_ & Hs & _ & Ha & _ & Hsrc).
  apply (circuit_ok_iff _ (snd exo_b) _ [0; 1; 2; 3]%nat); [apply (program_built exo_bell empty_heap []); [constructor|vm_compute; reflexivity]|exact Ha|exact Hs|apply needed_ok; vm_compute; reflexivity|exact Hsrc|].
  repeat (apply Forall_cons; [vm_compute; try exact I; (split; [discriminate|split; [|auto]]);
    repeat (constructor; [cbn; intuition discriminate|]); constructor|]). constructor.
Qed.
Lemma exo_r_same : same_circuit (fst exo_r) [1; 2]%nat [0]%nat (fst exo_r') [2; 1]%nat [0]%nat exo_rf.
Proof.
  apply (same_check _ _ _ _ _ _ _ [0; 1; 2]%nat); [apply needed_ok; vm_compute; reflexivity| |reflexivity|cbn; repeat constructor; cbn; intuition discriminate|].
  - intros j. split; [intros [<-|[<-|[]]]; [exists 1%nat|exists 2%nat]; cbn; auto|intros (i & [<-|[<-|[]]] & ->); cbn; auto].
  - repeat (apply Forall_cons; [vm_compute; auto|]). constructor.
Qed.
Lemma exo_r_ok : circuit_ok (fst exo_r) [1; 2]%nat [0]%nat 1.
Proof.
  destruct exo_r_prepared as (_ & Hs & _ & Ha & _ & Hsrc).
  apply (circuit_ok_iff _ (snd exo_r) _ [0; 1; 2]%nat); [apply (program_built exo_reuse empty_heap []); [constructor|vm_compute; reflexivity]|exact Ha|exact Hs|apply needed_ok; vm_compute; reflexivity|exact Hsrc|].
  repeat (apply Forall_cons; [vm_compute; try exact I; (split; [discriminate|split; [|auto]]);
    repeat (constructor; [cbn; intuition discriminate|]); constructor|]). constructor.
Qed.
Lemma exo_starts_any (h : heap Z) srcs n l : 0 <= n -> (forall i func, nd_kind (nd h i) <> KF func) -> zlen l = 2 ^ n -> starts h srcs n (exo_ev n) [] (SList l) [(zrange 0 n, l)].
Proof. intros Hn Hk H. destruct (exo_env n h Hk) as [A B]. split; auto. split; auto. apply initial_state; [constructor|intros i []|exact H]. Qed.
Ltac no_funcs := intros i func; do 5 (destruct i as [|i]; [cbn; discriminate|]); destruct i; cbn; discriminate.

(** ** C96 *)
(** two programs that make the same calls on the corresponding objects, in any two orders, and that start from the same amplitudes,
    return the same state, when no qubit is used twice and nothing is measured *)
Theorem C96_state_partial : forall {K} {OK : OrdRing K} (h : heap K) vis c l args srcs (h' : heap K) vis' c' l' args' srcs' f, twins h vis c l args srcs h' vis' c' l' args' srcs' f ->
  let n := widths h srcs in circuit_ok h args srcs n ->
  forall ev feed strict state init ev' feed' strict' state' init', starts h srcs n ev feed state init -> starts h' srcs' n ev' feed' state' init' ->
  (forall x, 0 <= x < 2 ^ n -> fed_amp n init x = fed_amp n init' x) ->
  forall d d' st cm st' cm', run ev c h args feed strict state = (d, Ok (st, cm)) -> run ev' c' h' args' feed' strict' state' = (d', Ok (st', cm')) ->
  no_measure h args -> st = st'.
Proof. exact @order_state. Qed.
Print Assumptions C96_state_partial.
(** and, when the gates are exact, every object reports the same: a StochasticMeasure of the one program gives the probabilities that
    the corresponding one of the other program gives *)
Theorem C96_reports_partial : forall {K} {OK : OrdRing K} (h : heap K) vis c l args srcs (h' : heap K) vis' c' l' args' srcs' f, twins h vis c l args srcs h' vis' c' l' args' srcs' f ->
  let n := widths h srcs in circuit_ok h args srcs n ->
  forall ev feed strict state init ev' feed' strict' state' init', starts h srcs n ev feed state init -> starts h' srcs' n ev' feed' state' init' ->
  (forall x, 0 <= x < 2 ^ n -> fed_amp n init x = fed_amp n init' x) ->
  forall d d' st cm st' cm', run ev c h args feed strict state = (d, Ok (st, cm)) -> run ev' c' h' args' feed' strict' state' = (d', Ok (st', cm')) ->
  no_measure h args -> gates_exact h args -> forall i cv, In (i, cv) cm -> exists cv', In (f i, cv') cm' /\ same_report cv cv'.
Proof. exact @order_reports. Qed.
Print Assumptions C96_reports_partial.
(** with measurements: when every Measure of the second program reports the outcome the corresponding one of the first reports, the two
    programs return the same state, and the outcomes together have the same probability in both *)
Theorem C96_measured_partial : forall {K} {OK : OrdRing K} (h : heap K) vis c l args srcs (h' : heap K) vis' c' l' args' srcs' f, twins h vis c l args srcs h' vis' c' l' args' srcs' f ->
  let n := widths h srcs in circuit_ok h args srcs n ->
  forall ev feed strict state init ev' feed' strict' state' init', starts h srcs n ev feed state init -> starts h' srcs' n ev' feed' state' init' ->
  (forall x, 0 <= x < 2 ^ n -> fed_amp n init x = fed_amp n init' x) ->
  forall d d' st cm st' cm', run ev c h args feed strict state = (d, Ok (st, cm)) -> run ev' c' h' args' feed' strict' state' = (d', Ok (st', cm')) ->
  gates_exact h args -> (forall g v, In (g, v) init -> total v = 1%r) ->
  draws_ok ev -> (forall p, rle 0%r (e_rsqrt ev p)) -> draws_ok ev' -> (forall p, rle 0%r (e_rsqrt ev' p)) ->
  (forall i m p, reports cm i m p -> exists p', reports cm' (f i) m p') -> st = st' /\ likelihood cm = likelihood cm'.
Proof. exact @order_measured. Qed.
Print Assumptions C96_measured_partial.
(** and every list of outcomes the first program can report can be reported by the second: some draws lead to it *)
Theorem C96_possible_partial : forall {K} {OK : OrdRing K} (h : heap K) vis c l args srcs (h' : heap K) vis' c' l' args' srcs' f, twins h vis c l args srcs h' vis' c' l' args' srcs' f ->
  let n := widths h srcs in circuit_ok h args srcs n ->
  forall ev feed strict state init ev' feed' strict' state' init', starts h srcs n ev feed state init -> starts h' srcs' n ev' feed' state' init' ->
  (forall x, 0 <= x < 2 ^ n -> fed_amp n init x = fed_amp n init' x) ->
  forall d st cm, run ev c h args feed strict state = (d, Ok (st, cm)) ->
  gates_exact h args -> (forall g v, In (g, v) init -> total v = 1%r) -> (forall g v, In (g, v) init' -> total v = 1%r) ->
  draws_ok ev -> (forall p, rle 0%r (e_rsqrt ev p)) -> draws_ok ev' -> (forall p, rle 0%r (e_rsqrt ev' p)) ->
  (strict' = true -> incl srcs' (fed_nodes feed')) ->
  exists u d' cm', draws_ok (with_draws ev' u) /\ run (with_draws ev' u) c' h' args' feed' strict' state' = (d', Ok (st, cm')) /\
    (forall i m p, reports cm i m p -> exists p', reports cm' (f i) m p') /\ likelihood cm = likelihood cm'.
Proof. exact @order_possible. Qed.
Print Assumptions C96_possible_partial.
Example C96_ex :
  twins (fst exo_s) (snd exo_s) cache0 [] exo_args exo_srcs (fst exo_s') (snd exo_s') cache0 [] exo_args' exo_srcs' exo_f /\
  circuit_ok (fst exo_s) exo_args exo_srcs 3 /\ no_measure (fst exo_s) exo_args /\ gates_exact (fst exo_s) exo_args /\
  starts (fst exo_s) exo_srcs 3 (exo_ev 3) [] (SList exo_v) [(zrange 0 3, exo_v)] /\ starts (fst exo_s') exo_srcs' 3 (exo_ev 3) [] (SList exo_v) [(zrange 0 3, exo_v)] /\
  snd (run (exo_ev 3) cache0 (fst exo_s) exo_args [] false (SList exo_v))
  = Ok ([(1, 0); (0, 2); (0, 0); (-1, 3); (1, 1); (0, 0); (-5, 0); (0, 2)],
        [(0%nat, CZero); (1%nat, CZero); (2%nat, CZero); (4%nat, CZero); (5%nat, CProbs (inl [1; 27; 14; 4])); (6%nat, CZero); (7%nat, CProbs (inl [7; 39]))]) /\
  snd (run (exo_ev 3) cache0 (fst exo_s') exo_args' [] false (SList exo_v))
  = Ok ([(1, 0); (0, 2); (0, 0); (-1, 3); (1, 1); (0, 0); (-5, 0); (0, 2)],
        [(0%nat, CZero); (1%nat, CZero); (2%nat, CZero); (3%nat, CProbs (inl [7; 39])); (4%nat, CZero); (6%nat, CZero); (7%nat, CProbs (inl [1; 27; 14; 4]))]).
Proof.
  split; [apply exo_twins|]. split; [apply exo_ok|]. split.
  { intros i Hi Hk. apply exo_needed_anc in Hi. cbn in Hi. repeat destruct Hi as [<-|Hi]; cbn in Hk; try discriminate. destruct Hi. }
  split; [apply exo_gates|]. split; [apply exo_starts; reflexivity|]. split; [apply exo_starts; reflexivity|]. split; vm_compute; reflexivity.
Qed.
Example C96_measured_ex :
  twins (fst exo_m) (snd exo_m) cache0 [] exo_args exo_srcs (fst exo_m') (snd exo_m') cache0 [] exo_args' exo_srcs' exo_f /\
  circuit_ok (fst exo_m) exo_args exo_srcs 3 /\ gates_exact (fst exo_m) exo_args /\
  starts (fst exo_m) exo_srcs 3 (exo_ev 3) [] (SList exo_w) [(zrange 0 3, exo_w)] /\ starts (fst exo_m') exo_srcs' 3 (exo_ev 3) [] (SList exo_w) [(zrange 0 3, exo_w)] /\
  total exo_w = 1 /\ draws_ok (exo_ev 3) /\ (forall p, 0 <= e_rsqrt (exo_ev 3) p) /\
  snd (run (exo_ev 3) cache0 (fst exo_m) exo_args [] false (SList exo_w))
  = Ok ([(0, 0); (0, 0); (0, 0); (0, 0); (0, 0); (0, 0); (0, 0); (-1, 0)],
        [(0%nat, CZero); (1%nat, CZero); (2%nat, CZero); (4%nat, CZero); (5%nat, CMeas 3 1); (6%nat, CZero); (7%nat, CMeas 1 1)]) /\
  snd (run (exo_ev 3) cache0 (fst exo_m') exo_args' [] false (SList exo_w))
  = Ok ([(0, 0); (0, 0); (0, 0); (0, 0); (0, 0); (0, 0); (0, 0); (-1, 0)],
        [(0%nat, CZero); (1%nat, CZero); (2%nat, CZero); (3%nat, CMeas 1 1); (4%nat, CZero); (6%nat, CZero); (7%nat, CMeas 3 1)]).
Proof.
  split; [apply exo_twins|]. split; [apply exo_ok|]. split; [apply exo_gates|]. split; [apply exo_starts; reflexivity|]. split; [apply exo_starts; reflexivity|].
  split; [reflexivity|]. split.
  { split; [intros i; split; reflexivity|]. split; [reflexivity|]. intros p H0 H1.
    change ((p <=? 0) = false) in H0. change ((p <=? 1) = true) in H1. apply Z.leb_gt in H0. apply Z.leb_le in H1. assert (p = 1) as -> by lia. reflexivity. }
  split; [intros p; cbn; lia|]. split; vm_compute; reflexivity.
Qed.
(** with measurements the reported probabilities do depend on the order of the calls: a StochasticMeasure of one of two entangled qubits
    reports [1; 1] when it is called before the Measure of the other qubit and [0; 1] when it is called after it, although the outcome is
    the same (the amplitudes are not normalised because they are integers) *)
Theorem C96_probs_refuted :
  let v := [(1, 0); (0, 0); (0, 0); (1, 0)] in
  twins (fst exo_b) (snd exo_b) cache0 [] [2; 3]%nat [0; 1]%nat (fst exo_b') (snd exo_b') cache0 [] [3; 2]%nat [0; 1]%nat exo_bf /\
  circuit_ok (fst exo_b) [2; 3]%nat [0; 1]%nat 2 /\
  starts (fst exo_b) [0; 1]%nat 2 (exo_ev 2) [] (SList v) [(zrange 0 2, v)] /\ starts (fst exo_b') [0; 1]%nat 2 (exo_ev 2) [] (SList v) [(zrange 0 2, v)] /\
  exists d d' st cm cm', run (exo_ev 2) cache0 (fst exo_b) [2; 3]%nat [] false (SList v) = (d, Ok (st, cm)) /\
    run (exo_ev 2) cache0 (fst exo_b') [3; 2]%nat [] false (SList v) = (d', Ok (st, cm')) /\
    reports cm 3 1 1 /\ reports cm' 2 1 1 /\ In (2%nat, CProbs (inl [1; 1])) cm /\ In (3%nat, CProbs (inl [0; 1])) cm'.
Proof.
  cbv zeta. split; [exact exo_b_twins|]. split; [exact exo_b_ok|]. split; [apply exo_starts_any; [lia|no_funcs|reflexivity]|].
  split; [apply exo_starts_any; [lia|no_funcs|reflexivity]|].
  eexists _, _, _, _, _. split; [vm_compute; reflexivity|]. split; [vm_compute; reflexivity|]. cbn. auto 12.
Qed.
Print Assumptions C96_probs_refuted.
(** a qubit may be passed to two gates; then the order of the calls matters for the state *)
Theorem C96_reuse_refuted :
  let v := [(1, 0); (0, 0)] in
  prepared (fst exo_r) (snd exo_r) cache0 [] [1; 2]%nat [0]%nat /\ prepared (fst exo_r') (snd exo_r') cache0 [] [2; 1]%nat [0]%nat /\
  same_circuit (fst exo_r) [1; 2]%nat [0]%nat (fst exo_r') [2; 1]%nat [0]%nat exo_rf /\ circuit_ok (fst exo_r) [1; 2]%nat [0]%nat 1 /\
  starts (fst exo_r) [0]%nat 1 (exo_ev 1) [] (SList v) [(zrange 0 1, v)] /\ starts (fst exo_r') [0]%nat 1 (exo_ev 1) [] (SList v) [(zrange 0 1, v)] /\
  exists d d' cm cm', run (exo_ev 1) cache0 (fst exo_r) [1; 2]%nat [] false (SList v) = (d, Ok ([(0, 0); (0, 1)], cm)) /\
    run (exo_ev 1) cache0 (fst exo_r') [2; 1]%nat [] false (SList v) = (d', Ok ([(0, 0); (1, 0)], cm')).
Proof.
  cbv zeta. split; [exact exo_r_prepared|]. split; [exact exo_r_prepared'|]. split; [exact exo_r_same|]. split; [exact exo_r_ok|].
  split; [apply exo_starts_any; [lia|no_funcs|reflexivity]|]. split; [apply exo_starts_any; [lia|no_funcs|reflexivity]|].
  eexists _, _, _, _. split; vm_compute; reflexivity.
Qed.
Print Assumptions C96_reuse_refuted.
