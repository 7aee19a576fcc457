(** Property C70: runs with measurements. *)
From Coq Require Import Sorted.
From Verif Require Import Base S_Bits M_Kron M_Ops S_Ops M_Feed S_Feed M_Func S_Func M_Measure S_Measure M_Graph S_Graph S_Born
  L_Graph1 L_Graph2 L_Graph5 L_Graph7 L_Graph8 L_Graph9 L_Graph10 L_Graph11 L_Graph12 L_Born.

(** ** Data for the example
    q = Qubit(n=2); p = Qubit(default=[0, 1]); a, b = q.split([1]); c = C(Not)(a, p); d = R(i)(b); m = Measure(c);
    e = Not(m); f = Measure(d, e); the circuit [f] *)
Definition exb_calls : list (call Z) :=
  [NewQubit (Some 2) None; NewQubit None (Some (DList [(0, 0); (1, 0)])); Split 0 (Some [1]);
   Gate (GC GNot true) [2; 1]%nat false; Gate (GR (0, 1)) [3]%nat false; Meas [5]%nat; Gate GNot [7]%nat false; Meas [6; 8]%nat].
Definition exb : heap Z * list nat :=
  Eval vm_compute in match program exb_calls empty_heap [] with Some x => x | None => (empty_heap, []) end.
Definition exb_h : heap Z := fst exb.
Definition exb_vis : list nat := snd exb.
Definition exb_args : list nat := [9]%nat.
Definition exb_needed : list nat := [0; 1; 2; 3; 5; 6; 7; 8; 9]%nat.
Definition exb_srcs : list nat := [0; 1]%nat.
Definition exb_ev : env Z :=
  mkEnv (fun i => i) (fun l => rev l) (fun _ => rev (zrange 0 8)) (fun _ => 1) (fun _ => 0) (fun x => x) (fun i => (i, 7)) strict.
Definition exb_feed : list (fkey * feed_t Z) := [(FNode 0, FArr [(0, 0); (0, 0); (0, 0); (0, 1)])].
Definition exb_init : list (list Z * list (Cx Z)) :=
  [([0; 1], [(0, 0); (0, 0); (0, 0); (0, 1)]); ([2], [(0, 0); (1, 0)])].

Lemma exb_built : built exb_h exb_vis.
Proof. apply (program_built exb_calls empty_heap []); [constructor|vm_compute; reflexivity]. Qed.
Lemma exb_session : session exb_h exb_vis cache0 [].
Proof. apply (program_session exb_calls cache0 [] empty_heap []); [constructor|vm_compute; reflexivity]. Qed.
Lemma exb_incl : incl exb_args exb_vis.
Proof. intros i [<-|[]]; cbn; auto 12. Qed.
Lemma exb_splits : splits_in_range exb_h exb_vis.
Proof.
  intros i idx k Hi Hk Hin. cbn in Hi. repeat destruct Hi as [<-|Hi]; cbn in Hk; try discriminate; try (destruct Hi; fail);
    inversion Hk; subst; destruct Hin as [<-|[]]; cbn; lia.
Qed.
Lemma exb_anc : forall i, ancestor exb_h exb_args i <-> In i exb_needed.
Proof.
  apply anc_iff.
  - intros i [<-|[]]; cbn; auto 12.
  - intros i Hi. cbn in Hi. repeat destruct Hi as [<-|Hi]; try (destruct Hi; fail); intros j Hj; cbn in Hj |- *; intuition.
  - assert (A9 : ancestor exb_h exb_args 9) by (apply anc_arg; left; auto).
    assert (A8 : ancestor exb_h exb_args 8) by (apply (anc_input _ _ 9); cbn; auto).
    assert (A7 : ancestor exb_h exb_args 7) by (apply (anc_input _ _ 8); cbn; auto).
    assert (A6 : ancestor exb_h exb_args 6) by (apply (anc_input _ _ 9); cbn; auto).
    assert (A5 : ancestor exb_h exb_args 5) by (apply (anc_input _ _ 7); cbn; auto).
    assert (A3 : ancestor exb_h exb_args 3) by (apply (anc_input _ _ 6); cbn; auto).
    assert (A2 : ancestor exb_h exb_args 2) by (apply (anc_input _ _ 5); cbn; auto).
    assert (A1 : ancestor exb_h exb_args 1) by (apply (anc_input _ _ 5); cbn; auto).
    assert (A0 : ancestor exb_h exb_args 0) by (apply (anc_input _ _ 2); cbn; auto).
    unfold exb_needed. repeat (apply Forall_cons; [assumption|]). constructor.
Qed.
Lemma exb_sources : sources exb_h exb_args exb_srcs.
Proof. apply (sources_iff _ _ exb_needed); [exact exb_anc|repeat constructor|reflexivity]. Qed.
Lemma exb_ok : circuit_ok exb_h exb_args exb_srcs 3.
Proof.
  apply (circuit_ok_iff _ exb_vis _ exb_needed); [exact exb_built|exact exb_incl|exact exb_splits|exact exb_anc|exact exb_sources|].
  unfold exb_needed. repeat (apply Forall_cons; [vm_compute; try exact I; (split; [discriminate|split; [|auto]]);
    repeat (constructor; [cbn; intuition discriminate|]); constructor|]). constructor.
Qed.
Lemma exb_noswap : no_swap_dagger exb_h exb_vis.
Proof.
  intros i o Hi Hk. cbn in Hi. repeat destruct Hi as [<-|Hi]; cbn in Hk; try discriminate; try (destruct Hi; fail); inversion Hk; reflexivity.
Qed.
Lemma exb_env : enum_ok exb_ev /\ scheds_ok exb_ev exb_h 3.
Proof.
  split; [intros l; symmetry; apply Permutation_rev|]. intros i. cbn [exb_ev e_sched].
  do 10 (destruct i as [|i]; [cbn; auto; try (symmetry; apply (Permutation_rev (zrange 0 8)))|]).
  destruct i; cbn; auto.
Qed.
Lemma exb_initial : initial exb_h exb_srcs 3 exb_feed SNone exb_init.
Proof.
  assert (W0 : wires exb_h exb_srcs 0 [0; 1]) by (apply (wires_source exb_h exb_srcs [] 0 [1%nat]); reflexivity).
  assert (W1 : wires exb_h exb_srcs 1 [2]) by (apply (wires_source exb_h exb_srcs [0%nat] 1 []); reflexivity).
  constructor. split; [cbn; repeat constructor; cbn; tauto|]. split; [intros i [<-|[]]; cbn; auto|].
  exists [([0; 1], [(0, 0); (0, 0); (0, 0); (0, 1)])], [([2], [(0, 0); (1, 0)])]. split; [|split; [|split; [reflexivity|]]].
  - repeat constructor. cbn. exists [[0; 1]]. split; auto.
  - apply dr_skip; [left; left; auto|]. apply dr_use; [cbn; intuition discriminate|reflexivity|exact W1|constructor].
  - split; [split; [cbn; repeat constructor; cbn; intuition discriminate|cbn; intros q Hq; intuition; subst; lia]|].
    intros g a [E|[E|[]]]; inversion E; reflexivity.
Qed.
Lemma exb_gates : gates_exact exb_h exb_args.
Proof. intros i o d Hi Hk. apply exb_anc in Hi. cbn in Hi. repeat destruct Hi as [<-|Hi]; cbn in Hk; try discriminate; try (destruct Hi; fail); inversion Hk; reflexivity || exact I. Qed.
Lemma exb_draws : draws_ok exb_ev.
Proof.
  split; [intros i; split; reflexivity|]. split; [reflexivity|]. intros p H0 H1. 
  change ((p <=? 0) = false) in H0. change ((p <=? 1) = true) in H1. apply Z.leb_gt in H0. apply Z.leb_le in H1. assert (p = 1) as -> by lia. reflexivity.
Qed.
Lemma exb_total : forall g v, In (g, v) exb_init -> total v = 1.
Proof. intros g v [E|[E|[]]]; inversion E; reflexivity. Qed.

(** ** C70 *)
(** a circuit of exact gates, functions and measurements that starts from normalised registers always runs to the end
    when the draws lie in (0, 1]; the state it returns is normalised; and every measurement reports the outcome that its
    draw selects from the probabilities of the state the earlier nodes and outcomes lead to *)
Theorem C70_run : forall {K} {OK : OrdRing K} (h : heap K) vis c l args srcs,
  session h vis c l -> splits_in_range h vis -> no_swap_dagger h vis -> incl args vis ->
  (forall args', In args' l -> same_qubits h args args') -> sources h args srcs ->
  let n := widths h srcs in circuit_ok h args srcs n -> gates_exact h args ->
  forall ev feed strict state init, enum_ok ev -> scheds_ok ev h n -> draws_ok ev -> initial h srcs n feed state init ->
  (forall g v, In (g, v) init -> total v = 1%r) -> (strict = true -> incl srcs (fed_nodes feed)) ->
  exists c' st_ cm, run ev c h args feed strict state = (c', Ok (st_, cm)) /\ norm2 n st_ = 1%r /\
    forall l1 i m p l2, cm = l1 ++ (i, CMeas m p) :: l2 -> exists groups v, Forall2 (wires h srcs) (inputs_of h i) groups /\
      evolves (e_rsqrt ev) h srcs n l1 (amp (map (fed_amp n init) (zrange 0 (2 ^ n)))) v /\
      selected n (concat groups) v (e_rand ev i) m /\ p = marginal n (measured_order n (concat groups)) v m.
Proof. exact @run_born. Qed.
Print Assumptions C70_run.
(** every sequence of outcomes of non-zero probability is the result of some draws *)
Theorem C70_reachable : forall {K} {OK : OrdRing K} (h : heap K) vis c l args srcs,
  session h vis c l -> splits_in_range h vis -> no_swap_dagger h vis -> incl args vis ->
  (forall args', In args' l -> same_qubits h args args') -> sources h args srcs ->
  let n := widths h srcs in circuit_ok h args srcs n -> gates_exact h args ->
  forall ev feed strict state init, enum_ok ev -> scheds_ok ev h n -> draws_ok ev -> initial h srcs n feed state init ->
  (forall g v, In (g, v) init -> total v = 1%r) -> (strict = true -> incl srcs (fed_nodes feed)) ->
  forall cm v', evolves (e_rsqrt ev) h srcs n cm (amp (map (fed_amp n init) (zrange 0 (2 ^ n)))) v' ->
  StronglySorted lt (map fst cm) -> (forall i, In i (map fst cm) <-> ancestor h args i) ->
  exists u c' st_ cm', draws_ok (with_draws ev u) /\ run (with_draws ev u) c h args feed strict state = (c', Ok (st_, cm')) /\
    same_outcomes h cm cm'.
Proof. exact @run_reaches. Qed.
Print Assumptions C70_reachable.
Example C70_ex : session exb_h exb_vis cache0 [] /\ splits_in_range exb_h exb_vis /\ no_swap_dagger exb_h exb_vis /\
  incl exb_args exb_vis /\ sources exb_h exb_args exb_srcs /\ circuit_ok exb_h exb_args exb_srcs 3 /\ gates_exact exb_h exb_args /\
  enum_ok exb_ev /\ scheds_ok exb_ev exb_h 3 /\ draws_ok exb_ev /\ initial exb_h exb_srcs 3 exb_feed SNone exb_init /\
  (forall g v, In (g, v) exb_init -> total v = 1) /\
  snd (run exb_ev cache0 exb_h exb_args exb_feed false SNone)
  = Ok ([(0, 0); (0, 0); (0, 0); (-1, 0); (0, 0); (0, 0); (0, 0); (0, 0)],
        [(0%nat, CZero); (1%nat, CZero); (2%nat, CZero); (3%nat, CZero); (5%nat, CZero); (6%nat, CZero);
         (7%nat, CMeas 2 1); (8%nat, CZero); (9%nat, CMeas 3 1)]).
Proof.
  split; [exact exb_session|]. split; [exact exb_splits|]. split; [exact exb_noswap|]. split; [exact exb_incl|].
  split; [exact exb_sources|]. split; [exact exb_ok|]. split; [exact exb_gates|]. split; [apply exb_env|]. split; [apply exb_env|].
  split; [exact exb_draws|]. split; [exact exb_initial|]. split; [exact exb_total|]. vm_compute. reflexivity.
Qed.
