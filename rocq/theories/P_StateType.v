(** Property C104: the argument statetype of run. *)
From Coq Require Import Sorted.
From Verif Require Import Base S_Bits M_Kron M_Ops S_Ops M_Feed S_Feed M_Func S_Func M_Measure S_Measure M_Graph S_Graph
  L_Graph1 L_Graph2 L_Graph5 L_Graph7 L_Graph8 L_Graph9 L_Graph10 L_Graph11 L_Graph12 P_Graph.
From Verif Require Import M_StateType S_StateType L_StateType.

(** with complex128, the default, run is the function of C28 to C33 *)
Theorem C104_default : forall {K} {OK : OrdRing K} ev c (h : heap K) args feed strict state,
  run_t complex128 ev c h args feed strict state = run ev c h args feed strict state.
Proof. exact @run_t_default. Qed.
Print Assumptions C104_default.

(** the documented use fails: with every other type, every circuit with an op or a measurement raises ValueError, however it
    is fed; the failed run has no effect on later ones *)
Theorem C104_other_refuted : forall {K} {OK : OrdRing K} (h : heap K) vis c l args srcs,
  session h vis c l -> splits_in_range h vis -> no_swap_dagger h vis ->
  incl args vis -> (forall args', In args' l -> same_qubits h args args') -> sources h args srcs ->
  let n := widths h srcs in circuit_ok h args srcs n ->
  forall t ev feed strict state init, is_complex128 t = false -> enum_ok ev -> scheds_ok ev h n -> initial h srcs n feed state init ->
  (exists i, ancestor h args i /\ computes h i) ->
  exists c', run_t t ev c h args feed strict state = (c', Raise ValueError) /\
    forall ev' feed' strict' state', enum_ok ev' ->
      snd (run ev' c' h args feed' strict' state') = snd (run ev' c h args feed' strict' state').
Proof. exact @other_type_top. Qed.
Print Assumptions C104_other_refuted.

(** circuits without ops and measurements can be run with every type. The result is that of complex128 if the type keeps
    the amplitudes that are fed and their products. *)
Theorem C104_plain_partial : forall {K} {OK : OrdRing K} (h : heap K) vis c l args srcs,
  session h vis c l -> splits_in_range h vis -> no_swap_dagger h vis ->
  incl args vis -> (forall args', In args' l -> same_qubits h args args') -> sources h args srcs ->
  let n := widths h srcs in circuit_ok h args srcs n ->
  forall t ev feed strict state init, enum_ok ev -> scheds_ok ev h n -> initial h srcs n feed state init ->
  (forall i, ancestor h args i -> ~ computes h i) ->
  ((strict = true -> incl srcs (fed_nodes feed)) ->
     exists c' st_ cm, run_t t ev c h args feed strict state = (c', Ok (st_, cm)) /\ zlen st_ = 2 ^ n) /\
  (keeps (stored t) init -> run_t t ev c h args feed strict state = run ev c h args feed strict state).
Proof. exact @plain_type_top. Qed.
Print Assumptions C104_plain_partial.

(** ** Examples: the circuit of P_Graph, and its first split alone; a type with the numbers -1, 0, 1 as parts *)
Definition ext_type : statetype Z := mkType false (fun '(x, y) => (Z.sgn x, Z.sgn y)).
Definition ext_args : list nat := [2]%nat.
Definition ext_srcs : list nat := [0]%nat.
Definition ext_feed : list (fkey * feed_t Z) := [(FNode 0, FArr [(0, 0); (1, 0); (0, 0); (0, -1)])].
Definition ext_ev : env Z :=
  mkEnv (fun i => i) (fun l => l) (fun _ => zrange 0 4) (fun _ => 0) (fun _ => 0) (fun x => x) (fun i => (i, 7)) strict.
Definition ext_init : list (list Z * list (Cx Z)) := [([0; 1], [(0, 0); (1, 0); (0, 0); (0, -1)])].

Example C104_other_ex : session exg_h exg_vis cache0 [] /\ splits_in_range exg_h exg_vis /\ no_swap_dagger exg_h exg_vis /\
  incl exg_args exg_vis /\ sources exg_h exg_args exg_srcs /\ circuit_ok exg_h exg_args exg_srcs 3 /\
  enum_ok exg_ev /\ scheds_ok exg_ev exg_h 3 /\ initial exg_h exg_srcs 3 exg_feed SNone exg_init /\
  (ancestor exg_h exg_args 5 /\ computes exg_h 5) /\
  snd (run_t ext_type exg_ev cache0 exg_h exg_args exg_feed false SNone) = Raise ValueError /\
  snd (run_t complex128 exg_ev cache0 exg_h exg_args exg_feed false SNone) =
    Ok ([(0, 0); (0, 0); (0, 0); (0, 0); (1, 0); (0, 0); (2, 0); (0, 0)],
        [(0%nat, CZero); (1%nat, CZero); (2%nat, CZero); (3%nat, CZero); (5%nat, CZero); (6%nat, CZero);
         (7%nat, CProbs (inl [0; 5; 0; 0]))]).
Proof.
  split; [exact exg_session|]. split; [exact exg_splits|]. split; [exact exg_noswap|]. split; [exact exg_incl|].
  split; [exact exg_sources|]. split; [exact exg_ok|]. split; [apply exg_env|]. split; [apply exg_env|]. split; [exact exg_initial|].
  split; [split; [apply exg_anc; cbn; auto 12|exact I]|]. split; vm_compute; reflexivity.
Qed.

Lemma ext_anc : forall i, ancestor exg_h ext_args i <-> In i [0; 2]%nat.
Proof.
  apply anc_iff.
  - intros i [<-|[]]; cbn; auto.
  - intros i Hi. cbn in Hi. repeat destruct Hi as [<-|Hi]; try (destruct Hi; fail); intros j Hj; cbn in Hj |- *; intuition.
  - assert (A2 : ancestor exg_h ext_args 2) by (apply anc_arg; left; auto).
    assert (A0 : ancestor exg_h ext_args 0) by (apply (anc_input _ _ 2); cbn; auto).
    repeat (apply Forall_cons; [assumption|]). constructor.
Qed.
Lemma ext_sources : sources exg_h ext_args ext_srcs.
Proof. apply (sources_iff _ _ [0; 2]%nat); [exact ext_anc|repeat constructor|reflexivity]. Qed.
Example C104_plain_ex : incl ext_args exg_vis /\ sources exg_h ext_args ext_srcs /\ circuit_ok exg_h ext_args ext_srcs 2 /\
  initial exg_h ext_srcs 2 ext_feed SNone ext_init /\ (forall i, ancestor exg_h ext_args i -> ~ computes exg_h i) /\
  keeps (stored ext_type) ext_init /\ enum_ok ext_ev /\ scheds_ok ext_ev exg_h 2 /\
  snd (run_t ext_type ext_ev cache0 exg_h ext_args ext_feed false SNone) =
    Ok ([(0, 0); (1, 0); (0, 0); (0, -1)], [(0%nat, CZero); (2%nat, CZero)]) /\
  snd (run_t ext_type ext_ev cache0 exg_h ext_args [(FNode 0, FArr [(0, 0); (0, 0); (1, 0); (0, 2)])] false SNone) =
    Ok ([(0, 0); (0, 0); (1, 0); (0, 1)], [(0%nat, CZero); (2%nat, CZero)]).
Proof.
  assert (I1 : incl ext_args exg_vis) by (intros i [<-|[]]; cbn; auto 12).
  assert (W0 : wires exg_h ext_srcs 0 [0; 1]) by (apply (wires_source exg_h ext_srcs [] 0 []); reflexivity).
  split; [exact I1|]. split; [exact ext_sources|]. split.
  { apply (circuit_ok_iff _ exg_vis _ [0; 2]%nat); [exact exg_built|exact I1|exact exg_splits|exact ext_anc|exact ext_sources|].
    repeat (apply Forall_cons; [vm_compute; try exact I|]). constructor. }
  split.
  { constructor. split; [cbn; repeat constructor; cbn; tauto|]. split; [intros i [<-|[]]; cbn; auto|].
    exists ext_init, []. split; [|split; [|split; [reflexivity|]]].
    - repeat constructor. cbn. exists [[0; 1]]. split; auto.
    - apply dr_skip; [left; left; auto|]. constructor.
    - split; [split; [cbn; repeat constructor; cbn; intuition discriminate|cbn; intros q Hq; intuition; subst; lia]|].
      intros g a [E|[]]; inversion E; reflexivity. }
  split.
  { intros i Hi. apply ext_anc in Hi. cbn in Hi. repeat destruct Hi as [<-|Hi]; try (destruct Hi; fail); intros []. }
  split.
  { exists (fun x => In x [(0, 0); (1, 0); (0, 1); (-1, 0); (0, -1)]). split; [|split; [|split; [|split]]].
    - intros x Hx. cbn in Hx. repeat destruct Hx as [<-|Hx]; try reflexivity. destruct Hx.
    - left. reflexivity.
    - right; left. reflexivity.
    - intros x y Hx Hy. cbn in Hx, Hy. repeat destruct Hx as [<-|Hx]; try (destruct Hx; fail);
        repeat destruct Hy as [<-|Hy]; try (destruct Hy; fail); vm_compute; auto 6.
    - intros g l x [E|[]] Hx. inversion E; subst. cbn in Hx. repeat destruct Hx as [<-|Hx]; cbn; auto 6. }
  split.
  { intros l. apply Permutation_refl. }
  split.
  { intros i. cbn [ext_ev e_sched]. do 8 (destruct i as [|i]; [cbn; auto; apply Permutation_refl|]). destruct i; cbn; auto. }
  split; vm_compute; reflexivity.
Qed.
