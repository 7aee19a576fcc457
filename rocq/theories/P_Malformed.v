(** Property C87: feeds that do not fit the circuit. *)
From Coq Require Import Sorted.
From Verif Require Import Base S_Bits M_Kron M_Ops S_Ops M_Feed S_Feed M_Func S_Func M_Measure S_Measure M_Graph S_Graph
  L_Graph1 L_Graph2 L_Graph5 L_Graph7 L_Graph8 L_Graph9 L_Graph10 L_Graph11 L_Graph12 S_Malformed L_Malformed1 L_Malformed2.

(** ** Data for the examples
    q = Qubit(n=2); p = Qubit(default=numpy.array([0, 1, 7])); r = Not(p); the circuit [q, r] *)
Definition exm_calls : list (call Z) :=
  [NewQubit (Some 2) None; NewQubit None (Some (DArray [(0, 0); (1, 0); (7, 0)])); Gate GNot [1]%nat false].
Definition exm : heap Z * list nat :=
  Eval vm_compute in match program exm_calls empty_heap [] with Some x => x | None => (empty_heap, []) end.
Definition exm_h : heap Z := fst exm.
Definition exm_vis : list nat := snd exm.
Definition exm_args : list nat := [0; 2]%nat.
Definition exm_needed : list nat := [0; 1; 2]%nat.
Definition exm_srcs : list nat := [0; 1]%nat.
Definition exm_ev : env Z :=
  mkEnv (fun i => i) (fun l => rev l) (fun _ => rev (zrange 0 8)) (fun _ => 0) (fun _ => 0) (fun x => x) (fun i => (i, 7)) strict.
Lemma exm_built : built exm_h exm_vis.
Proof. apply (program_built exm_calls empty_heap []); [constructor|vm_compute; reflexivity]. Qed.
Lemma exm_incl : incl exm_args exm_vis.
Proof. intros i [<-|[<-|[]]]; cbn; auto 12. Qed.
Lemma exm_splits : splits_in_range exm_h exm_vis.
Proof. intros i idx k Hi Hk Hin. cbn in Hi. repeat destruct Hi as [<-|Hi]; cbn in Hk; try discriminate; destruct Hi. Qed.
Lemma exm_anc : forall i, ancestor exm_h exm_args i <-> In i exm_needed.
Proof.
  apply anc_iff.
  - intros i [<-|[<-|[]]]; cbn; auto 12.
  - intros i Hi. cbn in Hi. repeat destruct Hi as [<-|Hi]; try (destruct Hi; fail); intros j Hj; cbn in Hj |- *; intuition.
  - assert (A0 : ancestor exm_h exm_args 0) by (apply anc_arg; left; auto).
    assert (A2 : ancestor exm_h exm_args 2) by (apply anc_arg; right; left; auto).
    assert (A1 : ancestor exm_h exm_args 1) by (apply (anc_input _ _ 2); cbn; auto).
    unfold exm_needed. repeat (apply Forall_cons; [assumption|]). constructor.
Qed.
Lemma exm_sources : sources exm_h exm_args exm_srcs.
Proof. apply (sources_iff _ _ exm_needed); [exact exm_anc|repeat constructor|reflexivity]. Qed.
Lemma exm_enum : enum_ok exm_ev.
Proof. intros l. cbn. symmetry. apply Permutation_rev. Qed.
Lemma exm_wire0 : wires exm_h exm_srcs 0%nat [0; 1].
Proof. exact (wires_source exm_h exm_srcs [] 0%nat [1%nat] eq_refl). Qed.
Lemma exm_wire1 : wires exm_h exm_srcs 1%nat [2].
Proof. exact (wires_source exm_h exm_srcs [0%nat] 1%nat [] eq_refl). Qed.
(** too short a list for q; the default of p is longer than needed *)
Definition exm_short : list (fkey * feed_t Z) := [(FNode 0, FArr [(1, 0); (0, 0); (0, 0)])].
Definition exm_short_init : list (list Z * list (Cx Z)) := [([0; 1], [(1, 0); (0, 0); (0, 0)]); ([2], [(0, 0); (1, 0); (7, 0)])].
Lemma exm_short_sets : sets exm_h exm_srcs exm_short exm_short_init.
Proof.
  split; [cbn; repeat constructor; cbn; tauto|]. split; [intros x [<-|[]]; left; auto|].
  exists [([0; 1], [(1, 0); (0, 0); (0, 0)])], [([2], [(0, 0); (1, 0); (7, 0)])]. split; [|split; [|reflexivity]].
  - constructor; [|constructor]. split; [reflexivity|]. exists [[0; 1]]. split; [constructor; [exact exm_wire0|constructor]|reflexivity].
  - apply dr_skip; [left; left; reflexivity|]. apply dr_use; [intros [X|[]]; discriminate|reflexivity|exact exm_wire1|constructor].
Qed.
(** too long a list for q *)
Definition exm_long : list (fkey * feed_t Z) := [(FNode 0, FArr [(0, 0); (0, 3); (0, 0); (0, 0); (5, 0)])].
Definition exm_long_init : list (list Z * list (Cx Z)) :=
  [([0; 1], [(0, 0); (0, 3); (0, 0); (0, 0); (5, 0)]); ([2], [(0, 0); (1, 0); (7, 0)])].
Lemma exm_long_sets : sets exm_h exm_srcs exm_long exm_long_init.
Proof.
  split; [cbn; repeat constructor; cbn; tauto|]. split; [intros x [<-|[]]; left; auto|].
  exists [([0; 1], [(0, 0); (0, 3); (0, 0); (0, 0); (5, 0)])], [([2], [(0, 0); (1, 0); (7, 0)])]. split; [|split; [|reflexivity]].
  - constructor; [|constructor]. split; [reflexivity|]. exists [[0; 1]]. split; [constructor; [exact exm_wire0|constructor]|reflexivity].
  - apply dr_skip; [left; left; reflexivity|]. apply dr_use; [intros [X|[]]; discriminate|reflexivity|exact exm_wire1|constructor].
Qed.
(** q is fed twice, together with p and alone *)
Definition exm_twice : list (fkey * feed_t Z) :=
  [(FTuple [0; 1]%nat, FArr [(1, 0); (0, 0); (0, 0); (0, 0); (0, 0); (0, 0); (0, 2); (3, 0)]); (FNode 0, FArr [(1, 0); (0, 0); (0, 1); (0, 0)])].
Definition exm_twice_init : list (list Z * list (Cx Z)) :=
  [([0; 1; 2], [(1, 0); (0, 0); (0, 0); (0, 0); (0, 0); (0, 0); (0, 2); (3, 0)]); ([0; 1], [(1, 0); (0, 0); (0, 1); (0, 0)])].
Lemma exm_twice_sets : sets exm_h exm_srcs exm_twice exm_twice_init.
Proof.
  split; [cbn; repeat constructor; cbn; intuition discriminate|].
  split; [intros x Hx; cbn in Hx |- *; intuition|]. exists exm_twice_init, []. split; [|split; [|reflexivity]].
  - constructor; [|constructor; [|constructor]].
    + split; [reflexivity|]. exists [[0; 1]; [2]]. split; [|reflexivity].
      constructor; [exact exm_wire0|constructor; [exact exm_wire1|constructor]].
    + split; [reflexivity|]. exists [[0; 1]]. split; [constructor; [exact exm_wire0|constructor]|reflexivity].
  - apply dr_skip; [left; left; reflexivity|]. apply dr_skip; [left; right; left; reflexivity|constructor].
Qed.
(** the same with the first register in state 0 *)
Definition exm_zero : list (fkey * feed_t Z) :=
  [(FTuple [0; 1]%nat, FArr [(1, 0); (0, 0); (0, 0); (0, 0); (0, 0); (0, 0); (0, 0); (0, 0)]); (FNode 0, FArr [(1, 0); (0, 0); (0, 0); (0, 0)])].
Definition exm_zero_init : list (list Z * list (Cx Z)) :=
  [([0; 1; 2], [(1, 0); (0, 0); (0, 0); (0, 0); (0, 0); (0, 0); (0, 0); (0, 0)]); ([0; 1], [(1, 0); (0, 0); (0, 0); (0, 0)])].
Lemma exm_zero_sets : sets exm_h exm_srcs exm_zero exm_zero_init.
Proof.
  split; [cbn; repeat constructor; cbn; intuition discriminate|].
  split; [intros x Hx; cbn in Hx |- *; intuition|]. exists exm_zero_init, []. split; [|split; [|reflexivity]].
  - constructor; [|constructor; [|constructor]].
    + split; [reflexivity|]. exists [[0; 1]; [2]]. split; [|reflexivity].
      constructor; [exact exm_wire0|constructor; [exact exm_wire1|constructor]].
    + split; [reflexivity|]. exists [[0; 1]]. split; [constructor; [exact exm_wire0|constructor]|reflexivity].
  - apply dr_skip; [left; left; reflexivity|]. apply dr_skip; [left; right; left; reflexivity|constructor].
Qed.

(** ** C87 *)
(** a list that is too short for its qubits, fed or given as default, raises IndexError, whatever the others are *)
Theorem C87_short_partial : forall {K} {OK : OrdRing K} (h : heap K) vis args srcs,
  built h vis -> incl args vis -> splits_in_range h vis -> sources h args srcs ->
  forall ev c feed strict init, enum_ok ev -> sets h srcs feed init -> (strict = true -> incl srcs (fed_nodes feed)) ->
  too_short init -> run ev c h args feed strict SNone = (c, Raise IndexError).
Proof. exact @feed_short. Qed.
Print Assumptions C87_short_partial.
Example C87_short_ex : built exm_h exm_vis /\ incl exm_args exm_vis /\ splits_in_range exm_h exm_vis /\ sources exm_h exm_args exm_srcs /\
  enum_ok exm_ev /\ sets exm_h exm_srcs exm_short exm_short_init /\ too_short exm_short_init /\
  run exm_ev cache0 exm_h exm_args exm_short false SNone = (cache0, Raise IndexError).
Proof.
  split; [exact exm_built|]. split; [exact exm_incl|]. split; [exact exm_splits|]. split; [exact exm_sources|].
  split; [exact exm_enum|]. split; [exact exm_short_sets|]. split; [|reflexivity].
  exists [0; 1], [(1, 0); (0, 0); (0, 0)]. split; [left; reflexivity|vm_compute; reflexivity].
Qed.

(** lists that are too long are accepted: run does the same as with the product of the amplitudes that are used *)
Theorem C87_long_refuted : forall {K} {OK : OrdRing K} (h : heap K) vis args srcs,
  built h vis -> incl args vis -> splits_in_range h vis -> sources h args srcs ->
  forall ev c feed strict init, enum_ok ev -> sets h srcs feed init -> (strict = true -> incl srcs (fed_nodes feed)) ->
  NoDup (concat (map fst init)) -> (forall g a, In (g, a) init -> 2 ^ zlen g <= zlen a) -> let n := widths h srcs in
  run ev c h args feed strict SNone = run ev c h args [] false (SList (map (fed_amp n init) (zrange 0 (2 ^ n)))).
Proof. exact @feed_long. Qed.
Print Assumptions C87_long_refuted.
Example C87_long_ex : sets exm_h exm_srcs exm_long exm_long_init /\ NoDup (concat (map fst exm_long_init)) /\
  (forall g a, In (g, a) exm_long_init -> 2 ^ zlen g < zlen a) /\
  snd (run exm_ev cache0 exm_h exm_args exm_long false SNone)
  = Ok ([(0, 0); (0, 0); (0, 3); (0, 0); (0, 0); (0, 0); (0, 0); (0, 0)], [(0%nat, CZero); (1%nat, CZero); (2%nat, CZero)]).
Proof.
  split; [exact exm_long_sets|]. split; [cbn; repeat constructor; cbn; intuition discriminate|]. split; [|reflexivity].
  intros g a [E|[E|[]]]; injection E as <- <-; vm_compute; reflexivity.
Qed.

(** qubits that are fed twice are accepted: for the earlier register they count as 1 *)
Theorem C87_twice_refuted : forall {K} {OK : OrdRing K} (h : heap K) vis args srcs,
  built h vis -> incl args vis -> splits_in_range h vis -> sources h args srcs ->
  forall ev c feed strict init, enum_ok ev -> sets h srcs feed init -> (strict = true -> incl srcs (fed_nodes feed)) ->
  ~ too_short init -> let n := widths h srcs in
  run ev c h args feed strict SNone = run ev c h args [] false (SList (map (loose_amp n init) (zrange 0 (2 ^ n)))).
Proof. exact @feed_twice. Qed.
Print Assumptions C87_twice_refuted.
(** in particular there are no non-zero amplitudes left when the earlier register is fed its state 0 *)
Theorem C87_zero_refuted : forall {K} {OK : OrdRing K} (h : heap K) vis args srcs,
  built h vis -> incl args vis -> splits_in_range h vis -> sources h args srcs ->
  forall ev c feed strict init l1 g a l2 q, enum_ok ev -> sets h srcs feed init -> (strict = true -> incl srcs (fed_nodes feed)) ->
  ~ too_short init -> init = l1 ++ (g, a) :: l2 -> In q g -> In q (concat (map fst l2)) -> (forall i, 0 < i -> znth 0%r a i = 0%r) ->
  run ev c h args feed strict SNone = run ev c h args [] false (SList (map (fun _ => 0%r) (zrange 0 (2 ^ widths h srcs)))).
Proof. exact @feed_zero. Qed.
Print Assumptions C87_zero_refuted.
Example C87_twice_ex : sets exm_h exm_srcs exm_twice exm_twice_init /\ ~ too_short exm_twice_init /\
  snd (run exm_ev cache0 exm_h exm_args exm_twice false SNone)
  = Ok ([(3, 0); (0, 2); (0, 0); (0, 0); (0, 3); (-2, 0); (0, 0); (0, 0)], [(0%nat, CZero); (1%nat, CZero); (2%nat, CZero)]) /\
  sets exm_h exm_srcs exm_zero exm_zero_init /\ ~ too_short exm_zero_init /\
  snd (run exm_ev cache0 exm_h exm_args exm_zero false SNone)
  = Ok ([(0, 0); (0, 0); (0, 0); (0, 0); (0, 0); (0, 0); (0, 0); (0, 0)], [(0%nat, CZero); (1%nat, CZero); (2%nat, CZero)]).
Proof.
  split; [exact exm_twice_sets|]. split; [intros (g & a & [E|[E|[]]] & H); injection E as <- <-; vm_compute in H; discriminate|]. split; [reflexivity|].
  split; [exact exm_zero_sets|]. split; [intros (g & a & [E|[E|[]]] & H); injection E as <- <-; vm_compute in H; discriminate|reflexivity].
Qed.

(** a qubit that is fed both alone and as a group of one is accepted: the amplitudes given first are dropped *)
Theorem C87_same_key_refuted : forall {K} {OK : OrdRing K} ev c (h : heap K) args f1 f2 f3 k1 k2 a b strict state,
  key_nodes k1 = key_nodes k2 -> ~ In (key_nodes k1) (map (fun kv => key_nodes (fst kv)) f2) ->
  run ev c h args (f1 ++ (k1, a) :: f2 ++ (k2, b) :: f3) strict state = run ev c h args (f1 ++ (k1, b) :: f2 ++ f3) strict state.
Proof. exact @same_key. Qed.
Print Assumptions C87_same_key_refuted.
Example C87_same_key_ex : key_nodes (FNode 1) = key_nodes (FTuple [1]%nat) /\
  snd (run exm_ev cache0 exm_h exm_args [(FNode 1, FArr [(7, 0); (5, 0)]); (FNode 0, FArr [(0, 0); (0, 3); (0, 0); (0, 0)]); (FTuple [1]%nat, FArr [(0, 0); (2, 0)])] true SNone)
  = snd (run exm_ev cache0 exm_h exm_args [(FNode 0, FArr [(0, 0); (0, 3); (0, 0); (0, 0)]); (FNode 1, FArr [(0, 0); (2, 0)])] true SNone) /\
  exists x, snd (run exm_ev cache0 exm_h exm_args [(FNode 0, FArr [(0, 0); (0, 3); (0, 0); (0, 0)]); (FNode 1, FArr [(0, 0); (2, 0)])] true SNone) = Ok x.
Proof. split; [reflexivity|]. split; [vm_compute; reflexivity|]. eexists. vm_compute. reflexivity. Qed.

(** a default given as list must have one amplitude per basis state *)
Theorem C87_default_list : forall {K} (h : heap K) n (l : list (Cx K)), zlen l <> 2 ^ n ->
  exec h (NewQubit (Some n) (Some (DList l))) = (h, Raise ValueError).
Proof. exact @default_list. Qed.
Print Assumptions C87_default_list.
(** a default given as numpy array is not checked *)
Theorem C87_default_array_refuted : forall {K} {OK : OrdRing K} (h : heap K) n (l : list (Cx K)), 0 < n -> exists h',
  exec h (NewQubit (Some n) (Some (DArray l))) = (h', Ok [size h]) /\ width h' (size h) = n /\ default_amps h' (size h) = Some l.
Proof. exact @default_array. Qed.
Print Assumptions C87_default_array_refuted.
Example C87_default_ex : zlen [(0, 0); (1, 0); (7, 0)] <> 2 ^ 1 /\
  snd (exec (empty_heap : heap Z) (NewQubit (Some 1) (Some (DList [(0, 0); (1, 0); (7, 0)])))) = Raise ValueError /\
  snd (exec (empty_heap : heap Z) (NewQubit (Some 1) (Some (DArray [(0, 0); (1, 0); (7, 0)])))) = Ok [0%nat].
Proof. split; [discriminate|]. split; reflexivity. Qed.
