(** Property C107: registers created with ids of the caller's choice. *)
From Coq Require Import Sorted.
From Verif Require Import Base S_Bits M_Kron M_Ops M_Feed S_Feed M_Func M_Measure M_Graph S_Graph.
From Verif Require Import M_Forced S_Forced L_Forced.

(** ** Data for the examples: a = Qubit(n=1, qid=1); b = Qubit(n=2); c = Qubit(n=1). The counter gives b the id 0 and
    c the id 1, which a has already. *)
Definition ex107 : list (Z * option Z) := [(1, Some 1); (2, None); (1, None)].
Definition ex107_h : heap Z := Eval vm_compute in fst (new_registers empty_heap ex107).
Definition ex107_ev (e : list nat -> list nat) : env Z :=
  mkEnv (fun i => i) e (fun _ => []) (fun _ => 0) (fun _ => 0) (fun x => x) (fun i => (i, 7)) strict.
Definition ex107_fs : list (nat * list (Cx Z)) :=
  [(0%nat, [(1, 0); (0, 0)]); (1%nat, [(1, 0); (0, 0); (0, 0); (0, 0)]); (2%nat, [(0, 0); (0, 1)])].
Definition ex107_run (e : list nat -> list nat) :=
  run (ex107_ev e) cache0 ex107_h [0; 1; 2]%nat (map (fun f => (FNode (fst f), FArr (snd f))) ex107_fs) true SNone.
Example C107_run :
  (exists anns, ex107_run (fun l => l) =
     (cache0, Ok ([(0, 0); (0, 1); (0, 0); (0, 0); (0, 0); (0, 0); (0, 0); (0, 0); (0, 0); (0, 0); (0, 0); (0, 0); (0, 0); (0, 0); (0, 0); (0, 0)], anns))) /\
  (exists anns, ex107_run (@rev nat) =
     (cache0, Ok ([(0, 0); (0, 0); (0, 1); (0, 0); (0, 0); (0, 0); (0, 0); (0, 0); (0, 0); (0, 0); (0, 0); (0, 0); (0, 0); (0, 0); (0, 0); (0, 0)], anns))).
Proof. split; eexists; vm_compute; reflexivity. Qed.

(** C107 is false of the code: the state a run returns is not determined by the program. *)
Theorem C107_refuted :
  ~ (forall regs (h : heap Z) l, new_registers empty_heap regs = (h, Ok l) ->
       forall pick e e' sched rand acc0 rsqrt junk mach (c : cache Z) fs strict,
         (forall l, Permutation (e l) l) -> (forall l, Permutation (e' l) l) ->
         Permutation (map fst fs) l -> (forall i v, In (i, v) fs -> zlen v = 2 ^ width h i) ->
         let result e := snd (run (mkEnv pick e sched rand acc0 rsqrt junk mach) c h l
                                (map (fun f => (FNode (fst f), FArr (snd f))) fs) strict SNone) in
         forall st anns st' anns', result e = Ok (st, anns) -> result e' = Ok (st', anns') -> st = st').
Proof.
  intros H. destruct C107_run as [(a1 & E1) (a2 & E2)].
  assert (E0 : new_registers empty_heap ex107 = (ex107_h, Ok [0; 1; 2]%nat)) by (vm_compute; reflexivity).
  assert (Hv : forall i v, In (i, v) ex107_fs -> zlen v = 2 ^ width ex107_h i)
    by (intros i v [Hi|[Hi|[Hi|[]]]]; inversion Hi; reflexivity).
  assert (Hk : Permutation (map fst ex107_fs) [0; 1; 2]%nat) by apply Permutation_refl.
  unfold ex107_run, ex107_ev in E1, E2. apply (f_equal snd) in E1, E2. cbn [snd] in E1, E2.
  pose proof (H ex107 ex107_h _ E0 _ _ _ _ _ _ _ _ _ _ _ _ (fun l => Permutation_refl l) (fun l => Permutation_sym (Permutation_rev l))
    Hk Hv _ _ _ _ E1 E2) as Hst.
  discriminate Hst.
Qed.
Print Assumptions C107_refuted.

(** What holds for every choice of ids: the registers get their widths and ids, and a run lays the registers out side by
    side by increasing id, those that are not fed in state 0; registers with equal ids may come in any order. With strict a
    register that is not fed is an error. *)
Theorem C107_order_partial : forall {K} {OK : OrdRing K} regs, (forall r, In r regs -> 0 < fst r) ->
  exists h : heap K, new_registers empty_heap regs = (h, Ok (seq 0 (length regs))) /\
    (forall i, (i < length regs)%nat -> width h i = reg_width regs i /\ qid_of h i = reg_id regs i) /\
    forall ev (c : cache K) args fs strict, enum_ok ev -> NoDup args -> (forall i, In i args -> (i < length regs)%nat) ->
      NoDup (map fst fs) -> incl (map fst fs) args -> (forall i v, In (i, v) fs -> zlen v = 2 ^ reg_width regs i) ->
      exists order anns, by_id regs args order /\
        run ev c h args (map (fun f => (FNode (fst f), FArr (snd f))) fs) strict SNone
        = (c, if strict && negb (forallb (fun q => mem q (map fst fs)) args) then Raise ValueError else Ok (map (fed_amp (all_width (reg_width regs) order) (side_by_side (reg_width regs) order fs))
                    (zrange 0 (2 ^ all_width (reg_width regs) order)), anns)).
Proof. exact @run_registers. Qed.
Print Assumptions C107_order_partial.

(** With distinct ids the state is determined: it is the one of the only order by increasing id. *)
Theorem C107_distinct_partial : forall {K} {OK : OrdRing K} regs (h : heap K) l,
  new_registers empty_heap regs = (h, Ok l) -> (forall r, In r regs -> 0 < fst r) ->
  forall ev (c : cache K) args fs strict order, enum_ok ev -> NoDup args -> (forall i, In i args -> (i < length regs)%nat) ->
    (forall i j, In i args -> In j args -> reg_id regs i = reg_id regs j -> i = j) -> by_id regs args order ->
    NoDup (map fst fs) -> incl (map fst fs) args -> (forall i v, In (i, v) fs -> zlen v = 2 ^ reg_width regs i) ->
    exists anns, run ev c h args (map (fun f => (FNode (fst f), FArr (snd f))) fs) strict SNone
      = (c, if strict && negb (forallb (fun q => mem q (map fst fs)) args) then Raise ValueError else Ok (map (fed_amp (all_width (reg_width regs) order) (side_by_side (reg_width regs) order fs))
                  (zrange 0 (2 ^ all_width (reg_width regs) order)), anns)).
Proof. exact @run_distinct. Qed.
Print Assumptions C107_distinct_partial.

(** The test against using a register twice compares ids only: a second [Qubit(q, qid=k)] is accepted when k is the
    id of the first, and refused for every other id. *)
Theorem C107_clone_refuted : forall {K} (h : heap K) i q,
  (i < size h)%nat -> 0 < width h i -> nd_sink (nd h i) = [] ->
  exists h1, new_node h KQubit [i] None (Some q) false None = (h1, Ok (size h)) /\
    forall q', exists h2, new_node h1 KQubit [i] None (Some q') false None
      = (h2, if q =? q' then Ok (S (size h)) else Raise GenericException) /\
      (q = q' -> nd_sink (nd h2 i) = [size h; S (size h)] /\ inputs_of h2 (size h) = [i] /\ inputs_of h2 (S (size h)) = [i]).
Proof. exact @clone. Qed.
Print Assumptions C107_clone_refuted.

(** Ids given against the order of creation: a = Qubit(n=1, qid=5); b = Qubit(n=2); c = Qubit(n=1, qid=-3) *)
Definition ex107b : list (Z * option Z) := [(1, Some 5); (2, None); (1, Some (-3))].
Definition ex107b_h : heap Z := Eval vm_compute in fst (new_registers empty_heap ex107b).
Example C107_ex : (exists l, new_registers empty_heap ex107b = (ex107b_h, Ok l)) /\
  ids 0 ex107b = [5; 0; -3] /\ by_id ex107b [0; 1; 2]%nat [2; 1; 0]%nat /\ ids 0 ex107 = [1; 0; 1] /\
  by_id ex107 [0; 1; 2]%nat [1; 0; 2]%nat /\ by_id ex107 [0; 1; 2]%nat [1; 2; 0]%nat /\
  side_by_side (reg_width ex107b) [2; 1; 0]%nat [(0%nat, tt); (1%nat, tt); (2%nat, tt)] = [([3], tt); ([1; 2], tt); ([0], tt)] /\
  (exists anns, run (ex107_ev (@rev nat)) cache0 ex107b_h [0; 1; 2]%nat (map (fun f => (FNode (fst f), FArr (snd f))) ex107_fs) true SNone
     = (cache0, Ok (map (fun x => if x =? 8 then (0, 1) else (0, 0)) (zrange 0 16), anns))) /\
  (0 < size ex107b_h)%nat /\ 0 < width ex107b_h 0 /\ nd_sink (nd ex107b_h 0) = [].
Proof.
  assert (P : forall a b c : nat, Permutation [c; b; a] [a; b; c]) by (intros a b c; exact (Permutation_sym (Permutation_rev [a; b; c]))).
  split; [eexists; vm_compute; reflexivity|].
  split; [reflexivity|]. split.
  { split; [apply P|]. repeat constructor; cbn; lia. }
  split; [reflexivity|]. split.
  { split; [apply perm_swap|]. repeat constructor; cbn; lia. }
  split.
  { split; [|repeat constructor; cbn; lia]. eapply Permutation_trans; [apply perm_skip, perm_swap|]. apply perm_swap. }
  split; [reflexivity|]. split; [eexists; vm_compute; reflexivity|]. vm_compute. auto.
Qed.
