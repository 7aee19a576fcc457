(** C98: objects created by several threads. *)
From Verif Require Import Base M_Kron M_Ops M_Feed M_Func M_Graph M_Threads S_Graph S_Threads L_Threads1 L_Threads2 L_Threads3.

(** whatever the schedule: existing objects stay as they are and only get more sinks, and every construction that returns gives an
    object of its own, with the class, inputs, width, default and (if given) id that were asked for, and known to its inputs *)
Theorem C98_objects : forall {K} {OK : OrdRing K} (s : sys K) sched, fresh s ->
  let e := turns s sched in
  grows (sy_heap s) (sy_heap e) /\
  (forall i t0 t k x, nth_error (sy_threads s) i = Some t0 -> nth_error (sy_threads e) i = Some t -> nth_error (th_done t) k = Some (Ok x) ->
     (size (sy_heap s) <= x)%nat /\ exists f, nth_error (th_todo t0) k = Some f /\ made (sy_heap e) (f (firstn k (th_done t))) x) /\
  (forall i t k i' t' k' x, nth_error (sy_threads e) i = Some t -> nth_error (sy_threads e) i' = Some t' ->
     nth_error (th_done t) k = Some (Ok x) -> nth_error (th_done t') k' = Some (Ok x) -> i = i' /\ k = k').
Proof. intros K OK s sched H. exact (threads_objects s sched H). Qed.
Print Assumptions C98_objects.

(** a thread that makes q = Qubit() and then Qubit(q), beside one that makes q = Qubit() and then Not(q) *)
Definition ext_todo (k : kind Z) : list (list (res nat) -> ctor Z) :=
  [fun _ => new_qubit; fun l => mkCtor k match l with [Ok q] => [q] | _ => [0%nat] end None None None].
Definition ext_s : sys Z := mkSys (mkHeap [mkNode KQubit [] 3 0 None []] 1) [mkThread None (ext_todo KQubit) []; mkThread None (ext_todo (KMat ONot false)) []].
Example C98_fresh : fresh ext_s.
Proof.
  assert (H : forall k, knows (sy_heap ext_s) (mkThread None (ext_todo k) [])).
  { intros k f results i Hf Hi. cbn in Hf. destruct Hf as [<-|[<-|[]]]; cbn in Hi; [destruct Hi|].
    destruct results as [|[q|e] [|r l]]; cbn in Hi; destruct Hi as [<-|[]]; cbn; auto. }
  split; [intros t [<-|[<-|[]]]; reflexivity|]. intros t [<-|[<-|[]]]; split; auto; apply H.
Qed.
(** in lock step, the first two objects have the same id *)
Example C98_example : let e := turns ext_s (concat (repeat [0; 1]%nat 14)) in
  idle e /\ map th_done (sy_threads e) = [[Ok 1; Ok 3]; [Ok 2; Ok 4]]%nat /\ map nd_qid (h_nodes (sy_heap e)) = [0; 1; 1; 2; 2] /\ map nd_n (h_nodes (sy_heap e)) = [3; 1; 1; 1; 1] /\
  map nd_sink (h_nodes (sy_heap e)) = [[]; [3]; [4]; []; []]%nat.
Proof. cbv zeta. split; [intros t Ht; vm_compute in Ht; destruct Ht as [<-|[<-|[]]]; reflexivity|]. vm_compute. auto. Qed.

(** if never two threads are in a constructor, the constructions have the effect of one after the other, and no id is given out twice.
    Not true if they overlap, see the refutations below. *)
Theorem C98_serial_partial : forall {K} {OK : OrdRing K} (s : sys K) sched, idle s -> serial s sched -> idle (turns s sched) ->
  (exists who, turns s sched = in_turn s who) /\
  (ids_below (sy_heap s) -> (forall t f results, In t (sy_threads s) -> In f (th_todo t) -> ct_qid (f results) = None) ->
   forall i j, (i < j < size (sy_heap (turns s sched)))%nat -> (size (sy_heap s) <= j)%nat ->
     nd_qid (nd (sy_heap (turns s sched)) i) <> nd_qid (nd (sy_heap (turns s sched)) j)).
Proof. intros K OK s sched Hi Hs He. exact (serial_all s sched Hi Hs He). Qed.
Print Assumptions C98_serial_partial.

Fixpoint serial_check {K} (s : sys K) (sched : list nat) : bool :=
  match sched with
  | [] => true
  | i :: sched => forallb (fun j => Nat.eqb j i || match nth_error (sy_threads s) j with Some t => match th_now t with None => true | _ => false end | None => true end)%bool
      (seq 0 (length (sy_threads s))) && serial_check (turn s i) sched
  end.
Lemma serial_checked {K} sched : forall s : sys K, serial_check s sched = true -> serial s sched.
Proof.
  induction sched as [|i sched IH]; intros s H; [constructor|]. cbn in H. apply andb_prop in H. destruct H as [H1 H2]. constructor; auto.
  intros j t Hj Et. rewrite forallb_forall in H1. assert (Hl : (j < length (sy_threads s))%nat) by (apply nth_error_Some; congruence).
  specialize (H1 j ltac:(apply in_seq; lia)). apply Nat.eqb_neq in Hj. rewrite Hj, Et in H1. cbn in H1. destruct (th_now t); [discriminate|reflexivity].
Qed.
Definition ext_sched : list nat := repeat 0%nat 6 ++ repeat 1%nat 14 ++ repeat 0%nat 8.
Example C98_serial_ex : idle ext_s /\ serial ext_s ext_sched /\ idle (turns ext_s ext_sched) /\ ids_below (sy_heap ext_s) /\
  (forall t f results, In t (sy_threads ext_s) -> In f (th_todo t) -> ct_qid (f results) = None) /\
  turns ext_s ext_sched = in_turn ext_s [0; 1; 1; 0]%nat /\ map th_done (sy_threads (turns ext_s ext_sched)) = [[Ok 1; Ok 4]; [Ok 2; Ok 3]]%nat /\
  map nd_qid (h_nodes (sy_heap (turns ext_s ext_sched))) = [0; 1; 2; 3; 4].
Proof.
  split; [intros t [<-|[<-|[]]]; reflexivity|]. split; [apply serial_checked; vm_compute; reflexivity|]. split; [intros t Ht; vm_compute in Ht; destruct Ht as [<-|[<-|[]]]; reflexivity|].
  split; [intros [|i] Hi; [reflexivity|cbn in Hi; lia]|]. split; [intros t f results [<-|[<-|[]]] [<-|[<-|[]]]; reflexivity|].
  split; [vm_compute; reflexivity|]. vm_compute. auto.
Qed.

(** Qubit() in two threads: wherever the program stands, there is a schedule in which both get the same id *)
Theorem C98_ids_refuted : forall {K} {OK : OrdRing K} (h : heap K), exists sched, let e := turns (mkSys h [makes [new_qubit]; makes [new_qubit]]) sched in
  idle e /\ exists a b, a <> b /\ map th_done (sy_threads e) = [[Ok a]; [Ok b]] /\ nd_qid (nd (sy_heap e) a) = nd_qid (nd (sy_heap e) b).
Proof. intros K OK h. exact (same_ids h). Qed.
Print Assumptions C98_ids_refuted.

(** a thread may even give two of its own qubits the same id, because another thread creates one *)
Theorem C98_own_ids_refuted : forall {K} {OK : OrdRing K} (h : heap K), exists sched, let e := turns (mkSys h [makes [new_qubit; new_qubit; new_qubit]; makes [new_qubit]]) sched in
  idle e /\ exists a b c d, b <> c /\ map th_done (sy_threads e) = [[Ok a; Ok b; Ok c]; [Ok d]] /\ nd_qid (nd (sy_heap e) b) = nd_qid (nd (sy_heap e) c).
Proof. intros K OK h. exact (own_ids h). Qed.
Print Assumptions C98_own_ids_refuted.

(** Qubit(q) in two threads: one after the other only one of the two can succeed, but there is a schedule in which both do *)
Theorem C98_cloning_refuted : forall {K} {OK : OrdRing K} (h : heap K) q, (q < size h)%nat -> 0 < nd_n (nd h q) -> nd_sink (nd h q) = [] ->
  let s := mkSys h [makes [new_identity q]; makes [new_identity q]] in
  (exists sched, let e := turns s sched in
     idle e /\ exists a b, a <> b /\ map th_done (sy_threads e) = [[Ok a]; [Ok b]] /\ nd_sink (nd (sy_heap e) q) = [a; b] /\ nd_qid (nd (sy_heap e) a) <> nd_qid (nd (sy_heap e) b)) /\
  (forall sched a b, serial s sched -> idle (turns s sched) -> map th_done (sy_threads (turns s sched)) <> [[Ok a]; [Ok b]]).
Proof.
  intros K OK h q Hq Hn Hs s. split; [exact (cloned q h Hq Hn Hs)|]. intros sched a b Hser He.
  assert (Hi : idle s) by (intros t [<-|[<-|[]]]; reflexivity).
  destruct (serial_ok sched s s Hi (or_introl eq_refl) Hser He) as (who & ->). exact (not_cloned q h who a b Hq Hn Hs).
Qed.
Print Assumptions C98_cloning_refuted.
Example C98_cloning_ex : let h := sy_heap ext_s in (0 < size h)%nat /\ 0 < nd_n (nd h 0) /\ nd_sink (nd h 0) = [] /\
  serial (mkSys h [makes [new_identity 0]; makes [new_identity 0]]) (repeat 0%nat 8 ++ repeat 1%nat 8) /\
  map th_done (sy_threads (turns (mkSys h [makes [new_identity 0]; makes [new_identity 0]]) (repeat 0%nat 8 ++ repeat 1%nat 8))) = [[Ok 1%nat]; [Raise GenericException]].
Proof. cbv zeta. split; [cbn; lia|]. split; [reflexivity|]. split; [reflexivity|]. split; [apply serial_checked; vm_compute; reflexivity|vm_compute; reflexivity]. Qed.

(** after such a race the state that run returns depends on the order in which a set is enumerated: a, b = Qubit(), Qubit() in two threads,
    run(a, b, feed={a: [0, 1]}) gives |10> or |01> *)
Definition ext_ev (enum : list nat -> list nat) : env Z :=
  mkEnv (fun i => i) enum (fun _ => []) (fun _ => 0) (fun _ => 0) (fun _ => 1) (fun _ => (0, 0)) strict.
Theorem C98_run_refuted : exists sched, let e := turns (mkSys (@empty_heap Z) [makes [new_qubit]; makes [new_qubit]]) sched in
  idle e /\ map th_done (sy_threads e) = [[Ok 0%nat]; [Ok 1%nat]] /\
  enum_ok (ext_ev (fun l => l)) /\ enum_ok (ext_ev (@rev nat)) /\
  (exists cm, snd (run (ext_ev (fun l => l)) cache0 (sy_heap e) [0; 1]%nat [(FNode 0, FArr [(0, 0); (1, 0)])] false SNone) = Ok ([(0, 0); (1, 0); (0, 0); (0, 0)], cm)) /\
  (exists cm, snd (run (ext_ev (@rev nat)) cache0 (sy_heap e) [0; 1]%nat [(FNode 0, FArr [(0, 0); (1, 0)])] false SNone) = Ok ([(0, 0); (0, 0); (1, 0); (0, 0)], cm)).
Proof.
  exists (concat (repeat [0; 1]%nat 6)). cbv zeta. split; [intros t Ht; vm_compute in Ht; destruct Ht as [<-|[<-|[]]]; reflexivity|]. split; [vm_compute; reflexivity|].
  split; [intros l; apply Permutation_refl|]. split; [intros l; apply Permutation_sym, Permutation_rev|]. split; eexists; vm_compute; reflexivity.
Qed.
Print Assumptions C98_run_refuted.
