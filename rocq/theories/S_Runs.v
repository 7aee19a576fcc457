(** Specification of runs by several threads at the same time. *)
From Coq Require Import Sorted.
From Verif Require Import Base M_Kron M_Ops M_Feed M_Graph S_Graph M_Runs.

Section RunsSpec.
  Context {K : Type} {OK : OrdRing K}.
  Notation C := (Cx K).

  (** two runs may meet: an op that both need either has been run before ([c i] is not None), or is not a dagger op and has the same
      input qubits in both *)
  Definition may_meet (h : heap K) (c : cache K) (args args' : list nat) : Prop := forall srcs srcs' i o dagger gs gs',
    sources h args srcs -> sources h args' srcs' -> ancestor h args i -> ancestor h args' i -> nd_kind (nd h i) = KMat o dagger ->
    Forall2 (wires h srcs) (inputs_of h i) gs -> Forall2 (wires h srcs') (inputs_of h i) gs' ->
    c i = None -> dagger = false /\ gs = gs'.

  (** what a run returns when it has the program to itself *)
  Definition alone (h : heap K) (c : cache K) (j : job K) : res (list C * list (nat * cval K)) :=
    snd (run (j_env j) c h (j_args j) (j_feed j) (j_strict j) (j_state j)).
  (** thread [t] has ended with [r] *)
  Definition ended {A} (s : runs K A) (t : nat) (r : A) : Prop := nth_error (r_threads s) t = Some (PRet r).
  (** the thread makes all its turns with no other thread in between *)
  Fixpoint uninterrupted {A} (p : prog K A) (c : cache K) : cache K * A :=
    match p with
    | PRet a => (c, a)
    | PRead i k => uninterrupted (k (c i)) c
    | PWrite i ms k => uninterrupted k (cache_set c i ms)
    end.
End RunsSpec.
