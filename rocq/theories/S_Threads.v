(** Specification of objects that are created by several threads. *)
From Verif Require Import Base M_Kron M_Ops M_Feed M_Graph M_Threads.

Section ThreadsSpec.
  Context {K : Type} {OK : OrdRing K}.

  (** no thread is in a constructor *)
  Definition idle (s : sys K) : Prop := forall t, In t (sy_threads s) -> th_now t = None.
  (** never more than one thread is in a constructor, for example because the threads hold a lock *)
  Inductive serial : sys K -> list nat -> Prop :=
  | serial_end s : serial s []
  | serial_turn s i sched : (forall j t, j <> i -> nth_error (sy_threads s) j = Some t -> th_now t = None) ->
      serial (turn s i) sched -> serial s (i :: sched).
  (** thread i makes its next construction while no other thread does anything (the single threaded constructor of M_Graph) *)
  Definition constructs (s : sys K) (i : nat) : sys K :=
    match nth_error (sy_threads s) i with
    | Some (mkThread None (f :: todo) results) =>
        let c := f results in
        let '(h, r) := new_node (sy_heap s) (ct_kind c) (ct_inputs c) (ct_n c) (ct_qid c) false (ct_default c) in
        mkSys h (upd (sy_threads s) i (mkThread None todo (results ++ [r])))
    | _ => s
    end.
  (** the constructions one after the other *)
  Definition in_turn (s : sys K) (who : list nat) : sys K := fold_left constructs who s.

  (** everything about an object except its sinks *)
  Definition same_object (x y : node K) : Prop :=
    nd_kind x = nd_kind y /\ nd_inputs x = nd_inputs y /\ nd_n x = nd_n y /\ nd_qid x = nd_qid y /\ nd_default x = nd_default y.
  (** the objects stay, and only get more sinks *)
  Definition grows (h h' : heap K) : Prop := (size h <= size h')%nat /\
    forall i, (i < size h)%nat -> same_object (nd h' i) (nd h i) /\ exists l, nd_sink (nd h' i) = nd_sink (nd h i) ++ l.
  (** x is the object that was asked for, and its inputs know it *)
  Definition made (h : heap K) (c : ctor K) (x : nat) : Prop :=
    (x < size h)%nat /\ nd_kind (nd h x) = ct_kind c /\ nd_inputs (nd h x) = ct_inputs c /\
    nd_n (nd h x) = match ct_n c with Some n => n | None => match ct_inputs c with [] => 1 | l => fold_right Z.add 0 (map (fun i => nd_n (nd h i)) l) end end /\
    nd_default (nd h x) = ct_default c /\ (forall q, ct_qid c = Some q -> nd_qid (nd h x) = q) /\
    forall i, In i (ct_inputs c) -> (i < size h)%nat /\ In x (nd_sink (nd h i)).
  (** the threads pass objects that exist when they start, and objects they made themselves *)
  Definition knows (h : heap K) (t : thread K) : Prop :=
    forall f results i, In f (th_todo t) -> In i (ct_inputs (f results)) -> (i < size h)%nat \/ In (Ok i) results.
  (** how a program of threads begins *)
  Definition fresh (s : sys K) : Prop :=
    idle s /\ forall t, In t (sy_threads s) -> th_done t = [] /\ knows (sy_heap s) t.

  (** all objects have ids that Qubit.QID has passed *)
  Definition ids_below (h : heap K) : Prop := forall i, (i < size h)%nat -> nd_qid (nd h i) < h_qid h.
  (** Qubit() and Qubit(q) *)
  Definition new_qubit : ctor K := mkCtor KQubit [] None None None.
  Definition new_identity (q : nat) : ctor K := mkCtor KQubit [q] None None None.
  Definition makes (l : list (ctor K)) : thread K := mkThread None (map (fun c _ => c) l) [].
End ThreadsSpec.
