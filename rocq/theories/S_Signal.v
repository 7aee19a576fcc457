(** Specification of which qubits an operation can disturb. From the model only the types of ops, nodes and heaps are
    used. *)
From Verif Require Import Base S_Bits M_Kron M_Ops S_Ops M_Feed S_Feed S_Func S_Measure M_Graph S_Graph.

Section SignalSpec.
  Context {K : Type} {OK : OrdRing K}.
  Notation C := (Cx K).

  (** the qubits whose value an op on [groups] can change: not its controls, and none if the op only changes phases *)
  Fixpoint op_changes (o : op K) (groups : list (list Z)) : list Z :=
    match o with
    | OC o => op_changes o (tl groups)
    | OZ | OR _ => []
    | _ => concat groups
    end.
  (** ... a node that is not a measurement: F changes its second register *)
  Definition node_changes (k : kind K) (groups : list (list Z)) : list Z :=
    match k with
    | KMat o _ => op_changes o groups
    | KF _ => hd [] (tl groups)
    | _ => []
    end.
  (** node [i] does not measure and changes no qubit of [g] *)
  Definition leaves_alone (h : heap K) (srcs : list nat) (g : list Z) (i : nat) : Prop :=
    nd_kind (nd h i) <> KMeasure /\
    forall groups, Forall2 (wires h srcs) (inputs_of h i) groups ->
    forall q, In q g -> ~ In q (node_changes (nd_kind (nd h i)) groups).
  (** the qubits of a register exist *)
  Definition in_range (n : Z) (g : list Z) : Prop := forall q, In q g -> 0 <= q < n.
  (** probability that the register read out by measuring [i1] has value [m1] and that by measuring [i2] value [m2] *)
  Definition both (b : backend K) (i1 : list Z) (m1 : Z) (i2 : list Z) (m2 : Z) : K :=
    sum (zrange 0 (2 ^ bk_n b)) (fun x =>
      if (reg (bk_n b) (measured_order (bk_n b) i1) x =? m1) && (reg (bk_n b) (measured_order (bk_n b) i2) x =? m2)
      then cnorm2 (amp_at 0 (bk_state b) x) else 0%r).
End SignalSpec.
