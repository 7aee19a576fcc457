(** Registers created with ids of the caller's choice: qip/qip.py:15-42, the argument qid of [Qubit]. *)
From Verif Require Import Base M_Kron M_Ops M_Feed M_Func M_Measure M_Graph.

Section Forced.
  Context {K : Type} {OK : OrdRing K}.
  (** qip/qip.py:15-42: [Qubit(n=n)] and [Qubit(n=n, qid=qid)], one after the other. A given id leaves the counter
      Qubit.QID as it is (:35-37). *)
  Fixpoint new_registers (h : heap K) (regs : list (Z * option Z)) : st (heap K) (list nat) :=
    match regs with
    | [] => (h, Ok [])
    | (n, qid) :: regs =>
        sbind (new_node h KQubit [] (Some n) qid false None) (fun h i =>
        sbind (new_registers h regs) (fun h l => (h, Ok (i :: l))))
    end.
End Forced.
