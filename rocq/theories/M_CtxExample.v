(** Model of examples/context_example.py: C applied to a user's function. *)
From Verif Require Import Base M_Bits M_Kron M_Ops M_Feed M_Func M_Measure M_Graph M_Context M_Examples.

Section CtxExample.
  Context {K : Type} {OK : OrdRing K}.

  (** examples/context_example.py:8-11, the body of [basic_circuit]. [u] stands for its keyword arguments: it has none.
      Called with other than two qubits Python raises TypeError. *)
  Definition basic_circuit (cn : consts K) (u : unit) (w : world K) (l : list nat) : st (world K) (list nat) :=
    match l with
    | [qa; qb] =>
        sbind (one_output (call_op cn w H_ [AQ qa] no_kw)) (fun w h =>
        call_op cn w (C_ctor (Wrap BNot no_kw)) [AQ h; AQ qb] no_kw)
    | _ => (w, Raise TypeError)
    end.
  (** :7 [@QubitFuncWrapper.wrap]: the function object 0, which nobody has wrapped *)
  Definition ctx_start : world K := mkWorld empty_heap [] 0 [[]].
  (** :13-21, without the unused C(C(Not)) of :18 and the drawing of :23 *)
  Definition context_example (cn : consts K) : st (world K) (nat * nat * nat) :=
    sbind (new_qubit ctx_start 1 None) (fun w c =>
    sbind (new_qubit w 1 None) (fun w a =>
    sbind (new_qubit w 1 None) (fun w b =>
    match apply_C w (VFun 0) with
    | (w, VFun f) => three_outputs (call_func w f (basic_circuit cn) tt [c; a; b])
    | (w, VOp _) => (w, Raise TypeError)
    end))).
End CtxExample.
