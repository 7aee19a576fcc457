(** C105: examples/context_example.py. *)
From Verif Require Import Base M_Kron M_Ops M_Func M_Graph S_Graph L_Graph11 M_Context M_Examples M_CtxExample S_CtxExample L_CtxExample.

(** The program builds its circuit, leaves the context as it was, and running the three outputs on any eight amplitudes gives
    the Hadamard on a and then the Not of b controlled by a, both where c is 1, and the amplitudes themselves where c is 0. *)
Theorem C105_controlled_bell : forall {K} {OK : OrdRing K} (cn : consts K),
  exists w co ao bo, context_example cn = (w, Ok (co, ao, bo)) /\ w_stack w = [] /\ w_total w = 0 /\
    forall (v : list (Cx K)), zlen v = 8 -> forall ev, enum_ok ev -> scheds_ok ev (w_heap w) 3 ->
    exists c' st_ cm, run ev cache0 (w_heap w) [co; ao; bo] [] false (SList v) = (c', Ok (st_, cm)) /\ zlen st_ = 8 /\
      forall c a b, znth 0%r st_ (ket c a b) = controlled_bell (c_h cn) v c a b.
Proof. intros K OK. exact context_example_ok. Qed.
Print Assumptions C105_controlled_bell.

(** on eight different amplitudes, with 1 for the Hadamard factor: the upper half changes, the lower does not *)
Example C105_ex : exists w co ao bo, context_example (mkConsts (K := Z) 1 (fun _ _ => (1, 0))) = (w, Ok (co, ao, bo)) /\
  let v := map (fun x => (x, 0)) [3; 5; 7; 11; 13; 17; 19; 23] in
  let ev := env0 (w_heap w) 3 in
  exists c' cm, run ev cache0 (w_heap w) [co; ao; bo] [] false (SList v) = (c', Ok (map (fun x => (x, 0)) [3; 5; 7; 11; 32; 40; -6; -6], cm)).
Proof. do 4 eexists. split; [vm_compute; reflexivity|]. do 2 eexists. vm_compute. reflexivity. Qed.
