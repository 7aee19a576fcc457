(** Property C90: printing a state. *)
From Coq Require Import Sorted.
From Verif Require Import Base M_Prints S_Prints L_Prints.

(** for every state and every division of its qubits into registers: one line for every basis state whose amplitude is not zero,
    with the values of the registers and the amplitude, in increasing order *)
Theorem C90_lines : forall K (OR : OrdRing K) (state : list (Cx K)) sizes,
  (forall k, In k sizes -> 0 <= k) -> zlen state = 2 ^ fold_right Z.add 0 sizes ->
  exists lines, gen_qubit_prints state sizes = Ok lines /\
    (forall xs a, In (xs, a) lines <-> values_ok sizes xs /\ a = znth 0%r state (position sizes xs) /\ a <> 0%r) /\
    StronglySorted Z.lt (map (fun l => position sizes (fst l)) lines).
Proof. exact (@prints_state). Qed.
Print Assumptions C90_lines.
(** registers of 1, 0 and 2 qubits *)
Example C90_ex : gen_qubit_prints [(0, 0); (0, 5); (0, 0); (2, 0); (0, 0); (0, 0); (3, 1); (0, 0)] [1; 0; 2]
  = Ok [([0; 0; 1], (0, 5)); ([0; 0; 3], (2, 0)); ([1; 0; 2], (3, 1))].
Proof. reflexivity. Qed.
