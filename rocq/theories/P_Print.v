(** Printing circuits: C62. *)
From Coq Require Import Ascii String Sorted.
From Verif Require Import Base M_Kron M_Ops M_Graph S_Graph L_Graph1 L_Graph2 L_Graph5 L_Graph7 L_Graph8 M_Print S_Print L_Print L_Print2 P_Graph.
Open Scope Z_scope.

(** [order] are the needed nodes in creation order, which is the order run executes them in (C28), and the qubits of an op
    are those run applies it to (C28, C29). print_circuit prints the pictures of the ops in that order. *)
Theorem C62_print : forall {K} (h : heap K) vis args srcs order name tail ev w s ops,
  built h vis -> incl args vis -> splits_in_range h vis -> sources h args srcs -> StronglySorted lt order -> (forall i, In i order <-> ancestor h args i) ->
  enum_ok ev -> (forall i, In i order -> label (nd_kind (nd h i)) (name i)) ->
  Forall2 (drawn_as h srcs name) (filter (is_op h) order) ops -> (forall op, In op ops -> NoDup (snd op)) ->
  print_circuit name tail ev h args w s = (concat (map (picture (widths h srcs) w s) (filter has_qubits ops)), Ok tt).
Proof. exact @print_ok. Qed.
Print Assumptions C62_print.
(** all lines are as long as the wires are wide *)
Theorem C62_aligned : forall n w s op x, 1 <= w -> 0 <= s -> 0 <= n -> In x (picture n w s op) -> zlen x = n * (2 * w + 1) + Z.max 0 (n - 1) * s.
Proof. exact (fun n w s op x Hw Hs => picture_lens n w s Hw Hs op x). Qed.
Print Assumptions C62_aligned.
(** the names of the ops and their qubits, in order, can be read from the picture *)
Theorem C62_readable : forall n w s l1 l2, 1 <= w -> (forall op, In op (l1 ++ l2) -> op_fits n op) ->
  concat (map (picture n w s) l1) = concat (map (picture n w s) l2) -> l1 = l2.
Proof. exact (fun n w s l1 l2 Hw => pictures_inj n w s Hw l1 l2). Qed.
Print Assumptions C62_readable.
(** the positions are decimal numbers *)
Theorem C62_decimal : forall n, 0 <= n -> number (str_int n) = n /\ forall c, In c (str_int n) -> 0 <= digit_value c < 10.
Proof. exact (fun n H => conj (str_int_value n H) (str_int_digits n H)). Qed.
Print Assumptions C62_decimal.

Definition exp_name (i : nat) : str := nth i [text "Q"; text "Q"; text "SplitQubit"; text "SplitQubit"; text "Not"; text "CNot"; text "R"; text "SM"] [].
Definition exp_ops : list (str * list Z) := [(text "CNot", [0; 2]); (text "R", [1]); (text "SM", [0; 2])].
Example C62_hypotheses : StronglySorted lt exg_needed /\ (forall i, In i exg_needed <-> ancestor exg_h exg_args i) /\
  (forall i, In i exg_needed -> label (nd_kind (nd exg_h i)) (exp_name i)) /\
  Forall2 (drawn_as exg_h exg_srcs exp_name) (filter (is_op exg_h) exg_needed) exp_ops /\ widths exg_h exg_srcs = 3 /\ forall op, In op exp_ops -> op_fits 3 op.
Proof.
  assert (W0 : wires exg_h exg_srcs 0 [0; 1]) by (apply (wires_source exg_h exg_srcs [] 0 [1%nat]); reflexivity).
  assert (W1 : wires exg_h exg_srcs 1 [2]) by (apply (wires_source exg_h exg_srcs [0%nat] 1 []); reflexivity).
  assert (W2 : wires exg_h exg_srcs 2 [0]).
  { apply (wires_split exg_h exg_srcs 2 [0] [[0; 1]]); [reflexivity|discriminate|repeat constructor; exact W0|repeat constructor; lia]. }
  assert (W3 : wires exg_h exg_srcs 3 [1]).
  { apply (wires_split exg_h exg_srcs 3 [1] [[0; 1]]); [reflexivity|discriminate|repeat constructor; exact W0|repeat constructor; lia]. }
  assert (W5 : wires exg_h exg_srcs 5 [0; 2]).
  { apply (wires_keep exg_h exg_srcs 5 [[0]; [2]]); [discriminate|discriminate|]. apply Forall2_cons; [exact W2|]. apply Forall2_cons; [exact W1|]. apply Forall2_nil. }
  split; [repeat constructor|]. split; [intros i; symmetry; apply exg_anc|]. split; [|split; [|split; [reflexivity|]]].
  - intros i Hi. cbn in Hi. repeat destruct Hi as [<-|Hi]; try (destruct Hi; fail); cbn; try constructor; try constructor. apply lb_not.
  - change (filter (is_op exg_h) exg_needed) with [5; 6; 7]%nat. apply Forall2_cons; [|apply Forall2_cons; [|apply Forall2_cons; [|apply Forall2_nil]]]; split; try reflexivity.
    + exists [[0]; [2]]. split; [|reflexivity]. apply Forall2_cons; [exact W2|]. apply Forall2_cons; [exact W1|]. apply Forall2_nil.
    + exists [[1]]. split; [|reflexivity]. apply Forall2_cons; [exact W3|]. apply Forall2_nil.
    + exists [[0; 2]]. split; [|reflexivity]. apply Forall2_cons; [exact W5|]. apply Forall2_nil.
  - intros op Hop. repeat destruct Hop as [<-|Hop]; try (destruct Hop; fail); cbn; (split; [discriminate|]); (split; [repeat constructor; cbn; intuition discriminate|intros q Hq; cbn in Hq; intuition; lia]).
Qed.
(** q = Qubit(n=2); p = Qubit(); a, b = q.split([1]); c = C(Not)(a, p); d = R(i)(b); s = StochasticMeasure(c) *)
Example C62_run : map string_of_list_ascii (fst (print_circuit exp_name (fun _ => text "...)") exg_ev exg_h exg_args 1 1)) =
  [" |   |   | ";
   "---  |  ---";
   "|C|  |  |C|";
   "|N|  |  |N|";
   "|o|  |  |o|";
   "|t|  |  |t|";
   "|0|  |  |1|";
   "---  |  ---";
   " |   |   | ";
   " |  ---  | ";
   " |  |R|  | ";
   " |  |0|  | ";
   " |  ---  | ";
   " |   |   | ";
   "---  |  ---";
   "|S|  |  |S|";
   "|M|  |  |M|";
   "|0|  |  |1|";
   "---  |  ---"]%string.
Proof. vm_compute. reflexivity. Qed.
(** cells of width 1 are too narrow: the picture of an op is wider than the wires *)
Example C62_narrow : map string_of_list_ascii (fst (print_circuit exp_name (fun _ => text "...)") exg_ev exg_h [6]%nat 0 1)) =
  ["| |"; "| -"; "| |R|"; "| |0|"; "| -"]%string.
Proof. vm_compute. reflexivity. Qed.
