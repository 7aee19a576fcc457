(** Whole runs with the rounding of floating point arithmetic: the initial state is computed from the feed, then the nodes of
    the circuit act on it one after the other. The parts are those of M_Float and M_FloatMeasure; applying a function moves
    amplitudes without computing with them, so its exact model (M_Func) is used. *)
From Coq Require Import Reals.
From Verif Require Import Base BaseR M_Bits M_Kron M_Feed M_Func M_Float M_FloatMeasure.
Local Open Scope Z_scope.

Section FloatRun.
  Variables u w : R.
  Notation C := (Cx R).

  (** qip/backend.py:99-101: state[i] = state[i] * feed_list[qindex][flip] for all (qindex, flip); numpy multiplies complex
      numbers part by part *)
  Inductive ffactors (feed_list : list (feed_t R)) : list (Z * Z) -> C -> C -> Prop :=
  | ff_nil p : ffactors feed_list [] p p
  | ff_next qindex flip l p f a p' x : pyget feed_list qindex = Ok f -> feed_get f flip = Ok a -> fmul u w p a p' ->
      ffactors feed_list l p' x -> ffactors feed_list ((qindex, flip) :: l) p x.
  (** qip/backend.py:94-101: the loop over the indices; all are in range, as the whole state is made *)
  Inductive fedits (feed_list : list (feed_t R)) : list (Z * list Z) -> list C -> list C -> Prop :=
  | fe_nil state : fedits feed_list [] state state
  | fe_next index flips l state x state' out : ffactors feed_list (enumerate flips) 1%r x -> pyset state index x = Ok state' ->
      fedits feed_list l state' out -> fedits feed_list ((index, flips) :: l) state out.
  (** qip/backend.py:74-101 [make_state] of the whole state *)
  Definition fmake_state (n : Z) (index_groups : list (list Z)) (feed_list : list (feed_t R)) (state : list C) : Prop :=
    exists state0 edits,
      (let zeros := map (fun _ => 0%r) (zrange 0 (2 ^ n)) in if zlen feed_list =? 0 then pyset zeros 0 1%r else Ok zeros) = Ok state0 /\
      gen_edit_indices index_groups (n - 1) = Ok edits /\ fedits feed_list edits state0 state.

  (** what the nodes do: apply matrices (operators.py), a function (operators.py FOp), measure (qip.py:134-158) and report
      probabilities (qip.py:160-185). With them go the draw of a measurement and, for a function, the order of the parallel loop
      and what is found in memory outside of arrays (M_Func). *)
  Inductive fop :=
  | FGate (mats : mats_arg R)
  | FFunc (m : machine) (sched : list Z) (reg1 reg2 : list Z) (func : Z -> res Z)
  | FMeasure (rand : R) (indices : list Z)
  | FProbs (indices : list Z).
  Inductive fresult := RNone | RMeasured (m : Z) (p : R) | RProbs (ps : list R).
  Inductive fstep (n : Z) : fop -> list C -> fresult -> list C -> Prop :=
  | fst_gate mats v W : fkron u w mats v n (2 ^ n) 0 0 W -> fstep n (FGate mats) v RNone W
  | fst_func m sched reg1 reg2 func v arena b : zlen arena = 2 ^ n ->
      bk_func_apply m sched (mkBackend n v arena) reg1 reg2 func n 0 = Ok b -> fstep n (FFunc m sched reg1 reg2 func) v RNone (bk_state b)
  | fst_measure rand indices v m p W : fmeasure u w rand indices n v (m, p) W -> fstep n (FMeasure rand indices) v (RMeasured m p) W
  | fst_probs indices v ps : fprobs u w indices n v ps -> fstep n (FProbs indices) v (RProbs ps) v.
  (** qip/pipeline.py:186-222: the nodes in the order in which they are run *)
  Inductive frun (n : Z) : list fop -> list C -> list fresult -> list C -> Prop :=
  | fr_nil v : frun n [] v [] v
  | fr_next o ops v r W rs V : fstep n o v r W -> frun n ops W rs V -> frun n (o :: ops) v (r :: rs) V.
End FloatRun.
