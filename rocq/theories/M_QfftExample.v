(** Model of examples/qfft_example.py. *)
From Verif Require Import Base M_Bits M_Kron M_Ops M_Feed M_Func M_Measure M_Graph M_Context M_Examples M_ShorCircuit.

Section QfftExample.
  Context {K : Type} {OK : OrdRing K}.
  Notation C := (Cx K).

  (** examples/qfft_example.py:9-12: q, mq and mqft. Function 0 of the world is QFFT. *)
  Definition qfft_example_circuit (cn : consts K) (n : Z) : st (world K) (nat * nat * nat) :=
    sbind (new_qubit start_qfft n None) (fun w q =>
    sbind (on_heap w (new_measure (w_heap w) (KStoch 0) [q])) (fun w mq =>
    sbind (one_output (QFFT cn w 0 true [mq])) (fun w qft =>
    sbind (on_heap w (new_measure (w_heap w) (KStoch 0) [qft])) (fun w mqft => (w, Ok (q, mq, mqft)))))).
  (** c[i] of a StochasticMeasure without top_k *)
  Definition probs_of (i : nat) (c : list (nat * cval K)) : res (list K) :=
    do cv <- lookup i c; match cv with CProbs (inl ps) => Ok ps | _ => Raise TypeError end.
  (** examples/qfft_example.py:23-34: the run, and what is printed and plotted, c[mq] and c[mqft]. [state] stands for the array
      of lines 16-22; drawing the circuit (line 14) is left out, it changes no object. *)
  Definition qfft_example_run (ev : env K) (h : heap K) (q mq mqft : nat) (state : list C) : res (list K * list K) :=
    match run ev cache0 h [mqft] [(FNode q, FArr state)] false SNone with
    | (_, Raise e) => Raise e
    | (_, Ok (o, c)) => do ps <- probs_of mq c; do qs <- probs_of mqft c; Ok (ps, qs)
    end.
End QfftExample.
