(** Model of the circuit of examples/shors.py and of measuring a peak with it. *)
From Verif Require Import Base M_Bits M_Kron M_Ops M_Feed M_Func M_Measure M_Graph M_Context M_Examples.

(** pow(x, i, N) for i >= 0 *)
Definition modpow (x N i : Z) : res Z := if (N =? 0) then Raise ValueError else Ok ((x ^ i) mod N).

Section ShorCircuit.
  Context {K : Type} {OK : OrdRing K}.
  Notation C := (Cx K).

  (** the library when the program starts; function 0 is QFFT of qip/qfft.py:8-9, which has no wrappers *)
  Definition start_qfft : world K := mkWorld empty_heap [] 0 [[]].
  (** a, b = q.split() *)
  Definition split_two (w : world K) (q : nat) : st (world K) (nat * nat) :=
    two_outputs (on_heap w (split (w_heap w) q None)).
  (** examples/shors.py:102-124 [make_circuit]: mqft and m. [u] stands for pow((2 ** m), -1.0 / 2.0). The world is the one
      the program starts with; the program makes further circuits in the same world, beside this one. *)
  Definition make_circuit (cn : consts K) (m n x N : Z) (u : K) : st (world K) (nat * nat) :=
    sbind (new_qubit start_qfft m (Some (DArray (map (fun _ => creal u) (zrange 0 (2 ^ m)))))) (fun w reg1 =>
    sbind (new_qubit w n None) (fun w reg2 =>
    sbind (two_outputs (call_op cn w (Wrap BF no_kw) [AFun (modpow x N); AQ reg1; AQ reg2] no_kw)) (fun w '(ufreg1, ufreg2) =>
    sbind (one_output (QFFT cn w 0 true [ufreg1])) (fun w qft =>
    sbind (on_heap w (new_node (w_heap w) KQubit [qft; ufreg2] None None false None)) (fun w both =>
    sbind (split_two w both) (fun w '(out1, out2) =>
    sbind (on_heap w (new_measure (w_heap w) (KStoch 0) [out1])) (fun w mqft =>
    sbind (on_heap w (new_measure (w_heap w) KMeasure [qft])) (fun w m => (w, Ok (mqft, m)))))))))).
  (** examples/shors.py:55-56: o, c = run(m); peak = c[m][0] *)
  Definition measure_peak (ev : env K) (h : heap K) (m : nat) : res Z :=
    match run ev cache0 h [m] [] false SNone with
    | (_, Raise e) => Raise e
    | (_, Ok (o, c)) => do cv <- lookup m c; match cv with CMeas peak _ => Ok peak | _ => Raise TypeError end
    end.
End ShorCircuit.
