(** Model of the programs in examples/. They build circuits with the API of M_Context and run them. *)
From Verif Require Import Base M_Bits M_Kron M_Ops M_Feed M_Func M_Measure M_Graph M_Context.

Section Examples.
  Context {K : Type} {OK : OrdRing K}.
  Notation C := (Cx K).

  (** the library when the program starts *)
  Definition start : world K := mkWorld empty_heap [] 0 [].
  (** Qubit(n=k, default=d) *)
  Definition new_qubit (w : world K) (k : Z) (d : option (default_t K)) : st (world K) nat :=
    on_heap w (new_node (w_heap w) KQubit [] (Some k) None false d).
  (** a, b, c = ... *)
  Definition three_outputs (x : st (world K) (list nat)) : st (world K) (nat * nat * nat) :=
    sbind x (fun w l => match l with [a; b; c] => (w, Ok (a, b, c)) | _ => (w, Raise ValueError) end).
  Definition H_ : ctor := Wrap BH no_kw.

  (** examples/cswap_measure.py:5-11, with registers of [k] qubits (3 in the file): q1, q2, q3 and m1. The picture
      (:14) is C63. *)
  Definition swap_test (cn : consts K) (k : Z) : st (world K) (nat * nat * nat * nat) :=
    sbind (new_qubit start 1 None) (fun w q1 =>
    sbind (new_qubit w k None) (fun w q2 =>
    sbind (new_qubit w k None) (fun w q3 =>
    sbind (one_output (call_op cn w H_ [AQ q1] no_kw)) (fun w h1 =>
    sbind (three_outputs (call_op cn w (C_ctor (Wrap BSwap no_kw)) [AQ h1; AQ q2; AQ q3] no_kw)) (fun w '(c1, c2, c3) =>
    sbind (one_output (call_op cn w H_ [AQ c1] no_kw)) (fun w m1 => (w, Ok (q1, q2, q3, m1)))))))).
  (** examples/cswap_measure.py:23: m1.run(feed={q1: [1.0, 0.0], q2: state2, q3: state3}) *)
  Definition swap_test_run (ev : env K) (h : heap K) (q1 q2 q3 m1 : nat) (state2 state3 : list C)
    : st (cache K) (list C * list (nat * cval K)) :=
    run ev cache0 h [m1] [(FNode q1, FArr [1%r; 0%r]); (FNode q2, FArr state2); (FNode q3, FArr state3)] false SNone.

  (** ** examples/grovers_iterative.py, with the search register of [k] qubits (10 in the file) and the marked item [x]
      (42 in the file) *)
  (** :20-21 [Uw]; the lambda is total *)
  Definition Uw (cn : consts K) (w : world K) (search ancillary : nat) (x0 : Z) : st (world K) (nat * nat) :=
    two_outputs (call_op cn w (Wrap BF no_kw) [AFun (fun x => Ok (if (x =? x0) then 1 else 0)); AQ search; AQ ancillary] no_kw).
  (** :24-26 [Us] *)
  Definition Us (cn : consts K) (w : world K) (search ancillary : nat) : st (world K) (nat * nat) :=
    sbind (one_output (call_op cn w H_ [AQ search] no_kw)) (fun w hs =>
    sbind (Uw cn w hs ancillary 0) (fun w '(f_s, f_anc) =>
    sbind (one_output (call_op cn w H_ [AQ f_s] no_kw)) (fun w o => (w, Ok (o, f_anc))))).
  (** :34-39: sm_ds and sm_da. [u] stands for 1 / numpy.sqrt(2 ** n) and [a] for 1 / numpy.sqrt(2). The picture (:42)
      is C63. *)
  Definition grover (cn : consts K) (k x : Z) (u a : K) : st (world K) (nat * nat) :=
    sbind (new_qubit start k (Some (DArray (map (fun _ => creal u) (zrange 0 (2 ^ k)))))) (fun w q =>
    sbind (new_qubit w 1 (Some (DList [creal a; (- creal a)%r]))) (fun w anc =>
    sbind (Uw cn w q anc x) (fun w '(oracle_search, oracle_anc) =>
    sbind (Us cn w oracle_search oracle_anc) (fun w '(diff_search, diff_anc) =>
    sbind (on_heap w (new_measure (w_heap w) (KStoch 0) [diff_search])) (fun w sm_ds =>
    sbind (on_heap w (new_measure (w_heap w) (KStoch 0) [diff_anc])) (fun w sm_da => (w, Ok (sm_ds, sm_da)))))))).
  (** :44-51: the first run and [j] iterations of the loop; [evs i] is the environment of run i, and [pass] is what is given
      as state=: the array itself in the file. Plotting is left out. *)
  Fixpoint grover_runs (pass : list C -> state_kw K) (evs : nat -> env K) (h : heap K) (sm_ds sm_da : nat) (j : nat)
    : st (cache K) (list C * list (nat * cval K)) :=
    match j with
    | O => run (evs O) cache0 h [sm_ds; sm_da] [] false SNone
    | S j' => sbind (grover_runs pass evs h sm_ds sm_da j') (fun c '(state, _) =>
                run (evs j) c h [sm_ds; sm_da] [] false (pass state))
    end.
  (** numpy.argmax: the first position of the greatest entry; an empty array raises *)
  Fixpoint argmax_from (i : Z) (best : Z * K) (l : list K) : Z :=
    match l with
    | [] => fst best
    | y :: l => argmax_from (i + 1) (if rleb y (snd best) then best else (i, y)) l
    end.
  Definition argmax (l : list K) : res Z := match l with [] => Raise ValueError | y :: l => Ok (argmax_from 1 (0, y) l) end.
  (** :53: print(numpy.argmax(c[sm_ds])) *)
  Fixpoint lookup (i : nat) (cm : list (nat * cval K)) : res (cval K) :=
    match cm with [] => Raise KeyError | (j, cv) :: cm => if (i =? j)%nat then Ok cv else lookup i cm end.
  Definition grover_print (cm : list (nat * cval K)) (sm_ds : nat) : res Z :=
    do cv <- lookup sm_ds cm; match cv with CProbs (inl ps) => argmax ps | _ => Raise TypeError end.
End Examples.
