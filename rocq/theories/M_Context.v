(** Model of qip/qubit_util.py (QubitWrapperContext, QubitOpWrapper, QubitFuncWrapper), of C of qip/operators.py and of
    qip/qfft.py. Circuits are built in the heap of M_Graph. *)
From Verif Require Import Base M_Bits M_Kron M_Ops M_Feed M_Func M_Measure M_Graph.

(** list.insert(i, x): negative positions count from the end, positions outside the list are clamped *)
Definition py_insert {A} (l : list A) (i : Z) (x : A) : list A :=
  let k := Z.to_nat (if i <? 0 then i + zlen l else i) in
  firstn k l ++ x :: skipn k l.
(** list.pop(i): the element and the remaining list, or IndexError *)
Definition py_pop {A} (l : list A) (i : Z) : res (A * list A) :=
  let i := if i <? 0 then i + zlen l else i in
  if (0 <=? i) && (i <? zlen l) then
    let k := Z.to_nat i in
    match skipn k l with x :: r => Ok (x, firstn k l ++ r) | [] => Raise IndexError end
  else Raise IndexError.
(** [l.pop(i) for i in is_] *)
Fixpoint py_pops {A} (l : list A) (is_ : list Z) : res (list A * list A) :=
  match is_ with
  | [] => Ok ([], l)
  | i :: is_ => do x <- py_pop l i; do r <- py_pops (snd x) is_; Ok (fst x :: fst r, snd r)
  end.
(** for x, i in zip(xs, is_): l.insert(i, x) *)
Definition py_inserts {A} (xs : list A) (is_ : list Z) (l : list A) : list A :=
  fold_left (fun l xi => py_insert l (snd xi) (fst xi)) (combine xs is_) l.

Section Context.
  Context {K : Type} {OK : OrdRing K}.
  Notation C := (Cx K).

  (** numbers the ops compute: 1/sqrt(2) (qip/operators.py:98) and, for RmOp (:124-127), exp(2 pi i / 2^m), with the
      other sign when negate is set *)
  Record consts := mkConsts { c_h : K; c_rm : Z -> bool -> C }.

  (** a positional argument of an op: a Qubit, the phi of R (as the number exp(i phi) it stands for), the m of Rm,
      the func of F *)
  Inductive arg := AQ (i : nat) | APhi (e : C) | AInt (m : Z) | AFun (f : Z -> res Z).
  (** the arguments when all of them are Qubits *)
  Fixpoint as_qubits (l : list arg) : option (list nat) :=
    match l with
    | [] => Some []
    | AQ i :: l => match as_qubits l with Some r => Some (i :: r) | None => None end
    | _ => None
    end.
  Fixpoint only_qubits (l : list arg) : list nat :=
    match l with [] => [] | AQ i :: l => i :: only_qubits l | _ :: l => only_qubits l end.

  (** keyword arguments of an op, those the library itself uses: dagger (qip/operators.py:13), negate (:125),
      nosink (qip/qip.py:16); nocontext and nosplit are explicit in the model *)
  Record kwargs := mkKw { kw_dagger : option bool; kw_negate : option bool; kw_nosink : option bool }.
  Definition no_kw : kwargs := mkKw None None None.
  Definition orelse {A} (a b : option A) : option A := match a with Some _ => a | None => b end.
  (** a.update(b) *)
  Definition kw_update (a b : kwargs) : kwargs :=
    mkKw (orelse (kw_dagger b) (kw_dagger a)) (orelse (kw_negate b) (kw_negate a)) (orelse (kw_nosink b) (kw_nosink a)).
  Definition flag (o : option bool) : bool := match o with Some b => b | None => false end.

  (** op classes of qip/operators.py that are wrapped there: Not, Y, Z, H, R, Rm, Swap, F (X is a Not) *)
  Inductive base := BNot | BY | BZ | BH | BR | BRm | BSwap | BF.

  (** the class constructors, called with positional arguments and keyword arguments.
      - an argument that is no Qubit has no attribute n: Qubit.__init__ raises (qip/qip.py:26)
      - ROp (qip/operators.py:109-111) computes exp(i phi) after the node has been linked
      - RmOp (:125-126) computes its angle first
      - F with other than one function and two registers is not used; its keyword arguments are not modelled *)
  Definition construct (cn : consts) (h : heap K) (b : base) (args : list arg) (kw : kwargs) : st (heap K) nat :=
    let matop g args := match as_qubits args with
                        | Some l => new_gate h g l None (flag (kw_nosink kw)) (flag (kw_dagger kw))
                        | None => (h, Raise AttributeError)
                        end in
    match b with
    | BNot => matop GNot args
    | BY => matop GY args
    | BZ => matop GZ args
    | BH => matop (GH (c_h cn)) args
    | BSwap => matop GSwap args
    | BR => match args with
            | APhi e :: rest => matop (GR e) rest
            | _ :: rest => sbind (matop (GR 1%r) rest) (fun h _ => (h, Raise TypeError))
            | [] => (h, Raise TypeError)
            end
    | BRm => match args with
             | AInt m :: rest => matop (GR (c_rm cn m (flag (kw_negate kw)))) rest
             | _ => (h, Raise TypeError)
             end
    | BF => match args with
            | [AFun f; AQ a; AQ b] => new_f h f a b
            | _ => (h, Raise TypeError)
            end
    end.

  (** op constructors: a QubitOpWrapper around a class with its stored keyword arguments; a QubitOpWrapper around COp,
      whose stored positional argument is the constructor to control (qip/operators.py:182-192); the function that
      makeR(m) returns (qip/qfft.py:42-43) *)
  Inductive ctor := Wrap (b : base) (kw : kwargs) | WrapC (c : ctor) (kw : kwargs) | MakeR (m : Z).

  (** qip/qubit_util.py:142-143: kwargs = self.kwargs.copy(); kwargs.update(kwargs) -- the keyword arguments given to
      the call are bound to the same name and lost *)
  Definition call_kwargs (self given : kwargs) : kwargs :=
    let given := self in kw_update given given.

  (** [len(set(inputs)) < len(inputs)]; only Qubits are repeated *)
  Definition repeated_args (l : list arg) : bool := repeated (only_qubits l).

  (** calling a constructor with nocontext=True and nosplit=True, qip/qubit_util.py:140-150; for WrapC the constructor of
      COp, qip/operators.py:198-219; nosink=True is passed on to the inner constructor, which loses it *)
  Fixpoint build (cn : consts) (h : heap K) (c : ctor) (args : list arg) (given : kwargs) : st (heap K) nat :=
    match c with
    | Wrap b kw => construct cn h b args (call_kwargs kw given)
    | WrapC c kw =>
        let kw := call_kwargs kw given in
        if (zlen args <? 2) then (h, Raise ValueError) else
        match args with
        | AQ q :: rest =>
            if negb (nd_n (nd h q) =? 1) then (h, Raise ValueError) else
            if repeated_args args then (h, Raise ValueError) else
            sbind (build cn h c rest (kw_update kw (mkKw None None (Some true)))) (fun h inner =>
              match nd_kind (nd h inner) with
              | KMat o _ =>
                  match as_qubits args with
                  | Some l => new_node h (KMat (OC o) (flag (kw_dagger kw))) l None (Some (nd_qid (nd h inner)))
                                (flag (kw_nosink kw)) None
                  | None => (h, Raise AttributeError)
                  end
              | _ => (h, Raise ValueError)
              end)
        | _ => (h, Raise AttributeError)
        end
    | MakeR m =>
        construct cn h BRm (AInt m :: args) (call_kwargs no_kw (kw_update given (mkKw None (Some true) None)))
    end.

  (** one entry of a context: constructor, qubits, indices (qip/qubit_util.py:33-38) *)
  Record ctx := mkCtx { cx_fn : ctor -> ctor; cx_qubits : list nat; cx_idx : list Z }.
  (** the state of the library: the circuit heap, CONTEXT_STACK and TOTAL_CONTEXT_QUBITS (qip/qubit_util.py:8-9), and the
      wrapper_funcs of each QubitFuncWrapper object (:172-174), by object number *)
  Record world := mkWorld {
    w_heap : heap K; w_stack : list (list ctx); w_total : Z; w_funcs : list (list ((ctor -> ctor) * list Z)) }.
  Definition set_heap (w : world) (h : heap K) : world := mkWorld h (w_stack w) (w_total w) (w_funcs w).
  (** run a computation on the heap *)
  Definition on_heap {A} (w : world) (x : st (heap K) A) : st world A := (set_heap w (fst x), snd x).

  (** qip/qubit_util.py:33-38 [add_context]: the indices default to 0, 1, ..., len(qubits)-1 *)
  Definition add_context (fn : ctor -> ctor) (qubits : list nat) (indices : option (list Z)) : ctx :=
    mkCtx fn qubits (match indices with Some l => l | None => zrange 0 (zlen qubits) end).

  (** :70-75 and :78-84: weave the qubits of the contexts into a list, innermost context first. [inj] says how a Qubit
      is an element of the list. *)
  Definition put_in_order {A} (inj : nat -> A) (all : list ctx) (l : list A) : list A :=
    fold_left (fun l cx => py_inserts (map inj (cx_qubits cx)) (cx_idx cx) l) (rev all) l.
  (** :87-94 [split_context_and_circuit_qubits] *)
  Fixpoint split_context (all : list ctx) (l : list nat) : res (list nat * list nat) :=
    match all with
    | [] => Ok ([], l)
    | cx :: all => do x <- py_pops l (cx_idx cx); do r <- split_context all (snd x); Ok (fst x ++ fst r, snd r)
    end.
  (** :97-102 [make_context_constructor] *)
  Definition wrap_all (all : list ctx) (c : ctor) : ctor := fold_left (fun c cx => cx_fn cx c) (rev all) c.
  (** :110-119 [set_qubits] *)
  Fixpoint set_qubits_set (set : list ctx) (l : list nat) : list ctx * list nat :=
    match set with
    | [] => ([], l)
    | cx :: set => let k := length (cx_qubits cx) in
        let '(set, l') := set_qubits_set set (skipn k l) in
        (mkCtx (cx_fn cx) (firstn k l) (cx_idx cx) :: set, l')
    end.
  Fixpoint set_qubits_stack (stack : list (list ctx)) (l : list nat) : list (list ctx) :=
    match stack with
    | [] => []
    | set :: stack => let '(set, l) := set_qubits_set set l in set :: set_qubits_stack stack l
    end.
  Definition set_qubits (w : world) (l : list nat) : st world unit :=
    if negb (zlen l =? w_total w) then (w, Raise ValueError) else
    (mkWorld (w_heap w) (set_qubits_stack (w_stack w) l) (w_total w) (w_funcs w), Ok tt).

  (** :41-68 [apply_to_qubits_in_context], as QubitOpWrapper calls it (without op_args and op_kwargs) *)
  Definition apply_in_context (cn : consts) (w : world) (c : ctor) (args : list arg) : st world (list nat) :=
    let active := match w_stack w with [] => false | _ => true end in
    let all := concat (w_stack w) in
    let '(args, c) := if active then (put_in_order AQ all args, wrap_all all c) else (args, c) in
    sbind (on_heap w (build cn (w_heap w) c args no_kw)) (fun w q =>
    sbind (on_heap w (split (w_heap w) q None)) (fun w outs =>
      if active then
        match split_context all outs with
        | Raise e => (w, Raise e)
        | Ok (applied, outs) => sbind (set_qubits w applied) (fun w _ => (w, Ok outs))
        end
      else (w, Ok outs))).

  (** a constructor called by the user (nocontext=False): qip/qubit_util.py:151-158. The keyword arguments (nosplit among
      them) are not passed on. One output is returned as such, more as a tuple; the model returns the list. *)
  Definition call_op (cn : consts) (w : world) (c : ctor) (args : list arg) (given : kwargs) : st world (list nat) :=
    sbind (apply_in_context cn w c args) (fun w outs =>
      match outs with [] => (w, Raise ValueError) | _ => (w, Ok outs) end).

  (** entering and leaving a context: :121-128 *)
  Definition enter (w : world) (set : list ctx) (size : Z) : world :=
    mkWorld (w_heap w) (w_stack w ++ [set]) (w_total w + size) (w_funcs w).
  Definition leave (w : world) (size : Z) : world :=
    mkWorld (w_heap w) (removelast (w_stack w)) (w_total w - size) (w_funcs w).
  Definition context_size (set : list ctx) : Z := fold_right (fun cx s => zlen (cx_qubits cx) + s) 0 set.
  (** with QubitWrapperContext(...): body *)
  Definition with_context {A} (w : world) (set : list ctx) (body : world -> st world A) : st world A :=
    let size := context_size set in
    let r := body (enter w set size) in (leave (fst r) size, snd r).

  (** :177-184: the qubits consumed by the wrappers of a function, last wrapper first; the contexts and what is left *)
  Fixpoint consume (wrappers : list ((ctor -> ctor) * list Z)) (inputs : list nat) : res (list ctx * list nat) :=
    match wrappers with
    | [] => Ok ([], inputs)
    | (fn, idx) :: wrappers =>
        do r <- consume wrappers inputs;
        do p <- py_pops (snd r) (rev idx);
        Ok (mkCtx fn (rev (fst p)) idx :: fst r, snd p)
    end.
  Definition wrappers_of (w : world) (f : nat) : list ((ctor -> ctor) * list Z) := nth f (w_funcs w) [].
  (** :176-196 QubitFuncWrapper.__call__ of the object [f] that wraps the Python function [body]; the context object is
      the last entry of the stack. The keyword arguments go to the function. *)
  Definition call_func {KW} (w : world) (f : nat) (body : KW -> world -> list nat -> st world (list nat)) (kw : KW)
      (inputs : list nat) : st world (list nat) :=
    match consume (wrappers_of w f) inputs with
    | Raise e => (w, Raise e)
    | Ok (set, rest) =>
        with_context w set (fun w =>
          sbind (body kw w rest) (fun w outputs => (w, Ok (put_in_order (fun i => i) (last (w_stack w) []) outputs))))
    end.

  (** what C is given: an op constructor or a function object *)
  Inductive opval := VOp (c : ctor) | VFun (f : nat).
  (** qip/operators.py:182-192 [C]; for function objects qip/qubit_util.py:198-201 [wrap_op_hook]: the object itself is
      changed and returned *)
  Definition C_ctor (c : ctor) : ctor := WrapC c no_kw.
  Definition apply_C (w : world) (v : opval) : world * opval :=
    match v with
    | VOp c => (w, VOp (C_ctor c))
    | VFun f => (mkWorld (w_heap w) (w_stack w) (w_total w) (upd (w_funcs w) f (wrappers_of w f ++ [(C_ctor, [0])])), VFun f)
    end.

  (** ** qip/qfft.py *)
  Definition one_output (x : st world (list nat)) : st world nat :=
    sbind x (fun w l => match l with [a] => (w, Ok a) | _ => (w, Raise TypeError) end).
  Definition two_outputs (x : st world (list nat)) : st world (nat * nat) :=
    sbind x (fun w l => match l with [a; b] => (w, Ok (a, b)) | _ => (w, Raise ValueError) end).
  Definition lift {A} (w : world) (r : res A) : st world A := (w, r).

  (** qarr[i], qarr[j] = c(qarr[i], qarr[j]) *)
  Definition apply_at2 (cn : consts) (w : world) (c : ctor) (qarr : list nat) (i j : Z) : st world (list nat) :=
    sbind (lift w (pyget qarr i)) (fun w a =>
    sbind (lift w (pyget qarr j)) (fun w b =>
    sbind (two_outputs (call_op cn w c [AQ a; AQ b] no_kw)) (fun w ab =>
    sbind (lift w (pyset qarr i (fst ab))) (fun w qarr => lift w (pyset qarr j (snd ab)))))).
  (** qarr[i] = c(qarr[i]) *)
  Definition apply_at1 (cn : consts) (w : world) (c : ctor) (qarr : list nat) (i : Z) : st world (list nat) :=
    sbind (lift w (pyget qarr i)) (fun w a =>
    sbind (one_output (call_op cn w c [AQ a] no_kw)) (fun w a => lift w (pyset qarr i a))).
  (** a loop that updates a list *)
  Fixpoint sloop {I A} (f : world -> A -> I -> st world A) (l : list I) (w : world) (a : A) : st world A :=
    match l with
    | [] => (w, Ok a)
    | i :: l => sbind (f w a i) (fun w a => sloop f l w a)
    end.

  (** qip/qfft.py:33-40 [recQFFT]; the fuel len(qarr) - offset + 1 is enough *)
  Fixpoint recQFFT (cn : consts) (fuel : nat) (w : world) (qarr : list nat) (offset : Z) : st world (list nat) :=
    if (offset <? zlen qarr) then
      match fuel with
      | O => (w, Raise OutOfFuel)
      | S fuel =>
          sbind (apply_at1 cn w (Wrap BH no_kw) qarr offset) (fun w qarr =>
          sbind (sloop (fun w qarr i => apply_at2 cn w (C_ctor (MakeR (1 + i - offset))) qarr i offset)
                   (zrange (offset + 1) (zlen qarr)) w qarr) (fun w qarr =>
          recQFFT cn fuel w qarr (offset + 1)))
      end
    else (w, Ok qarr).

  (** qip/qfft.py:8-30 the function inside QFFT *)
  Definition qfft_body (cn : consts) (rev_ : bool) (w : world) (inputs : list nat) : st world (list nat) :=
    sbind (sloop (fun w qarr inp =>
             sbind (on_heap w (split (w_heap w) inp (Some (zrange 0 (nd_n (nd (w_heap w) inp)))))) (fun w l => (w, Ok (qarr ++ l))))
           inputs w []) (fun w qarr =>
    sbind (recQFFT cn (S (length qarr)) w qarr 0) (fun w qarr =>
    sbind (if rev_ : bool then
             sloop (fun w qarr i => apply_at2 cn w (Wrap BSwap no_kw) qarr i (-1 - i)) (zrange 0 (zlen qarr / 2)) w qarr
           else (w, Ok qarr)) (fun w qarr =>
    if (zlen inputs <? zlen qarr) then
      sbind (sloop (fun w '(out, index) qubit =>
               let n := nd_n (nd (w_heap w) qubit) in
               sbind (on_heap w (new_node (w_heap w) KQubit (firstn (Z.to_nat n) (skipn (Z.to_nat index) qarr)) None None false None))
                 (fun w o => (w, Ok (out ++ [o], index + n)))) inputs w ([], 0)) (fun w r => (w, Ok (fst r)))
    else match qarr with [] => (w, Raise IndexError) | _ => (w, Ok qarr) end))).
  (** QFFT(inputs, rev=rev_), for the QubitFuncWrapper object [f] *)
  Definition QFFT (cn : consts) (w : world) (f : nat) (rev_ : bool) (inputs : list nat) : st world (list nat) :=
    call_func w f (qfft_body cn) rev_ inputs.
End Context.
Arguments world K : clear implicits.
Arguments consts K : clear implicits.
Arguments arg K : clear implicits.
