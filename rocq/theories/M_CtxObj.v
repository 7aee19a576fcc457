(** QubitWrapperContext as objects: qip/qubit_util.py:7-38 (constructor, add_context) and :104-128 (get_context, set_qubits,
    __enter__, __exit__). M_Context has the contents of the active contexts in CONTEXT_STACK; here the stack has the objects, as
    in the code, so that an object can be entered several times and be changed while it is active. *)
From Verif Require Import Base M_Bits M_Kron M_Ops M_Feed M_Func M_Measure M_Graph M_Context.

(** ** The arguments of the constructor *)
Section Args.
  (** F: values that are not iterable, such as C; E: the elements of sequences, Qubits and ints *)
  Context {F E : Type}.
  Variable int : Z -> E.
  Inductive carg := One (f : F) | Many (l : list E).
  (** an entry of self.context: constructor, qubits, indices *)
  Definition entry_t : Type := (carg * list E * list E)%type.
  (** qip/qubit_util.py:33-38 [add_context], called with *buff; too few or too many arguments: TypeError. Only the first element
      of buff can be something else than a list. *)
  Definition add_buff (buff : list carg) (context : list entry_t) : res (list entry_t) :=
    match buff with
    | [c; Many qubits] => Ok (context ++ [(c, qubits, map int (zrange 0 (zlen qubits)))])
    | [c; Many qubits; Many indices] => Ok (context ++ [(c, qubits, indices)])
    | _ => Raise TypeError
    end.
  (** :19-31 [__init__] *)
  Definition parse_step (st : list entry_t * list carg) (a : carg) : res (list entry_t * list carg) :=
    let '(context, buff) := st in
    match a with
    | Many l => Ok (context, buff ++ [Many l])
    | One f =>
        match buff with
        | [] => Ok (context, [One f])
        | _ => do context <- add_buff buff context; Ok (context, [One f])
        end
    end.
  Definition parse (args : list carg) : res (list entry_t) :=
    do r <- mfold parse_step args ([], []);
    match snd r with [] => Ok (fst r) | buff => add_buff buff (fst r) end.
End Args.

(** ** Objects *)
Section Objects.
  Context {K : Type} {OK : OrdRing K}.

  (** the circuit heap; CONTEXT_STACK, whose entries are the lists self.context of context objects, by object number;
      TOTAL_CONTEXT_QUBITS; the wrapper_funcs of the QubitFuncWrapper objects; the context objects: self.context and
      self.context_size *)
  Record oworld := mkOW {
    o_heap : heap K; o_stack : list nat; o_total : Z; o_funcs : list (list ((ctor -> ctor) * list Z)); o_objs : list (list ctx * Z) }.
  Definition obj (w : oworld) (i : nat) : list ctx * Z := nth i (o_objs w) ([], 0).
  Definition set_obj (w : oworld) (i : nat) (x : list ctx * Z) : oworld :=
    mkOW (o_heap w) (o_stack w) (o_total w) (o_funcs w) (upd (o_objs w) i x).
  (** :105-107 [get_context], grouped by object *)
  Definition contents (w : oworld) : list (list ctx) := map (fun i => fst (obj w i)) (o_stack w).
  Definition oset_heap (w : oworld) (h : heap K) : oworld := mkOW h (o_stack w) (o_total w) (o_funcs w) (o_objs w).
  Definition oon_heap {A} (w : oworld) (x : st (heap K) A) : st oworld A := (oset_heap w (fst x), snd x).

  (** :19-31: a new object for a well formed series of arguments (the contents are typed here) *)
  Definition new_context (w : oworld) (set : list ctx) : oworld * nat :=
    (mkOW (o_heap w) (o_stack w) (o_total w) (o_funcs w) (o_objs w ++ [(set, context_size set)]), length (o_objs w)).
  (** :33-38 [add_context], called on an object that exists *)
  Definition add_to (w : oworld) (i : nat) (cx : ctx) : oworld :=
    set_obj w i (fst (obj w i) ++ [cx], snd (obj w i) + zlen (cx_qubits cx)).

  (** :110-119 [set_qubits]: the lists in the stack are changed in place, one after the other *)
  Fixpoint oset_loop (w : oworld) (stack : list nat) (l : list nat) : oworld :=
    match stack with
    | [] => w
    | i :: stack => let '(set, l) := set_qubits_set (fst (obj w i)) l in oset_loop (set_obj w i (set, snd (obj w i))) stack l
    end.
  Definition oset_qubits (w : oworld) (l : list nat) : st oworld unit :=
    if negb (zlen l =? o_total w) then (w, Raise ValueError) else (oset_loop w (o_stack w) l, Ok tt).

  (** :41-68 [apply_to_qubits_in_context] and :151-158, as M_Context.apply_in_context and call_op *)
  Definition ocall_op (cn : consts K) (w : oworld) (c : ctor) (args : list (arg K)) : st oworld (list nat) :=
    let active := match o_stack w with [] => false | _ => true end in
    let all := concat (contents w) in
    let '(args, c) := if active then (put_in_order AQ all args, wrap_all all c) else (args, c) in
    sbind (oon_heap w (build cn (o_heap w) c args no_kw)) (fun w q =>
    sbind (oon_heap w (split (o_heap w) q None)) (fun w outs =>
    sbind (if active then
             match split_context all outs with
             | Raise e => (w, Raise e)
             | Ok (applied, outs) => sbind (oset_qubits w applied) (fun w _ => (w, Ok outs))
             end
           else (w, Ok outs)) (fun w outs => match outs with [] => (w, Raise ValueError) | _ => (w, Ok outs) end))).

  (** :121-124 and :126-128 *)
  Definition oenter (w : oworld) (i : nat) : oworld := mkOW (o_heap w) (o_stack w ++ [i]) (o_total w + snd (obj w i)) (o_funcs w) (o_objs w).
  Definition oleave (w : oworld) (i : nat) : oworld :=
    mkOW (o_heap w) (removelast (o_stack w)) (o_total w - snd (obj w i)) (o_funcs w) (o_objs w).
  (** with ctx: body *)
  Definition owith {A} (w : oworld) (i : nat) (body : oworld -> st oworld A) : st oworld A :=
    let r := body (oenter w i) in (oleave (fst r) i, snd r).
  (** with QubitWrapperContext(...) as ctx: body *)
  Definition owith_new {A} (w : oworld) (set : list ctx) (body : nat -> oworld -> st oworld A) : st oworld A :=
    owith (fst (new_context w set)) (snd (new_context w set)) (body (snd (new_context w set))).

  (** qip/operators.py:182-192 [C], as M_Context.apply_C *)
  Definition oapply_C (w : oworld) (v : opval) : oworld * opval :=
    match v with
    | VOp c => (w, VOp (C_ctor c))
    | VFun f => (mkOW (o_heap w) (o_stack w) (o_total w) (upd (o_funcs w) f (nth f (o_funcs w) [] ++ [(C_ctor, [0])])) (o_objs w), VFun f)
    end.
  (** qip/qubit_util.py:176-196 QubitFuncWrapper.__call__, as M_Context.call_func; put_qubits_in_local_context_order (:70-75) is
      called on the context object *)
  Definition ocall_func {KW} (w : oworld) (f : nat) (body : KW -> oworld -> list nat -> st oworld (list nat)) (kw : KW)
      (inputs : list nat) : st oworld (list nat) :=
    match consume (nth f (o_funcs w) []) inputs with
    | Raise e => (w, Raise e)
    | Ok (set, rest) =>
        owith_new w set (fun i w =>
          sbind (body kw w rest) (fun w outputs => (w, Ok (put_in_order (fun i => i) (fst (obj w i)) outputs))))
    end.
End Objects.
Arguments oworld K : clear implicits.
