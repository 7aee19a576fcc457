(** Specification: the documented arguments of QubitWrapperContext, and code with context objects. Models no code. *)
From Verif Require Import Base M_Graph M_Context M_CtxObj.

(** "args is a series of triples/doubles": a constructor, the qubits, and the positions, which may be left out *)
Section Series.
  Context {F E : Type}.
  Record ctx_arg := mkArg { ca_fn : F; ca_qubits : list E; ca_positions : option (list E) }.
  (** one triple or double as it is written in the call *)
  Definition written (a : ctx_arg) : list (@carg F E) :=
    One (ca_fn a) :: Many (ca_qubits a) :: match ca_positions a with Some l => [Many l] | None => [] end.
  Definition series (args : list (@carg F E)) (l : list ctx_arg) : Prop := args = concat (map written l).
  (** what the context has to hold: the positions that are left out are the first ones *)
  Definition holds (int : Z -> E) (a : ctx_arg) : F * list E * list E :=
    (ca_fn a, ca_qubits a, match ca_positions a with Some l => l | None => map int (zrange 0 (zlen (ca_qubits a))) end).
End Series.

(** code that uses context objects: like S_Code.user_code, with objects that are made once and entered as often as the code
    likes, in any order *)
Section Code.
  Context {K : Type} {OK : OrdRing K}.
  Inductive object_code : forall A : Type, (oworld K -> st (oworld K) A) -> Prop :=
  | oc_end : forall A (r : res A), object_code A (fun w => (w, r))
  | oc_heap : forall A (x : heap K -> st (heap K) A), object_code A (fun w => oon_heap w (x (o_heap w)))
  | oc_read : forall A (m : oworld K -> oworld K -> st (oworld K) A), (forall now, object_code A (m now)) -> object_code A (fun w => m w w)
  | oc_op : forall cn c args, object_code (list nat) (fun w => ocall_op cn w c args)
  | oc_C : forall v, object_code opval (fun w => (fst (oapply_C w v), Ok (snd (oapply_C w v))))
  | oc_func : forall KW (f : nat) (body : KW -> oworld K -> list nat -> st (oworld K) (list nat)) kw inputs,
      (forall l, object_code (list nat) (fun w => body kw w l)) -> object_code (list nat) (fun w => ocall_func w f body kw inputs)
  | oc_new : forall set, object_code nat (fun w => (fst (new_context w set), Ok (snd (new_context w set))))
  | oc_with : forall A (i : nat) (body : oworld K -> st (oworld K) A), object_code A body -> object_code A (fun w => owith w i body)
  | oc_then : forall A B (m : oworld K -> st (oworld K) A) (k : A -> oworld K -> st (oworld K) B),
      object_code A m -> (forall a, object_code B (k a)) -> object_code B (fun w => sbind (m w) (fun w a => k a w))
  | oc_try : forall A (m : oworld K -> st (oworld K) A) (handler : exn -> oworld K -> st (oworld K) A),
      object_code A m -> (forall e, object_code A (handler e)) ->
      object_code A (fun w => match m w with (w, Ok a) => (w, Ok a) | (w, Raise e) => handler e w end).

  (** the same code for the library with objects and for that of M_Context: every context object is made in the with statement
      that enters it *)
  Inductive same_code : forall A : Type, (oworld K -> st (oworld K) A) -> (world K -> st (world K) A) -> Prop :=
  | sc_end : forall A (r : res A), same_code A (fun w => (w, r)) (fun w => (w, r))
  | sc_heap : forall A (x : heap K -> st (heap K) A), same_code A (fun w => oon_heap w (x (o_heap w))) (fun w => on_heap w (x (w_heap w)))
  | sc_read : forall A (m : heap K -> oworld K -> st (oworld K) A) (m' : heap K -> world K -> st (world K) A),
      (forall now, same_code A (m now) (m' now)) -> same_code A (fun w => m (o_heap w) w) (fun w => m' (w_heap w) w)
  | sc_op : forall cn c args given, same_code (list nat) (fun w => ocall_op cn w c args) (fun w => call_op cn w c args given)
  | sc_C : forall v, same_code opval (fun w => (fst (oapply_C w v), Ok (snd (oapply_C w v)))) (fun w => (fst (apply_C w v), Ok (snd (apply_C w v))))
  | sc_func : forall KW (f : nat) (body : KW -> oworld K -> list nat -> st (oworld K) (list nat))
      (body' : KW -> world K -> list nat -> st (world K) (list nat)) kw inputs,
      (forall l, same_code (list nat) (fun w => body kw w l) (fun w => body' kw w l)) ->
      same_code (list nat) (fun w => ocall_func w f body kw inputs) (fun w => call_func w f body' kw inputs)
  | sc_with : forall A (set : list ctx) (body : nat -> oworld K -> st (oworld K) A) (body' : world K -> st (world K) A),
      (forall i, same_code A (body i) body') -> same_code A (fun w => owith_new w set body) (fun w => with_context w set body')
  | sc_then : forall A B (m : oworld K -> st (oworld K) A) (m' : world K -> st (world K) A) (k : A -> oworld K -> st (oworld K) B)
      (k' : A -> world K -> st (world K) B),
      same_code A m m' -> (forall a, same_code B (k a) (k' a)) ->
      same_code B (fun w => sbind (m w) (fun w a => k a w)) (fun w => sbind (m' w) (fun w a => k' a w))
  | sc_try : forall A (m : oworld K -> st (oworld K) A) (m' : world K -> st (world K) A) (hd : exn -> oworld K -> st (oworld K) A)
      (hd' : exn -> world K -> st (world K) A),
      same_code A m m' -> (forall e, same_code A (hd e) (hd' e)) ->
      same_code A (fun w => match m w with (w, Ok a) => (w, Ok a) | (w, Raise e) => hd e w end)
        (fun w => match m' w with (w, Ok a) => (w, Ok a) | (w, Raise e) => hd' e w end).
End Code.
