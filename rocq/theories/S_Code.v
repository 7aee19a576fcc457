(** Specification: code that uses the library, and the positions of arguments. Models no code. *)
From Verif Require Import Base M_Graph M_Context.

(** Code of a user of the library: it reads everything, creates qubits and measurements, applies ops, C and functions (its own ones are such
    code again), enters contexts, stops, raises and catches exceptions. *)
Section Code.
  Context {K : Type} {OK : OrdRing K}.
  Inductive user_code : forall A : Type, (world K -> st (world K) A) -> Prop :=
  | uc_end : forall A (r : res A), user_code A (fun w => (w, r))
  | uc_heap : forall A (x : heap K -> st (heap K) A), user_code A (fun w => on_heap w (x (w_heap w)))
  | uc_read : forall A (m : world K -> world K -> st (world K) A), (forall now, user_code A (m now)) -> user_code A (fun w => m w w)
  | uc_op : forall cn c args given, user_code (list nat) (fun w => call_op cn w c args given)
  | uc_C : forall v, user_code opval (fun w => (fst (apply_C w v), Ok (snd (apply_C w v))))
  | uc_func : forall KW (f : nat) (body : KW -> world K -> list nat -> st (world K) (list nat)) kw inputs,
      (forall l, user_code (list nat) (fun w => body kw w l)) -> user_code (list nat) (fun w => call_func w f body kw inputs)
  | uc_with : forall A (set : list ctx) (body : world K -> st (world K) A), user_code A body -> user_code A (fun w => with_context w set body)
  | uc_then : forall A B (m : world K -> st (world K) A) (k : A -> world K -> st (world K) B),
      user_code A m -> (forall a, user_code B (k a)) -> user_code B (fun w => sbind (m w) (fun w a => k a w))
  | uc_try : forall A (m : world K -> st (world K) A) (handler : exn -> world K -> st (world K) A),
      user_code A m -> (forall e, user_code A (handler e)) ->
      user_code A (fun w => match m w with (w, Ok a) => (w, Ok a) | (w, Raise e) => handler e w end).
End Code.
(** the constructors and positions of the active contexts *)
Definition active {K} (w : world K) : list (list ((ctor -> ctor) * list Z)) := map (map (fun cx => (cx_fn cx, cx_idx cx))) (w_stack w).
(** the number of qubits of each active context; TOTAL_CONTEXT_QUBITS is their sum *)
Definition context_sizes (stack : list (list ctx)) : list (list Z) := map (map (fun cx => zlen (cx_qubits cx))) stack.
Definition counted {K} (w : world K) : Prop := w_total w = fold_right Z.add 0 (concat (context_sizes (w_stack w))).
(** the elements of [l] at the positions [idx] and those elsewhere *)
Definition at_positions {A} (idx : list Z) (l : list A) : list A := concat (map (fun i => firstn 1 (skipn (Z.to_nat i) l)) idx).
Fixpoint elsewhere_from {A} (k : Z) (idx : list Z) (l : list A) : list A :=
  match l with
  | [] => []
  | x :: l => if existsb (Z.eqb k) idx then elsewhere_from (k + 1) idx l else x :: elsewhere_from (k + 1) idx l
  end.
Definition elsewhere {A} (idx : list Z) (l : list A) : list A := elsewhere_from 0 idx l.
