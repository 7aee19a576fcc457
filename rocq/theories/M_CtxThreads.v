(** Several threads that use contexts: qip/qubit_util.py:41-68 and :104-158. CONTEXT_STACK and TOTAL_CONTEXT_QUBITS are attributes
    of the class (:8-9), which all threads share. *)
From Verif Require Import Base M_Bits M_Kron M_Ops M_Feed M_Func M_Measure M_Graph M_Context M_CtxObj.

Section CtxThreads.
  Context {K : Type} {OK : OrdRing K}.
  Variable cn : consts K.

  (** The code of a thread. It calls op constructors, runs a block inside of [with QubitWrapperContext(...) as i], or puts qubits
      in the order of a context object (:70-75), and goes on with the result, which may be an exception. *)
  Inductive code :=
  | CEnd (r : res (list nat))
  | COp (c : ctor) (args : list (arg K)) (k : res (list nat) -> code)
  | CWith (set : list ctx) (body : nat -> code) (k : res (list nat) -> code)
  | CLocal (i : nat) (outs : list nat) (k : list nat -> code).
  Fixpoint cbind (p : code) (f : res (list nat) -> code) : code :=
    match p with
    | CEnd r => f r
    | COp c args k => COp c args (fun r => cbind (k r) f)
    | CWith set body k => CWith set body (fun r => cbind (k r) f)
    | CLocal i outs k => CLocal i outs (fun l => cbind (k l) f)
    end.
  (** :186-196, the call of a function object: its contexts are [set], [rest] are the inputs that are left for the function *)
  Definition func_code (set : list ctx) (body : list nat -> code) (rest : list nat) (k : res (list nat) -> code) : code :=
    CWith set (fun i => cbind (body rest) (fun r =>
      match r with Ok outs => CLocal i outs (fun l => CEnd (Ok l)) | Raise e => CEnd (Raise e) end)) k.

  (** Where a thread is. The stack and the counter are read and written in these steps:
      :54-56 test, put_qubits_in_context_order, make_context_constructor; :63 the op and split(), one step here (C98 is about the
      steps of constructors); :65-67 test, split_context_and_circuit_qubits, set_qubits, of which the test (:111) is one step and
      the loop (:115-119) another;
      :122 the context is pushed; :123 the counter is read, and written; :127-128 the same in __exit__ *)
  Inductive phase :=
  | PRun (p : code)
  | POrder (c : ctor) (args : list (arg K)) (k : res (list nat) -> code)
  | PWrap (c : ctor) (args : list (arg K)) (k : res (list nat) -> code)
  | PBuild (c : ctor) (args : list (arg K)) (k : res (list nat) -> code)
  | PAfter (outs : list nat) (k : res (list nat) -> code)
  | PSplit (outs : list nat) (k : res (list nat) -> code)
  | PCheck (applied outs : list nat) (k : res (list nat) -> code)
  | PStore (applied outs : list nat) (k : res (list nat) -> code)
  | PReturn (outs : list nat) (k : res (list nat) -> code)
  | PPush (i : nat) (body : code) (k : res (list nat) -> code)
  | PReadIn (i : nat) (body : code)
  | PWriteIn (total : Z) (body : code)
  | PReadOut (i : nat) (r : res (list nat)) (k : res (list nat) -> code)
  | PWriteOut (total : Z) (r : res (list nat)) (k : res (list nat) -> code).
  (** a thread, with the with statements it is in: the context object and what follows the block *)
  Definition cthread : Type := (phase * list (nat * (res (list nat) -> code)))%type.
  Definition start (p : code) : cthread := (PRun p, []).

  Definition active (w : oworld K) : bool := match o_stack w with [] => false | _ => true end.
  Definition set_stack (w : oworld K) (s : list nat) : oworld K := mkOW (o_heap w) s (o_total w) (o_funcs w) (o_objs w).
  Definition set_total (w : oworld K) (t : Z) : oworld K := mkOW (o_heap w) (o_stack w) t (o_funcs w) (o_objs w).
  (** op_func( *qubits_list, **op_kwargs).split() (:63) *)
  Definition make_op (w : oworld K) (c : ctor) (args : list (arg K)) : st (oworld K) (list nat) :=
    sbind (oon_heap w (build cn (o_heap w) c args no_kw)) (fun w q => oon_heap w (split (o_heap w) q None)).

  (** one step of a thread; None when it has ended *)
  Definition cstep (w : oworld K) (t : cthread) : option (oworld K * cthread) :=
    let '(ph, fs) := t in
    match ph with
    | PRun (CEnd r) =>
        match fs with
        | [] => None
        | (i, k) :: fs =>
            match o_stack w with
            | [] => Some (w, (PRun (k (Raise IndexError)), fs))
            | _ => Some (set_stack w (removelast (o_stack w)), (PReadOut i r k, fs))
            end
        end
    | PRun (COp c args k) => Some (w, (if active w then POrder c args k else PBuild c args k, fs))
    | POrder c args k => Some (w, (PWrap c (put_in_order AQ (concat (contents w)) args) k, fs))
    | PWrap c args k => Some (w, (PBuild (wrap_all (concat (contents w)) c) args k, fs))
    | PBuild c args k =>
        match make_op w c args with
        | (w, Ok outs) => Some (w, (PAfter outs k, fs))
        | (w, Raise e) => Some (w, (PRun (k (Raise e)), fs))
        end
    | PAfter outs k => Some (w, (if active w then PSplit outs k else PReturn outs k, fs))
    | PSplit outs k =>
        match split_context (concat (contents w)) outs with
        | Ok (applied, outs) => Some (w, (PCheck applied outs k, fs))
        | Raise e => Some (w, (PRun (k (Raise e)), fs))
        end
    | PCheck applied outs k => Some (w, (if negb (zlen applied =? o_total w) then PRun (k (Raise ValueError)) else PStore applied outs k, fs))
    | PStore applied outs k => Some (oset_loop w (o_stack w) applied, (PReturn outs k, fs))
    | PReturn outs k => Some (w, (PRun (k (match outs with [] => Raise ValueError | _ => Ok outs end)), fs))
    | PRun (CWith set body k) => Some (fst (new_context w set), (PPush (snd (new_context w set)) (body (snd (new_context w set))) k, fs))
    | PPush i body k => Some (set_stack w (o_stack w ++ [i]), (PReadIn i body, (i, k) :: fs))
    | PReadIn i body => Some (w, (PWriteIn (o_total w + snd (obj w i)) body, fs))
    | PWriteIn t body => Some (set_total w t, (PRun body, fs))
    | PReadOut i r k => Some (w, (PWriteOut (o_total w - snd (obj w i)) r k, fs))
    | PWriteOut t r k => Some (set_total w t, (PRun (k r), fs))
    | PRun (CLocal i outs k) => Some (w, (PRun (k (put_in_order (fun i => i) (fst (obj w i)) outs)), fs))
    end.

  (** the threads take steps in the order of the schedule *)
  Fixpoint cruns (w : oworld K) (ts : list cthread) (sched : list nat) : option (oworld K * list cthread) :=
    match sched with
    | [] => Some (w, ts)
    | j :: sched =>
        match nth_error ts j with
        | Some t => match cstep w t with Some (w, t) => cruns w (upd ts j t) sched | None => None end
        | None => None
        end
    end.
End CtxThreads.
Arguments code K : clear implicits.
Arguments cthread K : clear implicits.
