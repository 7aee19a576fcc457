(** Model of the constructor of Qubit (qip/qip.py:15-42) when several threads create objects: the interpreter may switch to another
    thread between any two accesses to shared attributes. *)
From Verif Require Import Base M_Kron M_Ops M_Feed M_Graph.

Section Threads.
  Context {K : Type} {OK : OrdRing K}.

  (** the arguments of a construction: the class of the object, and what its constructor passes to Qubit.__init__ (see [new_node]);
      nosink is not given *)
  Record ctor := mkCtor { ct_kind : kind K; ct_inputs : list nat; ct_n : option Z; ct_qid : option Z; ct_default : option (default_t K) }.

  (** where a thread is in the constructor:
      - [PStart]: before qip/qip.py:24
      - [PLoaded q]: qid = Qubit.QID has been carried out (:36)
      - [PAgain q t]: Qubit.QID += 1 (:37) has read t, and not yet written t + 1
      - [PNew q]: before self.qid = qid (:38)
      - [PCheck self rest]: in the loop (:41-42); the sinks of [rest] are still to be set
      - [PAppend self item rest]: set_sink (:91-99) has found that it may add self to the sinks of item
      self.qid and self.inputs (:38-39) are set in one step, in which the object gets its number: no other thread knows the object
      before its sinks are set. self.sink += [sink] extends the list in place (one step). *)
  Inductive phase :=
  | PStart | PLoaded (q : Z) | PAgain (q t : Z) | PNew (q : Z) | PCheck (self : nat) (rest : list nat) | PAppend (self item : nat) (rest : list nat).

  (** a thread: the construction it is in, the constructions it still has to make (their arguments may depend on the results of the
      earlier ones), and those results. A thread goes on after an exception. *)
  Record thread := mkThread { th_now : option (ctor * phase); th_todo : list (list (res nat) -> ctor); th_done : list (res nat) }.

  (** the number of qubits of the new object, qip/qip.py:24-28 *)
  Definition ctor_n (h : heap K) (c : ctor) : Z :=
    match ct_n c with
    | Some n => n
    | None => match ct_inputs c with [] => 1 | _ => sum_n h (ct_inputs c) end
    end.
  Definition finish (t : thread) (r : res nat) : thread := mkThread None (th_todo t) (th_done t ++ [r]).
  Definition at_phase (t : thread) (c : ctor) (p : phase) : thread := mkThread (Some (c, p)) (th_todo t) (th_done t).

  (** one step of a thread; None if it has nothing to do *)
  Definition tstep (h : heap K) (t : thread) : option (heap K * thread) :=
    match th_now t with
    | None => match th_todo t with [] => None | f :: todo => Some (h, mkThread (Some (f (th_done t), PStart)) todo (th_done t)) end
    | Some (c, p) => Some (
        match p with
        | PStart =>
            if match ct_default c with Some (DList l) => negb (zlen l =? 2 ^ ctor_n h c) | _ => false end then (h, finish t (Raise ValueError)) else
            if ctor_n h c <=? 0 then (h, finish t (Raise GenericException)) else
            (h, at_phase t c (match ct_qid c with Some q => PNew q | None => PLoaded (h_qid h) end))
        | PLoaded q => (h, at_phase t c (PAgain q (h_qid h)))
        | PAgain q x => (mkHeap (h_nodes h) (x + 1), at_phase t c (PNew q))
        | PNew q => (mkHeap (h_nodes h ++ [mkNode (ct_kind c) (ct_inputs c) (ctor_n h c) q (ct_default c) []]) (h_qid h),
                     at_phase t c (PCheck (size h) (ct_inputs c)))
        | PCheck self [] => (h, finish t (Ok self))
        | PCheck self (item :: rest) =>
            let go := (h, at_phase t c (PAppend self item rest)) in
            if is_qubit (nd_kind (nd h self)) then
              match nd_sink (nd h item) with
              | [] => go
              | s0 :: _ => if nd_qid (nd h s0) =? nd_qid (nd h self) then go else (h, finish t (Raise GenericException))
              end
            else go
        | PAppend self item rest => (add_sink h item self, at_phase t c (PCheck self rest))
        end)
    end.

  (** the objects and the threads; a schedule lists whose turn it is (a turn of a thread that has nothing to do is skipped) *)
  Record sys := mkSys { sy_heap : heap K; sy_threads : list thread }.
  Definition turn (s : sys) (i : nat) : sys :=
    match nth_error (sy_threads s) i with
    | None => s
    | Some t => match tstep (sy_heap s) t with None => s | Some (h, t) => mkSys h (upd (sy_threads s) i t) end
    end.
  Definition turns (s : sys) (sched : list nat) : sys := fold_left turn sched s.
End Threads.
Arguments ctor K : clear implicits.
Arguments thread K : clear implicits.
Arguments sys K : clear implicits.
