(** Processes exchanging messages over ordered, reliable connections: the semantics used for the worker processes of
    qip/distributed. A process is a tree of its sends and receives; computations between them are part of the tree.
    Whole messages are sent and received: FormatSocket (qip/distributed/formatsock.py, property C39) turns the byte
    stream into messages. *)
From Verif Require Import Base.

Section Net.
  Context {P M R : Type} (peqb : P -> P -> bool).

  Inductive proc :=
  | Ret (r : R)                        (* the thread has ended with a result *)
  | Fail (e : exn)                     (* an exception has ended the thread *)
  | Send (to : P) (m : M) (k : proc)   (* FormatSocket.send *)
  | Recv (from : P) (k : M -> proc).   (* FormatSocket.recv: blocks until a message is there *)

  (** all processes, and the messages in transit from one process to another, oldest first *)
  Record net := mkNet { procs : P -> proc; chans : P -> P -> list M }.

  (** how many messages fit into a connection before send blocks; None: send never blocks *)
  Definition has_room (cap : option nat) (l : list M) : bool :=
    match cap with None => true | Some c => (length l <? c)%nat end.

  Definition set1 {A} (f : P -> A) (p : P) (a : A) : P -> A := fun q => if peqb q p then a else f q.
  Definition set2 {A} (f : P -> P -> A) (p q : P) (a : A) : P -> P -> A :=
    fun x y => if peqb x p && peqb y q then a else f x y.

  (** one step of process i; None if it has ended or is blocked *)
  Definition exec (cap : P -> P -> option nat) (s : net) (i : P) : option net :=
    match procs s i with
    | Send to m k =>
        if has_room (cap i to) (chans s i to)
        then Some (mkNet (set1 (procs s) i k) (set2 (chans s) i to (chans s i to ++ [m])))
        else None
    | Recv from k =>
        match chans s from i with
        | m :: l => Some (mkNet (set1 (procs s) i (k m)) (set2 (chans s) from i l))
        | [] => None
        end
    | _ => None
    end.

  (** the run given by a schedule: who moves when *)
  Fixpoint runs (cap : P -> P -> option nat) (s : net) (sched : list P) : option net :=
    match sched with
    | [] => Some s
    | i :: sched => match exec cap s i with Some s' => runs cap s' sched | None => None end
    end.
End Net.
Arguments proc P M R : clear implicits.
Arguments net P M R : clear implicits.

(** sequencing *)
Fixpoint pbind {P M A B} (p : proc P M A) (f : A -> proc P M B) : proc P M B :=
  match p with
  | Ret a => f a
  | Fail e => Fail e
  | Send to m k => Send to m (pbind k f)
  | Recv from k => Recv from (fun m => pbind (k m) f)
  end.
Notation "'pdo' x <- e ; k" := (pbind e (fun x => k)) (at level 60, x pattern, e at level 59, right associativity).
(** exception handling: [f] after a normal end, [h] after an exception *)
Fixpoint ptry {P M A B} (p : proc P M A) (f : A -> proc P M B) (h : exn -> proc P M B) : proc P M B :=
  match p with
  | Ret a => f a
  | Fail e => h e
  | Send to m k => Send to m (ptry k f h)
  | Recv from k => Recv from (fun m => ptry (k m) f h)
  end.
Definition lift {P M A} (r : res A) : proc P M A := match r with Ok a => Ret a | Raise e => Fail e end.
Fixpoint pfold {P M A B} (f : A -> B -> proc P M A) (l : list B) (a : A) : proc P M A :=
  match l with [] => Ret a | b :: l => pbind (f a b) (pfold f l) end.
