(** Specification for connections that several threads use. *)
From Verif Require Import Base M_Shared.

Inductive steps {A} (step : A -> A -> Prop) : A -> A -> Prop :=
| steps_refl s : steps step s s
| steps_one s1 s2 s3 : steps step s1 s2 -> step s2 s3 -> steps step s1 s3.

(** threads that are going to send the given messages *)
Definition senders (progs : list (list (list Z))) : sending := mkSending (map (fun ms => mkS ms None) progs) false [] true.
(** threads that are going to call recv so many times each; [segs] is what sock.recv will return *)
Definition receivers (counts : list nat) (segs : list (list Z)) : receiving :=
  mkReceiving (map (fun k => mkR k None) counts) false (M_Sock.mkConn [] segs) [].
(** the part of a log that belongs to thread i *)
Definition of_thread {A} (i : nat) (log : list (nat * A)) : list A := map snd (filter (fun e => Nat.eqb (fst e) i) log).
(** nobody has anything left to do *)
Definition all_sent (s : sending) : Prop := Forall (fun t => t = mkS [] None) (sthreads s).
Definition all_received (r : receiving) : Prop := Forall (fun t => t = mkR 0 None) (rthreads r).
Definition is_prefix {A} (a b : list A) : Prop := exists c, b = a ++ c.

(** messages that fit the four length bytes *)
Definition fits (m : list Z) : bool := zlen m <? 2 ^ 31.
(** what the threads have still to do: bytes to write, locks to take and to release *)
Definition send_work (s : sending) : Z :=
  fold_right Z.add 0 (map (fun t => fold_right Z.add 0 (map (fun m => zlen m + 6) (todo t)) +
                             match writing t with None => 0 | Some rest => zlen rest + 1 end) (sthreads s)).
Definition recv_work (r : receiving) : nat :=
  list_sum (map (fun t => 2 * calls t + match reading t with None => 0 | Some _ => 1 end)%nat (rthreads r))
  + length (M_Sock.incoming (rconn r)).
(** k calls of recv by a single thread that goes on after exceptions *)
Fixpoint recv_calls (k : nat) (c : M_Sock.conn) : M_Sock.conn * list (res (list Z)) :=
  match k with
  | O => (c, [])
  | S k => let '(c, rs) := recv_calls k c in let '(c, r) := M_Sock.recv c in (c, rs ++ [r])
  end.
