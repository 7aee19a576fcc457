(** Model of FormatSocket.closeswapsock, rawsend and rawrecv (qip/distributed/formatsock.py:34-40, 75-81), on top of M_Sock. Calls are
    made one after the other. *)
From Verif Require Import Base M_Sock.

(** qip/distributed/formatsock.py:34-40 [closeswapsock]: only self.sock is replaced. [segs]: what sock.recv of the new socket will
    return. *)
Definition closeswapsock (c : conn) (segs : list (list Z)) : conn := mkConn (lastbytes c) segs.

(** sock.recv(size) for size > 0: at most size bytes; what does not fit stays with the operating system *)
Definition sock_recv (size : Z) (segs : list (list Z)) : list Z * list (list Z) :=
  match segs with
  | [] => ([], [])
  | s :: segs => if zlen s <=? size then (s, segs) else (firstn (Z.to_nat size) s, skipn (Z.to_nat size) s :: segs)
  end.
(** qip/distributed/formatsock.py:79-81 [rawrecv] *)
Definition rawrecv (c : conn) (size : Z) : conn * list Z :=
  let '(d, segs) := sock_recv size (incoming c) in (mkConn (lastbytes c) segs, d).

(** qip/distributed/formatsock.py:75-77 [rawsend]: sock.send accepts as many bytes as the operating system has room for, and returns how
    many ([accepted]); rawsend ignores it. The result: the bytes that were sent. *)
Definition rawsend (accepted : nat) (bs : list Z) : list Z := firstn accepted bs.

(** calls of recv whose exceptions are caught *)
Fixpoint recv_each (k : nat) (c : conn) : conn * list (res (list Z)) :=
  match k with
  | O => (c, [])
  | S k => let '(c, r) := recv c in let '(c, rs) := recv_each k c in (c, r :: rs)
  end.
(** a program that uses one object for several connections, one after the other: what the connection delivers, and how often recv is
    called before the next one *)
Fixpoint reads (c : conn) (plan : list (list (list Z) * nat)) : list (list (res (list Z))) :=
  match plan with
  | [] => []
  | (segs, k) :: plan => let '(c, rs) := recv_each k (closeswapsock c segs) in rs :: reads c plan
  end.
