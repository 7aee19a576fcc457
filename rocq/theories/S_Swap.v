(** Specification of connections that are replaced. *)
From Verif Require Import Base M_Sock S_Sock.

(** a connection: the messages that the other side sends before it ends the connection, how they arrive, and whether the program reads
    once more, and so finds that the connection has ended *)
Record link := mkLink { l_msgs : list (list Z); l_segs : list (list Z); l_again : bool }.
(** the conditions under which framing works (C39) *)
Definition link_ok (l : link) : Prop :=
  (forall m, In m (l_msgs l) -> zlen m < 2 ^ 31) /\ concat (l_segs l) = concat (map framed (l_msgs l)) /\
  (forall s, In s (l_segs l) -> s <> []) /\ headers_not_cut_twice (l_msgs l) (l_segs l) /\ last (l_msgs l) [0] <> [].
Definition link_reads (l : link) : nat := (length (l_msgs l) + if l_again l then 1 else 0)%nat.
Definition link_results (l : link) : list (res (list Z)) := map Ok (l_msgs l) ++ if l_again l then [Raise IOErrorExn] else [].
