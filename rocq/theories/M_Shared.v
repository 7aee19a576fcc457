(** One FormatSocket used by several threads: qip/distributed/formatsock.py, on top of M_Sock. A schedule is a sequence of steps,
    each of one thread; [with self.sendlock] and [with self.recvlock] are steps that need the lock to be free. *)
From Verif Require Import Base M_Sock.

(** ** sending *)
(** a thread that calls send: the messages it has still to send, and inside [with self.sendlock] the bytes that sendall has still
    to write *)
Record sthread := mkS { todo : list (list Z); writing : option (list Z) }.
(** [wire]: the bytes given to the operating system so far; [up]: neither closed nor broken *)
Record sending := mkSending { sthreads : list sthread; sendlock : bool; wire : list Z; up : bool }.

Inductive send_step : sending -> sending -> Prop :=
(** qip/distributed/formatsock.py:27-30: the lock is taken and the frame built *)
| st_enter ts w u i m ms frame : nth_error ts i = Some (mkS (m :: ms) None) -> send m = Ok frame ->
    send_step (mkSending ts false w u) (mkSending (upd ts i (mkS ms (Some frame))) true w u)
(** :30: struct.error; the lock is released again and the caller goes on with its next message *)
| st_refused ts w u i m ms e : nth_error ts i = Some (mkS (m :: ms) None) -> send m = Raise e ->
    send_step (mkSending ts false w u) (mkSending (upd ts i (mkS ms None)) false w u)
(** :30: sendall writes some bytes; how many is up to the operating system *)
| st_write ts l w i ms a b : nth_error ts i = Some (mkS ms (Some (a ++ b))) -> a <> [] ->
    send_step (mkSending ts l w true) (mkSending (upd ts i (mkS ms (Some b))) l (w ++ a) true)
(** :30: sendall has written everything *)
| st_leave ts l w u i ms : nth_error ts i = Some (mkS ms (Some [])) ->
    send_step (mkSending ts l w u) (mkSending (upd ts i (mkS ms None)) false w u)
(** :30: sendall raises; the lock is released and the caller goes on *)
| st_error ts l w i ms rest : nth_error ts i = Some (mkS ms (Some rest)) ->
    send_step (mkSending ts l w false) (mkSending (upd ts i (mkS ms None)) false w false)
(** :87-90 [close] *)
| st_close ts w u : send_step (mkSending ts false w u) (mkSending ts false w false)
(** the connection breaks *)
| st_break ts l w u : send_step (mkSending ts l w u) (mkSending ts l w false).

(** ** receiving *)
(** a thread that calls recv: how many calls it has still to make, and inside [with self.recvlock] the variables total_data,
    msg_data and expected_size *)
Record rthread := mkR { calls : nat; reading : option (list Z * list Z * Z) }.
(** [rconn]: self.lastbytes and what is to come; [results]: the thread and the result of every call, in the order in which they end *)
Record receiving := mkReceiving { rthreads : list rthread; recvlock : bool; rconn : conn; results : list (nat * res (list Z)) }.

Section Recv.
  (** may sock.recv raise socket.timeout? (:92-95 settimeout) *)
  Variable timeouts : bool.
  Inductive recv_step : receiving -> receiving -> Prop :=
  (** :48-56: the lock is taken, lastbytes is taken over *)
  | rt_enter ts c rs i k : nth_error ts i = Some (mkR (S k) None) -> zlen (lastbytes c) <= SIZE_BYTES ->
      recv_step (mkReceiving ts false c rs)
        (mkReceiving (upd ts i (mkR k (Some (lastbytes c, [], maxsize)))) true (mkConn [] (incoming c)) rs)
  | rt_enter_known ts c rs i k size : nth_error ts i = Some (mkR (S k) None) -> SIZE_BYTES < zlen (lastbytes c) ->
      unpack_i (slice_to (lastbytes c) SIZE_BYTES) = Ok size ->
      recv_step (mkReceiving ts false c rs)
        (mkReceiving (upd ts i (mkR k (Some (lastbytes c, slice_from (lastbytes c) SIZE_BYTES, size)))) true (mkConn [] (incoming c)) rs)
  (** :58-70: one round of the loop *)
  | rt_read ts l lb s segs rs i k total msg size : nth_error ts i = Some (mkR k (Some (total, msg, size))) -> zlen msg < size -> s <> [] ->
      ~ (size = maxsize /\ SIZE_BYTES < zlen (total ++ s)) ->
      recv_step (mkReceiving ts l (mkConn lb (s :: segs)) rs)
        (mkReceiving (upd ts i (mkR k (Some (total ++ s, msg ++ s, size)))) l (mkConn lb segs) rs)
  | rt_read_size ts l lb s segs rs i k total msg size' : nth_error ts i = Some (mkR k (Some (total, msg, maxsize))) -> zlen msg < maxsize ->
      s <> [] -> SIZE_BYTES < zlen (total ++ s) -> unpack_i (slice_to (total ++ s) SIZE_BYTES) = Ok size' ->
      recv_step (mkReceiving ts l (mkConn lb (s :: segs)) rs)
        (mkReceiving (upd ts i (mkR k (Some (total ++ s, msg ++ slice_from (total ++ s) SIZE_BYTES, size')))) l (mkConn lb segs) rs)
  (** :60-61: the connection has ended *)
  | rt_ended ts l lb rs i k total msg size : nth_error ts i = Some (mkR k (Some (total, msg, size))) -> zlen msg < size ->
      recv_step (mkReceiving ts l (mkConn lb []) rs)
        (mkReceiving (upd ts i (mkR k None)) false (mkConn lb []) (rs ++ [(i, Raise IOErrorExn)]))
  (** :71-73: the return *)
  | rt_leave ts l c rs i k total msg size : nth_error ts i = Some (mkR k (Some (total, msg, size))) -> size <= zlen msg ->
      recv_step (mkReceiving ts l c rs)
        (mkReceiving (upd ts i (mkR k None)) false (mkConn (slice_from msg size) (incoming c)) (rs ++ [(i, Ok (slice_to msg size))]))
  (** :59: socket.timeout; the variables of the call are lost *)
  | rt_timeout ts l c rs i k total msg size : timeouts = true -> nth_error ts i = Some (mkR k (Some (total, msg, size))) -> zlen msg < size ->
      recv_step (mkReceiving ts l c rs)
        (mkReceiving (upd ts i (mkR k None)) false c (rs ++ [(i, Raise GenericException)])).
End Recv.
