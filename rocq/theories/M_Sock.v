(** Model of the message framing of qip/distributed/formatsock.py. *)
From Verif Require Import Base.

(** Bytes are numbers between 0 and 255. The locks (qip/distributed/formatsock.py:15-17) make send and recv atomic
    with respect to other calls on the same object: calls are modelled one after the other. closeswapsock, rawsend and
    rawrecv are in M_Swap; the timeouts and fileno are not modelled. *)

(** struct.pack('>i', n): four bytes, most significant first, of the two's complement; struct.error outside int32 *)
Definition pack_i (n : Z) : res (list Z) :=
  if (- 2 ^ 31 <=? n) && (n <? 2 ^ 31) then
    let u := n mod 2 ^ 32 in Ok [u / 2 ^ 24; u / 2 ^ 16 mod 2 ^ 8; u / 2 ^ 8 mod 2 ^ 8; u mod 2 ^ 8]
  else Raise GenericException.
(** struct.unpack('>i', l)[0]; struct.error for other lengths *)
Definition unpack_i (l : list Z) : res Z :=
  match l with
  | [a; b; c; d] => let u := ((a * 2 ^ 8 + b) * 2 ^ 8 + c) * 2 ^ 8 + d in Ok (if (u <? 2 ^ 31) then u else u - 2 ^ 32)
  | _ => Raise GenericException
  end.

(** qip/distributed/formatsock.py:19-32 [send]: the bytes given to sock.sendall; [msg] is bytes *)
Definition send (msg : list Z) : res (list Z) := do h <- pack_i (zlen msg); Ok (h ++ msg).

(** slices l[:n] and l[n:]; a negative n counts from the end *)
Definition slice_to {A} (l : list A) (n : Z) : list A := firstn (Z.to_nat (if (n <? 0) then n + zlen l else n)) l.
Definition slice_from {A} (l : list A) (n : Z) : list A := skipn (Z.to_nat (if (n <? 0) then n + zlen l else n)) l.

(** FormatSocket.SIZE_BYTES (:9) and sys.maxsize *)
Definition SIZE_BYTES : Z := 4.
Definition maxsize : Z := 2 ^ 63 - 1.

(** the receiving side: self.lastbytes, and what the successive calls of self.sock.recv will return; after the last
    one the connection is closed and sock.recv returns no bytes *)
Record conn := mkConn { lastbytes : list Z; incoming : list (list Z) }.

(** qip/distributed/formatsock.py:58-73: the loop and the return *)
Fixpoint recv_loop (incoming : list (list Z)) (total_data msg_data : list Z) (expected_size : Z) : conn * res (list Z) :=
  if (zlen msg_data <? expected_size) then
    match incoming with
    | [] => (mkConn [] [], Raise IOErrorExn)
    | sock_data :: incoming =>
        if (zlen sock_data =? 0) then (mkConn [] incoming, Raise IOErrorExn)
        else
          let total_data := total_data ++ sock_data in
          if (expected_size =? maxsize) && (SIZE_BYTES <? zlen total_data) then
            match unpack_i (slice_to total_data SIZE_BYTES) with
            | Raise e => (mkConn [] incoming, Raise e)
            | Ok expected_size => recv_loop incoming total_data (msg_data ++ slice_from total_data SIZE_BYTES) expected_size
            end
          else recv_loop incoming total_data (msg_data ++ sock_data) expected_size
    end
  else (mkConn (slice_from msg_data expected_size) incoming, Ok (slice_to msg_data expected_size)).

(** qip/distributed/formatsock.py:42-73 [recv] *)
Definition recv (c : conn) : conn * res (list Z) :=
  let total_data := lastbytes c in
  if (SIZE_BYTES <? zlen total_data) then
    match unpack_i (slice_to total_data SIZE_BYTES) with
    | Raise e => (mkConn [] (incoming c), Raise e)
    | Ok expected_size => recv_loop (incoming c) total_data (slice_from total_data SIZE_BYTES) expected_size
    end
  else recv_loop (incoming c) total_data [] maxsize.

(** [k] calls of recv, one after the other *)
Fixpoint recv_many (k : nat) (c : conn) : conn * res (list (list Z)) :=
  match k with
  | O => (c, Ok [])
  | S k => match recv c with
           | (c, Raise e) => (c, Raise e)
           | (c, Ok m) => match recv_many k c with (c, Ok ms) => (c, Ok (m :: ms)) | (c, Raise e) => (c, Raise e) end
           end
  end.
