(** Property C108: the start of a connection to the manager. *)
From Coq Require Import String.
From Verif Require Import Base M_Sock S_Sock.
Local Close Scope string_scope.
From Verif Require Import M_Hello S_Hello L_Hello.

(** However the network cuts the bytes, a host takes exactly the first byte, and wraps its socket if and only if the
    manager does. *)
Theorem C108_agree_partial : forall ssl bytes pieces,
  concat pieces = greeting ssl ++ bytes -> (forall p, In p pieces -> p <> []) ->
  exists rest, without_first pieces rest /\ concat rest = bytes /\
    connect pieces = if ssl then Wrapped rest else Plain (mkConn [] rest).
Proof. exact agree. Qed.
Print Assumptions C108_agree_partial.
(** Connections are encrypted only if the manager was given the names of both a certificate and a key; with one of them
    it goes on without encryption. *)
Theorem C108_encrypted : forall certfile keyfile bytes pieces,
  concat pieces = greeting (server_ssl certfile keyfile) ++ bytes -> (forall p, In p pieces -> p <> []) ->
  ((exists rest, connect pieces = Wrapped rest) <-> exists a c b k, certfile = Some (String.String a c) /\ keyfile = Some (String.String b k)).
Proof. exact encrypted. Qed.
Print Assumptions C108_encrypted.
Example C108_encrypted_ex :
  greeting (server_ssl (Some "host.crt"%string) (Some "host.key"%string)) = [1] /\
  greeting (server_ssl (Some "host.crt"%string) None) = [0] /\ connect [[0; 0]; [0; 0; 1; 5]] = Plain (mkConn [] [[0]; [0; 0; 1; 5]]).
Proof. repeat split. Qed.
(** The messages that follow arrive as they were sent, also when the first byte comes in one piece with them. The
    condition on the pieces is the one of C39. *)
Theorem C108_messages_partial : forall msgs frames pieces, mmap send msgs = Ok frames ->
  concat pieces = greeting false ++ concat frames -> (forall p, In p pieces -> p <> []) -> last msgs [0] <> [] ->
  (forall rest, without_first pieces rest -> headers_not_cut_twice msgs rest) ->
  exists c, connect pieces = Plain c /\ recv_many (List.length msgs) c = (mkConn [] [], Ok msgs).
Proof. exact plain_messages. Qed.
Print Assumptions C108_messages_partial.
(** The manager reads the introduction of the host as it was sent, if more than its length arrives at first. *)
Theorem C108_introduced_partial : forall info cut, info <> [] -> zlen info < 2 ^ 31 ->
  concat (cut (framed info)) = framed info -> (forall p, In p (cut (framed info)) -> p <> []) ->
  (forall p rest, cut (framed info) = p :: rest -> 4 < zlen p) -> introduce info cut = Ok info.
Proof. exact introduced. Qed.
Print Assumptions C108_introduced_partial.
Example C108_ex : let msgs := [[7; 8]; [1; 2; 3]] in
  let pieces := [[0; 0; 0; 0; 2; 7]; [8; 0; 0; 0; 3; 1]; [2; 3]] in
  mmap send msgs = Ok (map framed msgs) /\ concat pieces = greeting false ++ concat (map framed msgs) /\
  (forall rest, without_first pieces rest -> rest = [[0; 0; 0; 2; 7]; [8; 0; 0; 0; 3; 1]; [2; 3]]) /\
  connect pieces = Plain (mkConn [] [[0; 0; 0; 2; 7]; [8; 0; 0; 0; 3; 1]; [2; 3]]) /\
  recv_many 2 (mkConn [] [[0; 0; 0; 2; 7]; [8; 0; 0; 0; 3; 1]; [2; 3]]) = (mkConn [] [], Ok msgs) /\
  connect [[1]; [22; 3]] = Wrapped [[22; 3]] /\
  introduce [7; 8] (fun l => [firstn 5 l; skipn 5 l]) = Ok [7; 8].
Proof. repeat split. intros rest H. inversion H. reflexivity. Qed.
Example C108_cut_ex : headers_not_cut_twice [[7; 8]; [1; 2; 3]] [[0; 0; 0; 2; 7]; [8; 0; 0; 0; 3; 1]; [2; 3]].
Proof.
  intros before m after pre s post Eb Es.
  destruct before as [|x [|y before]]; [| |destruct before; discriminate];
    destruct pre as [|p [|q [|r pre]]]; try (destruct pre; discriminate); injection Eb; injection Es; intros; subst;
    cbv zeta; intros [H1 H2]; vm_compute in H1, H2; congruence.
Qed.

(** C108 is false of the code: when the manager closes the connection before its greeting, the host does not notice. It
    takes the missing byte for one that asks for encryption. *)
Theorem C108_refuted : ~ (forall pieces rest, connect pieces = Wrapped rest -> exists b bytes, b <> 0 /\ concat pieces = b :: bytes).
Proof. intros H. destruct (H [] [] eq_refl) as (b & bytes & _ & E). discriminate E. Qed.
Print Assumptions C108_refuted.
(** A host that sends the first bytes of the length of its introduction by themselves is not understood. *)
Theorem C108_introduced_refuted : ~ (forall info cut, info <> [] -> zlen info < 2 ^ 31 ->
  concat (cut (framed info)) = framed info -> (forall p, In p (cut (framed info)) -> p <> []) -> introduce info cut = Ok info).
Proof.
  intros H. specialize (H [7; 8] (fun l => [firstn 1 l; skipn 1 l])). assert (E : Ok [0; 7] = Ok [7; 8]); [|discriminate E].
  apply H; try discriminate; try reflexivity. intros p [<-|[<-|[]]]; discriminate.
Qed.
Print Assumptions C108_introduced_refuted.
