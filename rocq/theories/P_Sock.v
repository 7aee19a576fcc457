(** Property C39: message framing. *)
From Verif Require Import Base M_Sock S_Sock L_Sock.

(** The full property has no condition on the segmentation; it is false (below). Proved: for every segmentation in
    which no segment lies inside the length bytes of a message, and unless the last message is empty, exactly the
    messages come out, in order, and nothing is left over. *)
Theorem C39_partial : forall msgs frames segs, mmap send msgs = Ok frames -> concat segs = concat frames ->
  (forall s, In s segs -> s <> []) -> headers_not_cut_twice msgs segs -> last msgs [0] <> [] ->
  recv_many (length msgs) (mkConn [] segs) = (mkConn [] [], Ok msgs).
Proof. exact all_arrive. Qed.
Print Assumptions C39_partial.
(** three messages (one empty) in three segments, cutting the second header and the third message *)
Example C39_ex : let msgs := [[7; 8]; []; [1; 2; 3]] in
  let segs := [[0; 0; 0; 2; 7; 8; 0; 0]; [0; 0; 0; 0; 0; 3; 1; 2]; [3]] in
  mmap send msgs = Ok (map framed msgs) /\ concat segs = concat (map framed msgs) /\ headers_not_cut_twice msgs segs /\
  recv_many 3 (mkConn [] segs) = (mkConn [] [], Ok msgs).
Proof.
  cbv zeta. split; [reflexivity|]. split; [reflexivity|]. split; [|reflexivity].
  intros before m after pre s post E1 E2.
  destruct before as [|b1 [|b2 [|b3 before]]]; [| | |exfalso; apply (f_equal (@length _)) in E1; rewrite app_length in E1; cbn in E1; lia];
  (destruct pre as [|p1 [|p2 [|p3 pre]]]; [| | |exfalso; apply (f_equal (@length _)) in E2; rewrite app_length in E2; cbn in E2; lia]);
  cbn [app] in E1, E2; injection E1 as; injection E2 as; subst; cbv zeta; vm_compute; intros [H1 H2]; solve [apply H1; reflexivity|apply H2; reflexivity].
Qed.

(** sending fails exactly for messages of 2**31 bytes and more *)
Theorem C39_send : forall msg, (zlen msg < 2 ^ 31 -> send msg = Ok (framed msg)) /\ (2 ^ 31 <= zlen msg -> send msg = Raise GenericException).
Proof. exact (fun msg => conj (send_ok msg) (send_err msg)). Qed.
Print Assumptions C39_send.

(** false in general: when the first byte arrives alone, recv returns something else, whatever the message and
    however the rest is cut *)
Theorem C39_refuted : forall msg frame b segs, 0 < zlen msg < 2 ^ 24 -> hd 0 msg <> 0 -> send msg = Ok frame -> (forall s, In s segs -> s <> []) ->
  [b] ++ concat segs = frame -> exists c m', recv (mkConn [] ([b] :: segs)) = (c, Ok m') /\ m' <> msg.
Proof. exact corrupted. Qed.
Print Assumptions C39_refuted.
Example C39_refuted_ex : send [7; 8] = Ok [0; 0; 0; 2; 7; 8] /\ recv (mkConn [] [[0]; [0; 0; 2; 7; 8]]) = (mkConn [8] [], Ok [0; 7]).
Proof. split; reflexivity. Qed.

(** an empty message is not received before the next one arrives: recv waits, and fails when the connection ends *)
Theorem C39_empty_refuted : forall segs, send [] = Ok (framed []) /\ (concat segs = framed [] -> (forall s, In s segs -> s <> []) ->
  snd (recv (mkConn [] segs)) = Raise IOErrorExn).
Proof. exact (fun segs => conj eq_refl (empty_late segs)). Qed.
Print Assumptions C39_empty_refuted.
