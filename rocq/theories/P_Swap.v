(** Property C99: connections that are replaced, and raw reads and writes. *)
From Verif Require Import Base M_Sock S_Sock L_Sock M_Swap S_Swap L_Swap.

(** Proved: one object can serve any number of connections one after the other, provided all the messages of a connection have been
    received (or the connection is found to have ended) before the next one is put in its place. The full property has no such
    condition; it is false (below). *)
Theorem C99_swaps_partial : forall links, (forall l, In l links -> link_ok l) ->
  reads (mkConn [] []) (map (fun l => (l_segs l, link_reads l)) links) = map link_results links.
Proof. exact (fun links H => links_read links H []). Qed.
Print Assumptions C99_swaps_partial.
Definition exs_links : list link := [mkLink [[7; 8]; [9]] [[0; 0; 0; 2; 7]; [8; 0; 0; 0; 1; 9]] true; mkLink [[5]] [[0; 0; 0; 1; 5]] false].
Lemma cut_check (msgs segs : list (list Z)) :
  forallb (fun i => forallb (fun j => let start := zlen (concat (map framed (firstn i msgs))) in let a := zlen (concat (firstn j segs)) in
    negb ((start <=? a) && (a + zlen (nth j segs []) <=? start + 4))) (seq 0 (length segs))) (seq 0 (length msgs)) = true -> headers_not_cut_twice msgs segs.
Proof.
  intros H before m after pre s post E1 E2. cbv zeta. rewrite forallb_forall in H. specialize (H (length before)). rewrite forallb_forall in H.
  specialize (H ltac:(apply in_seq; subst; rewrite app_length; cbn; lia) (length pre) ltac:(apply in_seq; subst; rewrite app_length; cbn; lia)). cbv zeta in H.
  subst msgs segs. rewrite !firstn_app, !Nat.sub_diag, !firstn_all, app_nth2, Nat.sub_diag in H by lia. cbn [firstn nth] in H. rewrite !app_nil_r in H. intros [A B].
  apply negb_true_iff, andb_false_iff in H. destruct H as [H|H]; apply Z.leb_gt in H; lia.
Qed.
Example C99_swaps_ex : (forall l, In l exs_links -> link_ok l) /\
  reads (mkConn [] []) [([[0; 0; 0; 2; 7]; [8; 0; 0; 0; 1; 9]], 3%nat); ([[0; 0; 0; 1; 5]], 1%nat)] = [[Ok [7; 8]; Ok [9]; Raise IOErrorExn]; [Ok [5]]].
Proof.
  split; [|vm_compute; reflexivity]. intros l [<-|[<-|[]]]; cbn [l_msgs l_segs].
  - split; [intros m [<-|[<-|[]]]; reflexivity|]. split; [reflexivity|]. split; [intros s [<-|[<-|[]]]; discriminate|]. split; [apply cut_check; vm_compute; reflexivity|discriminate].
  - split; [intros m [<-|[]]; reflexivity|]. split; [reflexivity|]. split; [intros s [<-|[]]; discriminate|]. split; [apply cut_check; vm_compute; reflexivity|discriminate].
Qed.

(** after a recv that raised, whatever it had read before, a replaced connection is like that of a new object *)
Theorem C99_after_error : forall c c' e segs, recv c = (c', Raise e) -> closeswapsock c' segs = mkConn [] segs.
Proof. exact recv_raise. Qed.
Print Assumptions C99_after_error.
Example C99_after_error_ex : recv (mkConn [0; 0; 0; 9; 1] [[2; 3]]) = (mkConn [] [], Raise IOErrorExn).
Proof. reflexivity. Qed.

(** false in general: if more than the messages that were received has arrived, it stays. A whole message of the old connection is
    received from the new one, whatever that delivers *)
Theorem C99_old_message_refuted : forall m rest old segs, 0 < zlen m < 2 ^ 31 -> (forall s, In s segs -> s <> []) ->
  snd (recv (closeswapsock (mkConn (framed m ++ rest) old) segs)) = Ok m.
Proof. exact old_message. Qed.
Print Assumptions C99_old_message_refuted.
(** and the beginning of a message is completed with bytes of the new connection *)
Theorem C99_mixed_refuted : forall m lb lost old segs, zlen m < 2 ^ 31 -> framed m = lb ++ lost -> 4 < zlen lb -> (forall s, In s segs -> s <> []) ->
  (length lost <= length (concat segs))%nat ->
  snd (recv (closeswapsock (mkConn lb old) segs)) = Ok (skipn 4 lb ++ firstn (length lost) (concat segs)).
Proof. exact mixed_message. Qed.
Print Assumptions C99_mixed_refuted.
(** two messages in one segment, of which one is received: the other one comes out of the new connection; and the same with half of it *)
Example C99_refuted_ex :
  reads (mkConn [] []) [([[0; 0; 0; 1; 7; 0; 0; 0; 2; 8; 9]], 1%nat); ([[0; 0; 0; 1; 5]], 2%nat)] = [[Ok [7]]; [Ok [8; 9]; Ok [5]]] /\
  reads (mkConn [] []) [([[0; 0; 0; 1; 7; 0; 0; 0; 2; 8]], 1%nat); ([[0; 0; 0; 1; 5]], 1%nat)] = [[Ok [7]]; [Ok [8; 0]]].
Proof. split; vm_compute; reflexivity. Qed.

(** rawrecv: the next bytes of the stream, if recv has left none over *)
Theorem C99_rawrecv_partial : forall c size, 0 < size -> (forall s, In s (incoming c) -> s <> []) -> lastbytes c = [] ->
  let '(c', d) := rawrecv c size in d ++ lastbytes c' ++ concat (incoming c') = concat (incoming c) /\ zlen d <= size /\ (incoming c <> [] -> d <> []).
Proof. exact rawrecv_stream. Qed.
Print Assumptions C99_rawrecv_partial.
(** otherwise it skips them: they are given to the next recv *)
Theorem C99_rawrecv_refuted : forall c size, 0 < size -> (forall s, In s (incoming c) -> s <> []) ->
  let '(c', d) := rawrecv c size in lastbytes c' = lastbytes c /\ d ++ concat (incoming c') = concat (incoming c) /\ (incoming c <> [] -> d <> []).
Proof. exact rawrecv_skips. Qed.
Print Assumptions C99_rawrecv_refuted.
Example C99_rawrecv_ex : let c := fst (recv (mkConn [] [[0; 0; 0; 1; 7; 1; 2; 3]; [4; 5; 6]])) in
  c = mkConn [1; 2; 3] [[4; 5; 6]] /\ snd (rawrecv c 2) = [4; 5] /\ rawrecv (mkConn [] [[4; 5; 6]]) 2 = (mkConn [] [[6]], [4; 5]).
Proof. vm_compute. auto. Qed.

(** rawsend may lose the end of what it is given (two bytes or more) without a sign *)
Theorem C99_rawsend_refuted : forall bs, (1 < length bs)%nat -> exists accepted lost, (0 < accepted)%nat /\ lost <> [] /\ rawsend accepted bs ++ lost = bs.
Proof. intros [|a [|b l]] H; cbn in H; try lia. exists 1%nat, (b :: l). split; [lia|]. split; [discriminate|reflexivity]. Qed.
Print Assumptions C99_rawsend_refuted.
Example C99_rawsend_ex : rawsend 2 [1; 2; 3] = [1; 2].
Proof. reflexivity. Qed.
