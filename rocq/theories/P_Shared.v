(** Property C91: one connection used by several threads. *)
From Verif Require Import Base M_Sock S_Sock M_Shared S_Shared L_Shared.

(** at every moment of every schedule the bytes on the connection are whole frames of messages that were sent, those of each thread
    in its order, followed by a part of one frame; nothing is cut while nobody is sending, and when all calls have returned all
    messages are there, unless the connection is closed or broken *)
Theorem C91_sent : forall progs s, steps send_step (senders progs) s ->
  exists log part, wire s = concat (map framed (map snd log)) ++ part /\
    (exists m, is_prefix part (framed m)) /\
    (forall e, In e log -> (fst e < length progs)%nat) /\
    (forall i prog, nth_error progs i = Some prog -> is_prefix (of_thread i log) (filter fits prog)) /\
    (up s = true -> sendlock s = false -> part = []) /\
    (up s = true -> all_sent s -> part = [] /\ forall i prog, nth_error progs i = Some prog -> of_thread i log = filter fits prog).
Proof. exact sent_whole. Qed.
Print Assumptions C91_sent.
(** senders never wait for each other forever: some thread can always go on, and every step of a thread leaves less to do *)
Theorem C91_send_ends : forall progs s, steps send_step (senders progs) s ->
  (~ all_sent s -> exists s', send_step s s' /\ up s' = up s /\ send_work s' < send_work s) /\
  (forall s', send_step s s' -> send_work s' < send_work s \/ sthreads s' = sthreads s).
Proof. exact (fun progs s H => conj (send_progress progs s H) (step_work s)). Qed.
Print Assumptions C91_send_ends.

(** whatever the schedule, the calls of recv by several threads return what the same number of calls by one thread returns *)
Theorem C91_received : forall counts segs r, steps (recv_step false) (receivers counts segs) r ->
  map snd (results r) = snd (recv_calls (length (results r)) (mkConn [] segs)).
Proof. exact received_in_turn. Qed.
Print Assumptions C91_received.
Theorem C91_recv_ends : forall counts segs r, (forall x, In x segs -> x <> []) -> steps (recv_step false) (receivers counts segs) r ->
  (~ all_received r -> exists r', recv_step false r r') /\ (forall r', recv_step false r r' -> (recv_work r' < recv_work r)%nat).
Proof. exact (fun counts segs r Hs H => conj (recv_progress counts segs r Hs H) (recv_decreases false r)). Qed.
Print Assumptions C91_recv_ends.

(** Both ends: the full property has no condition on the segments (see C39). Proved for segments that do not lie inside the length
    bytes of a message: every message is received once, by one of the threads, in one order that keeps the order of each sender. *)
Theorem C91_partial : forall progs s segs, steps send_step (senders progs) s -> up s = true -> all_sent s ->
  concat segs = wire s -> (forall x, In x segs -> x <> []) ->
  exists log, concat segs = concat (map framed (map snd log)) /\ (forall e, In e log -> (fst e < length progs)%nat) /\
    (forall i prog, nth_error progs i = Some prog -> of_thread i log = filter fits prog) /\
    (headers_not_cut_twice (map snd log) segs -> last (map snd log) [0] <> [] ->
     forall counts r, (list_sum counts <= length log)%nat -> steps (recv_step false) (receivers counts segs) r ->
       map snd (results r) = map Ok (firstn (length (results r)) (map snd log))).
Proof. exact all_threads. Qed.
Print Assumptions C91_partial.

(** With a timeout (settimeout) it is false: the bytes read before the timeout are lost, and the next call takes what follows for the
    length of a message. For every message that ends with 0 and is cut before this byte, and every short message behind it, the call
    after the timeout returns an empty message, which nobody sent. *)
Theorem C91_timeout_refuted : forall a m2, 0 < zlen m2 < 256 -> zlen a < 2 ^ 31 - 1 ->
  let m1 := a ++ [0] in let s1 := firstn (length a + 4) (framed m1) in let s2 := [0] ++ framed m2 in
  s1 ++ s2 = framed m1 ++ framed m2 /\
  exists r, steps (recv_step true) (receivers [2%nat] [s1; s2]) r /\ results r = [(0%nat, Raise GenericException); (0%nat, Ok [])].
Proof. exact timed_out. Qed.
Print Assumptions C91_timeout_refuted.

(** two senders: the first is interrupted in the middle of its first message, the second has to wait; then two receivers *)
Definition ex_progs : list (list (list Z)) := [[[7; 8]; []]; [[1; 2; 3]]].
Definition ex_wire : list Z := [0; 0; 0; 2; 7; 8; 0; 0; 0; 0; 0; 0; 0; 3; 1; 2; 3].
Example C91_ex_sent : exists s, steps send_step (senders ex_progs) s /\ up s = true /\ all_sent s /\ wire s = ex_wire.
Proof.
  exists (mkSending [mkS [] None; mkS [] None] false ex_wire true). repeat split; [|repeat constructor].
  assert (A : forall s1 s2 s3, send_step s2 s3 -> steps send_step s1 s2 -> steps send_step s1 s3) by (intros; eapply steps_one; eauto).
  eapply A; [apply (st_leave [mkS [] None; mkS [] (Some [])] true ex_wire true 1 []); reflexivity|].
  eapply A; [apply (st_write [mkS [] None; mkS [] (Some [0; 0; 0; 3; 1; 2; 3])] true [0; 0; 0; 2; 7; 8; 0; 0; 0; 0] 1 [] [0; 0; 0; 3; 1; 2; 3] []); [reflexivity|discriminate]|].
  eapply A; [apply (st_enter [mkS [] None; mkS [[1; 2; 3]] None] [0; 0; 0; 2; 7; 8; 0; 0; 0; 0] true 1 [1; 2; 3] []); reflexivity|].
  eapply A; [apply (st_leave [mkS [] (Some []); mkS [[1; 2; 3]] None] true [0; 0; 0; 2; 7; 8; 0; 0; 0; 0] true 0 []); reflexivity|].
  eapply A; [apply (st_write [mkS [] (Some [0; 0; 0; 0]); mkS [[1; 2; 3]] None] true [0; 0; 0; 2; 7; 8] 0 [] [0; 0; 0; 0] []); [reflexivity|discriminate]|].
  eapply A; [apply (st_enter [mkS [[]] None; mkS [[1; 2; 3]] None] [0; 0; 0; 2; 7; 8] true 0 [] []); reflexivity|].
  eapply A; [apply (st_leave [mkS [[]] (Some []); mkS [[1; 2; 3]] None] true [0; 0; 0; 2; 7; 8] true 0 [[]]); reflexivity|].
  eapply A; [apply (st_write [mkS [[]] (Some [2; 7; 8]); mkS [[1; 2; 3]] None] true [0; 0; 0] 0 [[]] [2; 7; 8] []); [reflexivity|discriminate]|].
  eapply A; [apply (st_write [mkS [[]] (Some [0; 0; 0; 2; 7; 8]); mkS [[1; 2; 3]] None] true [] 0 [[]] [0; 0; 0] [2; 7; 8]); [reflexivity|discriminate]|].
  eapply A; [apply (st_enter [mkS [[7; 8]; []] None; mkS [[1; 2; 3]] None] [] true 0 [7; 8] [[]]); reflexivity|].
  apply steps_refl.
Qed.
Example C91_ex_received : exists r, steps (recv_step false) (receivers [1; 1]%nat [[0; 0; 0; 2; 7; 8; 0; 0; 0]; [0; 0; 0; 0; 3; 1; 2; 3]]) r /\
  results r = [(1%nat, Ok [7; 8]); (0%nat, Ok [])].
Proof.
  exists (mkReceiving [mkR 0 None; mkR 0 None] false (mkConn [0; 0; 0; 3; 1; 2; 3] []) [(1%nat, Ok [7; 8]); (0%nat, Ok [])]). split; [|reflexivity].
  assert (A : forall s1 s2 s3, recv_step false s2 s3 -> steps (recv_step false) s1 s2 -> steps (recv_step false) s1 s3) by (intros; eapply steps_one; eauto).
  eapply A; [apply (rt_leave false [mkR 0 (Some ([0; 0; 0; 0; 0; 0; 0; 3; 1; 2; 3], [0; 0; 0; 3; 1; 2; 3], 0)); mkR 0 None] true (mkConn [] []) [(1%nat, Ok [7; 8])] 0 0 [0; 0; 0; 0; 0; 0; 0; 3; 1; 2; 3] [0; 0; 0; 3; 1; 2; 3] 0); [reflexivity|vm_compute; discriminate]|].
  eapply A; [apply (rt_read_size false [mkR 0 (Some ([0; 0; 0], [], maxsize)); mkR 0 None] true [] [0; 0; 0; 0; 3; 1; 2; 3] [] [(1%nat, Ok [7; 8])] 0 0 [0; 0; 0] [] 0);
    [reflexivity|reflexivity|discriminate|reflexivity|reflexivity]|].
  eapply A; [apply (rt_enter false [mkR 1 None; mkR 0 None] (mkConn [0; 0; 0] [[0; 0; 0; 0; 3; 1; 2; 3]]) [(1%nat, Ok [7; 8])] 0 0); [reflexivity|vm_compute; discriminate]|].
  eapply A; [apply (rt_leave false [mkR 1 None; mkR 0 (Some ([0; 0; 0; 2; 7; 8; 0; 0; 0], [7; 8; 0; 0; 0], 2))] true (mkConn [] [[0; 0; 0; 0; 3; 1; 2; 3]]) [] 1 0 [0; 0; 0; 2; 7; 8; 0; 0; 0] [7; 8; 0; 0; 0] 2); [reflexivity|vm_compute; discriminate]|].
  eapply A; [apply (rt_read_size false [mkR 1 None; mkR 0 (Some ([], [], maxsize))] true [] [0; 0; 0; 2; 7; 8; 0; 0; 0] [[0; 0; 0; 0; 3; 1; 2; 3]] [] 1 0 [] [] 2);
    [reflexivity|reflexivity|discriminate|reflexivity|reflexivity]|].
  eapply A; [apply (rt_enter false [mkR 1 None; mkR 1 None] (mkConn [] [[0; 0; 0; 2; 7; 8; 0; 0; 0]; [0; 0; 0; 0; 3; 1; 2; 3]]) [] 1 0); [reflexivity|vm_compute; discriminate]|].
  apply steps_refl.
Qed.
(** the condition on the segments holds for this division of the bytes *)
Example C91_ex_segments : let segs := [[0; 0; 0; 2; 7; 8; 0; 0; 0]; [0; 0; 0; 0; 3; 1; 2; 3]] in
  concat segs = ex_wire /\ headers_not_cut_twice [[7; 8]; []; [1; 2; 3]] segs /\ last [[7; 8]; []; [1; 2; 3]] [0] <> [].
Proof.
  cbv zeta. split; [reflexivity|]. split; [|discriminate].
  intros before m after pre s post E1 E2.
  destruct before as [|b1 [|b2 [|b3 before]]]; [| | |exfalso; apply (f_equal (@length _)) in E1; rewrite app_length in E1; cbn in E1; lia];
  (destruct pre as [|p1 [|p2 pre]]; [| |exfalso; apply (f_equal (@length _)) in E2; rewrite app_length in E2; cbn in E2; lia]);
  cbn [app] in E1, E2; injection E1 as; injection E2 as; subst; cbv zeta; vm_compute; intros [H1 H2]; solve [apply H1; reflexivity|apply H2; reflexivity].
Qed.
