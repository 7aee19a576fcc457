(** State transfers between two workers: C44, C45. *)
From Verif Require Import Base M_Net S_Net M_Worker S_Worker L_Transfer.

(** Worker i sends states to worker j, one after the other over one connection, j overwrites or increments its own
    state; under every schedule both ends are reached, and j holds the states sent. Data connections hold at least one
    message; the connection for acknowledgements holds what earlier transfers left ([stale]) and one message per
    amplitude and transfer (or any number). Sizes are powers of two in the code, so size 0 does not occur. *)
Theorem C44_transfers_partial : forall K (OK : OrdRing K) cap job i j size vec ts (stale : list (msg K)),
  i <> j -> (0 < size)%nat ->
  fits (cap i j) 1 -> fits (cap j i) (length stale + length ts * size + 1) ->
  length vec = size ->
  Forall (fun t => length (t_data t) = size /\ 1 <= t_chunk t /\ 1 <= t_window t) ts ->
  Forall (accept_ok job) stale ->
  always_ends pid_eqb cap (transfers_net job i j vec ts stale) (fun s' =>
    procs s' i = Ret None /\
    procs s' j = Ret (Some (fold_left (fun v t => received (t_overwrite t) v (t_data t)) ts vec))).
Proof. exact (fun K OK cap job i j size vec ts stale Hij Hs Hd Ha Hv Ht Hst => transfers_end cap job i j size Hij Hs Hd ts vec stale Ht Hv Hst Ha). Qed.
Print Assumptions C44_transfers_partial.

Definition d1 : wid := ((0, 4), (0, 4)).
Definition w1 : wid := ((4, 8), (0, 4)).
Example C44_hypotheses :
  Wk w1 <> Wk d1 /\ (0 < 3)%nat /\ fits (Some 1%nat) 1 /\ fits (Some 100%nat) (length [MAccept 7 2048 4 : msg Z] + 2 * 3 + 1) /\
  Forall (fun t => length (t_data t) = 3%nat /\ 1 <= t_chunk t /\ 1 <= t_window t) [mkTransfer [(1,0);(2,0);(3,0)] false 2 1; mkTransfer [(5,0);(2,0);(3,0)] true 1 4] /\
  Forall (accept_ok 7) [MAccept 7 2048 4 : msg Z].
Proof. split; [discriminate|]. split; [lia|]. split; [cbn; lia|]. split; [cbn; lia|]. split; [|constructor; [exists 2048, 4; repeat split; lia|constructor]].
  repeat (constructor; [cbn; lia|]). constructor. Qed.
Example C44_run :
  option_map (fun s' => (procs s' (Wk d1), procs s' (Wk w1)))
    (runs pid_eqb (fun _ _ => Some 1%nat) (transfers_net 7 (Wk w1) (Wk d1) [(10, 0); (20, 0); (30, 0)] [mkTransfer [(1,0);(2,0);(3,1)] false 2 1] [])
      [Wk d1; Wk w1; Wk w1; Wk d1; Wk d1; Wk w1; Wk w1; Wk d1; Wk d1; Wk w1])
  = Some (Ret (Some [(11, 0); (22, 0); (33, 1)]), Ret None).
Proof. vm_compute. reflexivity. Qed.

(** Every transfer leaves acknowledgements behind, min(chunks, window) - 1 of them. When the connection is bounded,
    whatever its capacity, after enough transfers the two workers never finish: the receiver blocks on its
    acknowledgement while the sender waits for, or has stopped reading, messages. *)
Theorem C44_bounded_connection_refuted : forall K (OK : OrdRing K) cap capacity job i j size chunk window vec (ts : list (transfer_op K)),
  i <> j -> (0 < size)%nat -> 1 <= chunk -> 1 <= window ->
  cap j i = Some capacity ->
  length vec = size ->
  Forall (fun t => length (t_data t) = size /\ t_chunk t = chunk /\ t_window t = window) ts ->
  (capacity < length ts * (Z.to_nat (Z.min ((Z.of_nat size + chunk - 1) / chunk) window) - 1))%nat ->
  forall sched s', runs pid_eqb cap (transfers_net job i j vec ts []) sched = Some s' ->
    ~ ((exists r, procs s' i = Ret r) /\ (exists r, procs s' j = Ret r)).
Proof. exact (fun K OK cap capacity job i j size chunk window vec ts Hij Hs Hc Hw Hcap Hv Ht Hbig => transfers_stuck job i j size chunk window Hij Hs Hc Hw cap capacity ts vec Hcap Ht Hv Hbig). Qed.
Print Assumptions C44_bounded_connection_refuted.

(** with the parameters of the code (chunks of 2048, window 4), 2^13 amplitudes per worker and room for a million
    acknowledgements, 400000 transfers are too many *)
Example C44_bounded_hypotheses : Z.min ((2^13 + 2048 - 1) / 2048) 4 - 1 = 3 /\ 1000000 < 400000 * 3.
Proof. split; vm_compute; reflexivity. Qed.

(** In the first transfer over a connection, under every schedule, the chunks and acknowledgements in transit together
    never exceed the window. *)
Theorem C45_first_transfer_partial : forall K (OK : OrdRing K) cap job i j (vec data : list (Cx K)) overwrite chunk window,
  i <> j -> 1 <= window ->
  forall sched s', runs pid_eqb cap (transfers_net job i j vec [mkTransfer data overwrite chunk window] []) sched = Some s' ->
    zlen (chans s' i j) + zlen (chans s' j i) <= window.
Proof. exact (fun K OK cap job i j vec data ow c w Hij Hw => window_first cap job i j data vec ow c w Hij Hw). Qed.
Print Assumptions C45_first_transfer_partial.

(** the bound is reached: five chunks, window 2 *)
Example C45_first_run :
  option_map (fun s' => zlen (chans s' (Wk w1) (Wk d1)))
    (runs pid_eqb (fun _ _ => None) (transfers_net 7 (Wk w1) (Wk d1) [(1,0);(1,0);(1,0);(1,0);(1,0)] [mkTransfer [(1,0);(2,0);(3,0);(4,0);(5,0)] true 1 2] [])
      [Wk d1; Wk w1; Wk w1; Wk w1]) = Some 2.
Proof. vm_compute. reflexivity. Qed.

(** Later transfers take the leftover acknowledgements for their own: after k transfers of the same size the sender can
    have k * (min(chunks, window) - 1) chunks more in transit than the window allows (as many as there are). *)
Theorem C45_later_transfers_refuted : forall K (OK : OrdRing K) job i j chunk window (vec data : list (Cx K)) overwrite k,
  i <> j -> 1 <= chunk -> 1 <= window -> data <> [] -> length vec = length data ->
  exists sched s', runs pid_eqb (fun _ _ => None) (transfers_net job i j vec (repeat (mkTransfer data overwrite chunk window) (S k)) []) sched = Some s' /\
    zlen (chans s' i j) = Z.min ((zlen data + chunk - 1) / chunk) (window + Z.of_nat k * (Z.min ((zlen data + chunk - 1) / chunk) window - 1)).
Proof. exact (fun K OK job i j c w vec data ow k => window_later job i j c w vec data ow k). Qed.
Print Assumptions C45_later_transfers_refuted.

(** chunks of 2048 and window 4: with 2^15 amplitudes per worker all 16 chunks of the fifth transfer are in transit *)
Example C45_later_hypotheses : Z.min ((2^15 + 2048 - 1) / 2048) (4 + 4 * (Z.min ((2^15 + 2048 - 1) / 2048) 4 - 1)) = 16.
Proof. vm_compute. reflexivity. Qed.
