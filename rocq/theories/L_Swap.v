(** Lemmas about connections that are replaced. *)
From Verif Require Import Base M_Sock S_Sock L_Sock M_Swap S_Swap.

Lemma each_many k : forall c c' ms, recv_many k c = (c', Ok ms) -> recv_each k c = (c', map Ok ms) /\ length ms = k.
Proof.
  induction k as [|k IH]; intros c c' ms E; cbn in *; [inversion E; auto|]. destruct (recv c) as [c1 [m|e]]; [|discriminate].
  destruct (recv_many k c1) as [c2 [l|e]] eqn:E2; inversion E; subst. destruct (IH _ _ _ E2) as [-> <-]. auto.
Qed.
Lemma each_app j : forall k c, recv_each (j + k) c = let '(c1, r1) := recv_each j c in let '(c2, r2) := recv_each k c1 in (c2, r1 ++ r2).
Proof.
  induction j as [|j IH]; intros k c; cbn [Nat.add recv_each]; [destruct (recv_each k c); reflexivity|].
  destruct (recv c) as [c1 r]. rewrite IH. destruct (recv_each j c1) as [c2 r1]. destruct (recv_each k c2). reflexivity.
Qed.
Lemma loop_raise : forall segs total msg size c e, recv_loop segs total msg size = (c, Raise e) -> lastbytes c = [].
Proof.
  induction segs as [|s segs IH]; intros total msg size c e; cbn [recv_loop]; destruct (zlen msg <? size); intros E; try discriminate; [inversion E; reflexivity|].
  destruct (zlen s =? 0); [inversion E; reflexivity|]. destruct (_ && _); [|eapply IH; eauto]. destruct (unpack_i _); [eapply IH; eauto|inversion E; reflexivity].
Qed.
Lemma recv_raise c c' e segs : recv c = (c', Raise e) -> closeswapsock c' segs = mkConn [] segs.
Proof.
  intros E. assert (H : lastbytes c' = []); [|unfold closeswapsock; rewrite H; reflexivity]. unfold recv in E. destruct (_ <? _); [destruct (unpack_i _); [|inversion E; reflexivity]|]; eapply loop_raise; eauto.
Qed.
Lemma link_each l : link_ok l -> recv_each (link_reads l) (mkConn [] (l_segs l)) = (mkConn [] [], link_results l).
Proof.
  intros (Hz & Ec & Hs & Hh & Hl). unfold link_reads, link_results. rewrite each_app.
  assert (E : recv_many (length (l_msgs l)) (mkConn [] (l_segs l)) = (mkConn [] [], Ok (l_msgs l))).
  { apply (all_arrive (l_msgs l) (map framed (l_msgs l))); auto. clear - Hz. induction (l_msgs l) as [|m ms IH]; auto. cbn [mmap map]. rewrite (send_ok m) by (apply Hz; left; auto). cbn [bind]. rewrite IH by (intros; apply Hz; right; auto). reflexivity. }
  destruct (each_many _ _ _ _ E) as [-> _]. destruct (l_again l); cbn; rewrite ?app_nil_r; reflexivity.
Qed.
Lemma links_read ls : (forall l, In l ls -> link_ok l) -> forall old, reads (mkConn [] old) (map (fun l => (l_segs l, link_reads l)) ls) = map link_results ls.
Proof.
  induction ls as [|l ls IH]; intros H old; auto. cbn [map reads]. unfold closeswapsock. cbn [lastbytes]. rewrite link_each by (apply H; left; auto). f_equal. apply IH. intros; apply H; right; auto.
Qed.

(** ** what goes wrong *)
Lemma old_message m rest old segs : 0 < zlen m < 2 ^ 31 -> (forall s, In s segs -> s <> []) ->
  snd (recv (closeswapsock (mkConn (framed m ++ rest) old) segs)) = Ok m.
Proof.
  intros Hm Hs. unfold closeswapsock. cbn [lastbytes]. destruct (recv_one m (rest ++ concat segs) (framed m ++ rest) segs) as (u & s' & lb & _ & E & _); [lia|auto|apply eq_sym, app_assoc| |rewrite E; reflexivity].
  left. rewrite zlen_app, zlen_framed. pose proof (zlen_nonneg rest). lia.
Qed.
Lemma skipn_framed m : skipn 4 (framed m) = m.
Proof. reflexivity. Qed.
Lemma mixed_message m lb lost old segs : zlen m < 2 ^ 31 -> framed m = lb ++ lost -> 4 < zlen lb -> (forall s, In s segs -> s <> []) -> (length lost <= length (concat segs))%nat ->
  snd (recv (closeswapsock (mkConn lb old) segs)) = Ok (skipn 4 lb ++ firstn (length lost) (concat segs)).
Proof.
  intros Hm E Hl Hs Hlen. unfold closeswapsock. cbn [lastbytes]. set (x := skipn 4 lb ++ firstn (length lost) (concat segs)).
  assert (Hl' : (4 < length lb)%nat) by (unfold zlen in Hl; lia).
  assert (Ezl : zlen x = zlen m).
  { unfold x. assert (Em : m = skipn 4 lb ++ lost).
    { rewrite <- (skipn_framed m) at 1. rewrite E, skipn_app. replace (4 - length lb)%nat with 0%nat by lia. reflexivity. }
    rewrite Em at 1. unfold zlen. rewrite !app_length, firstn_length. lia. }
  assert (Ef : lb ++ concat segs = framed x ++ skipn (length lost) (concat segs)).
  { unfold framed. rewrite Ezl. unfold x. assert (Eh : firstn 4 lb = [zlen m / 2 ^ 24; zlen m / 2 ^ 16 mod 256; zlen m / 2 ^ 8 mod 256; zlen m mod 256]).
    { pose proof (f_equal (firstn 4) E) as E4. rewrite firstn_app in E4. replace (4 - length lb)%nat with 0%nat in E4 by lia. rewrite (firstn_O lost), app_nil_r in E4. rewrite <- E4. reflexivity. }
    rewrite <- Eh. rewrite !app_assoc. rewrite firstn_skipn. rewrite <- app_assoc, firstn_skipn. reflexivity. }
  destruct (recv_one x (skipn (length lost) (concat segs)) lb segs) as (u & s' & lb' & _ & Er & _); auto; [lia|]. rewrite Er. reflexivity.
Qed.
Lemma sock_recv_stream size segs : 0 < size -> (forall s, In s segs -> s <> []) -> let '(d, segs') := sock_recv size segs in
  d ++ concat segs' = concat segs /\ zlen d <= size /\ (segs <> [] -> d <> []).
Proof.
  intros Hz Hs. unfold sock_recv. destruct segs as [|s segs]; [cbn; split; auto; split; [unfold zlen; cbn; lia|congruence]|]. assert (Hne : s <> []) by (apply Hs; left; auto). destruct (Z.leb_spec (zlen s) size); [cbn; auto|].
  split; [cbn; rewrite app_assoc, firstn_skipn; reflexivity|]. split; [unfold zlen in *; rewrite firstn_length; lia|]. intros _. destruct s; [congruence|]. destruct (Z.to_nat size) eqn:E; [lia|]. discriminate.
Qed.
Lemma rawrecv_stream c size : 0 < size -> (forall s, In s (incoming c) -> s <> []) -> lastbytes c = [] ->
  let '(c', d) := rawrecv c size in d ++ lastbytes c' ++ concat (incoming c') = concat (incoming c) /\ zlen d <= size /\ (incoming c <> [] -> d <> []).
Proof.
  intros Hz Hs Hl. unfold rawrecv. pose proof (sock_recv_stream size (incoming c) Hz Hs) as H. destruct (sock_recv size (incoming c)) as [d segs']. cbn [lastbytes incoming]. rewrite Hl. exact H.
Qed.
Lemma rawrecv_skips c size : 0 < size -> (forall s, In s (incoming c) -> s <> []) ->
  let '(c', d) := rawrecv c size in lastbytes c' = lastbytes c /\ d ++ concat (incoming c') = concat (incoming c) /\ (incoming c <> [] -> d <> []).
Proof.
  intros Hz Hs. unfold rawrecv. pose proof (sock_recv_stream size (incoming c) Hz Hs) as H. destruct (sock_recv size (incoming c)) as [d segs']. cbn [lastbytes incoming]. tauto.
Qed.
