From Verif Require Import Base M_Sock S_Sock L_Sock.
From Verif Require Import M_Hello S_Hello.

Lemma first_taken pieces b bytes : concat pieces = b :: bytes -> (forall p, In p pieces -> p <> []) ->
  exists rest, recv_byte pieces = ([b], rest) /\ without_first pieces rest /\ concat rest = bytes /\ forall p, In p rest -> p <> [].
Proof.
  destruct pieces as [|p pieces]; cbn [concat]; intros E Hne; [discriminate|].
  destruct p as [|x p]; [exfalso; apply (Hne []); [left; auto|auto]|]. cbn in E. injection E as -> E.
  destruct p as [|y p].
  - exists pieces. split; [reflexivity|]. split; [constructor|]. split; [exact E|]. intros q Hq. apply Hne. right; auto.
  - exists ((y :: p) :: pieces). split; [reflexivity|]. split; [constructor|]. split; [exact E|].
    intros q [<-|Hq]; [discriminate|]. apply Hne. right; auto.
Qed.
Lemma agree ssl bytes pieces : concat pieces = greeting ssl ++ bytes -> (forall p, In p pieces -> p <> []) ->
  exists rest, without_first pieces rest /\ concat rest = bytes /\
    connect pieces = if ssl then Wrapped rest else Plain (mkConn [] rest).
Proof.
  intros E Hne. assert (E' : concat pieces = (if ssl then 1 else 0) :: bytes) by (rewrite E; destruct ssl; reflexivity).
  destruct (first_taken _ _ _ E' Hne) as (rest & Er & Hw & Ec & _). exists rest. split; auto. split; auto.
  unfold connect. rewrite Er. destruct ssl; reflexivity.
Qed.
Lemma plain_messages msgs frames pieces : mmap send msgs = Ok frames -> concat pieces = greeting false ++ concat frames ->
  (forall p, In p pieces -> p <> []) -> last msgs [0] <> [] ->
  (forall rest, without_first pieces rest -> headers_not_cut_twice msgs rest) ->
  exists c, connect pieces = Plain c /\ recv_many (length msgs) c = (mkConn [] [], Ok msgs).
Proof.
  intros E Ec Hne Hl Hg. destruct (first_taken pieces 0 (concat frames) Ec Hne) as (rest & Er & Hw & Ec' & Hne').
  exists (mkConn [] rest). split; [unfold connect; rewrite Er; reflexivity|]. eapply all_arrive; eauto.
Qed.
Lemma framed_len m : zlen (framed m) = 4 + zlen m.
Proof. unfold framed. rewrite zlen_app. reflexivity. Qed.
Lemma introduced info cut : info <> [] -> zlen info < 2 ^ 31 -> concat (cut (framed info)) = framed info ->
  (forall p, In p (cut (framed info)) -> p <> []) ->
  (forall p rest, cut (framed info) = p :: rest -> 4 < zlen p) -> introduce info cut = Ok info.
Proof.
  intros Hi Hl Hc Hne Hf. unfold introduce. rewrite send_ok by auto. cbn [bind].
  pose proof (all_arrive [info] [framed info] (cut (framed info))) as H. cbn [mmap bind length recv_many] in H.
  rewrite send_ok in H by auto. cbn [bind] in H.
  assert (Hg : headers_not_cut_twice [info] (cut (framed info))).
  { intros before m after pre s post Eb Es. destruct before as [|x before]; [|destruct before; discriminate].
    cbn [map concat zlen length]. cbv zeta. intros [_ Hend]. destruct pre as [|p pre].
    - pose proof (Hf s post Es). change (zlen (concat (@nil (list Z)))) with 0 in *. change (zlen (@nil Z)) with 0 in *. lia.
    - pose proof (Hf p (pre ++ s :: post) Es) as Hp. cbn [concat] in Hend. rewrite zlen_app in Hend.
      pose proof (zlen_nonneg (concat pre)). pose proof (zlen_nonneg s). change (zlen (@nil Z)) with 0 in Hend. lia. }
  specialize (H eq_refl). rewrite Hc in H. cbn [concat] in H. rewrite app_nil_r in H.
  specialize (H eq_refl Hne Hg Hi). destruct (recv (mkConn [] (cut (framed info)))) as [c [m|e]]; cbn [snd]; congruence.
Qed.
Lemma closed_early : connect [] = Wrapped [].
Proof. reflexivity. Qed.
Lemma encrypted certfile keyfile bytes pieces : concat pieces = greeting (server_ssl certfile keyfile) ++ bytes ->
  (forall p, In p pieces -> p <> []) ->
  ((exists rest, connect pieces = Wrapped rest) <-> exists a c b k, certfile = Some (String.String a c) /\ keyfile = Some (String.String b k)).
Proof.
  intros E Hne. destruct (agree _ _ _ E Hne) as (rest & _ & _ & Ec). rewrite Ec. unfold server_ssl, given.
  destruct certfile as [[|a c]|], keyfile as [[|b k]|]; split; try (intros (r & Er); discriminate Er);
    try (intros (a' & c' & b' & k' & E1 & E2); discriminate); eauto 8.
Qed.
