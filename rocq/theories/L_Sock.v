(** Lemmas about message framing. *)
From Verif Require Import Base M_Sock S_Sock.

Lemma be4 n : 0 <= n < 2 ^ 31 ->
  let u := n in pack_i n = Ok [u / 2 ^ 24; u / 2 ^ 16 mod 2 ^ 8; u / 2 ^ 8 mod 2 ^ 8; u mod 2 ^ 8] /\
  unpack_i [u / 2 ^ 24; u / 2 ^ 16 mod 2 ^ 8; u / 2 ^ 8 mod 2 ^ 8; u mod 2 ^ 8] = Ok n.
Proof.
  intros Hn u. unfold pack_i, unpack_i. rewrite (proj2 (Z.leb_le _ _)), (proj2 (Z.ltb_lt _ _)) by lia. cbn [andb].
  rewrite (Z.mod_small n (2 ^ 32)) by lia. split; auto. unfold u.
  assert (E : ((n / 2 ^ 24 * 2 ^ 8 + n / 2 ^ 16 mod 2 ^ 8) * 2 ^ 8 + n / 2 ^ 8 mod 2 ^ 8) * 2 ^ 8 + n mod 2 ^ 8 = n).
  { assert (D : forall k, 0 <= k -> n / 2 ^ k = n / 2 ^ (k + 8) * 2 ^ 8 + n / 2 ^ k mod 2 ^ 8).
    { intros k Hk. rewrite Z.pow_add_r, <- Z.div_div by lia. rewrite Z.mul_comm. apply Z.div_mod. lia. }
    pose proof (D 16 ltac:(lia)) as D1. pose proof (D 8 ltac:(lia)) as D2. pose proof (D 0 ltac:(lia)) as D3.
    change (16 + 8) with 24 in D1. change (8 + 8) with 16 in D2. change (0 + 8) with 8 in D3. rewrite Z.pow_0_r, Z.div_1_r in D3. lia. }
  rewrite E. rewrite (proj2 (Z.ltb_lt _ _)) by lia. auto.
Qed.
Lemma send_ok m : zlen m < 2 ^ 31 -> send m = Ok (framed m).
Proof. intros H. unfold send. destruct (be4 (zlen m)) as [E _]; [pose proof (zlen_nonneg m); lia|]. rewrite E. reflexivity. Qed.
Lemma send_err m : 2 ^ 31 <= zlen m -> send m = Raise GenericException.
Proof. intros H. unfold send, pack_i. rewrite (proj2 (Z.ltb_ge (zlen m) (2 ^ 31))) by lia. rewrite andb_false_r. reflexivity. Qed.
Lemma mmap_send : forall msgs frames, mmap send msgs = Ok frames -> frames = map framed msgs /\ forall m, In m msgs -> zlen m < 2 ^ 31.
Proof.
  induction msgs as [|m msgs IH]; intros frames E; cbn [mmap] in E; [inversion E; split; auto; intros m []|].
  destruct (Z.lt_ge_cases (zlen m) (2 ^ 31)) as [H|H]; [rewrite (send_ok m H) in E|rewrite (send_err m H) in E; discriminate].
  cbn [bind] in E. destruct (mmap send msgs) as [fs|e]; [|discriminate]. cbn [bind] in E. inversion E; subst.
  destruct (IH fs eq_refl) as [-> H']. split; auto. intros x [<-|Hx]; auto.
Qed.
Lemma zlen_framed m : zlen (framed m) = zlen m + 4.
Proof. unfold framed. rewrite zlen_app. change (zlen [_; _; _; _]) with 4. lia. Qed.
Lemma framed_head m l : zlen m < 2 ^ 31 -> unpack_i (slice_to (framed m ++ l) SIZE_BYTES) = Ok (zlen m) /\ slice_from (framed m ++ l) SIZE_BYTES = m ++ l.
Proof.
  intros H. destruct (be4 (zlen m)) as [_ E]; [pose proof (zlen_nonneg m); lia|]. unfold framed. split; [exact E|reflexivity].
Qed.
(** a prefix longer than the length bytes *)
Lemma prefix_head m rest total more : zlen m < 2 ^ 31 -> 4 < zlen total -> total ++ more = framed m ++ rest ->
  unpack_i (slice_to total SIZE_BYTES) = Ok (zlen m) /\ slice_from total SIZE_BYTES ++ more = m ++ rest.
Proof.
  intros Hm Ht E. unfold framed in E. destruct total as [|a [|b [|c [|d total]]]]; try (vm_compute in Ht; discriminate).
  cbn [app] in E. injection E as -> -> -> -> E5. destruct (be4 (zlen m)) as [_ U]; [pose proof (zlen_nonneg m); lia|]. split; [exact U|]. exact E5.
Qed.
Lemma slice_split (m rest msg : list Z) more : msg ++ more = m ++ rest -> zlen m <= zlen msg ->
  slice_to msg (zlen m) = m /\ slice_from msg (zlen m) ++ more = rest.
Proof.
  intros E H. unfold slice_to, slice_from. rewrite (proj2 (Z.ltb_ge (zlen m) 0)) by (pose proof (zlen_nonneg m); lia).
  unfold zlen in *. rewrite Nat2Z.id.
  assert (E1 : firstn (length m) (msg ++ more) = m) by (rewrite E, firstn_app, Nat.sub_diag, firstn_all; cbn; apply app_nil_r).
  rewrite firstn_app in E1. replace (length m - length msg)%nat with 0%nat in E1 by lia. cbn in E1. rewrite app_nil_r in E1. split; auto.
  assert (E2 : skipn (length m) (msg ++ more) = rest) by (rewrite E, skipn_app, Nat.sub_diag, skipn_all; auto).
  rewrite skipn_app in E2. replace (length m - length msg)%nat with 0%nat in E2 by lia. auto.
Qed.

(** ** the length is known *)
Lemma loop_known m rest : forall segs total msg, zlen m < 2 ^ 31 -> (forall s, In s segs -> s <> []) -> msg ++ concat segs = m ++ rest ->
  exists used segs' lb, segs = used ++ segs' /\ recv_loop segs total msg (zlen m) = (mkConn lb segs', Ok m) /\ lb ++ concat segs' = rest.
Proof.
  induction segs as [|s segs IH]; intros total msg Hm Hs E; cbn [recv_loop].
  - cbn [concat] in E. rewrite app_nil_r in E. rewrite (proj2 (Z.ltb_ge _ _)). 2:{ rewrite E, zlen_app. pose proof (zlen_nonneg rest). lia. }
    destruct (slice_split m rest msg []) as [-> E2]; [rewrite app_nil_r; auto|rewrite E, zlen_app; pose proof (zlen_nonneg rest); lia|].
    exists [], [], (slice_from msg (zlen m)). repeat split; auto.
  - destruct (Z.ltb_spec (zlen msg) (zlen m)) as [Hl|Hl].
    + assert (Hne : s <> []) by (apply Hs; left; auto). rewrite (proj2 (Z.eqb_neq (zlen s) 0)) by (destruct s; [congruence|rewrite zlen_cons; pose proof (zlen_nonneg s); lia]).
      rewrite (proj2 (Z.eqb_neq (zlen m) maxsize)) by (unfold maxsize; lia). cbn [andb].
      destruct (IH (total ++ s) (msg ++ s) Hm) as (used & segs' & lb & Eu & Er & El); [intros; apply Hs; right; auto|rewrite <- app_assoc; exact E|].
      exists (s :: used), segs', lb. rewrite Eu. repeat split; auto. rewrite <- Eu. exact Er.
    + destruct (slice_split m rest msg (concat (s :: segs)) E Hl) as [-> E2]. exists [], (s :: segs), (slice_from msg (zlen m)). repeat split; auto.
Qed.
(** ** one call *)
Lemma recv_one m rest lb segs : zlen m < 2 ^ 31 -> (forall s, In s segs -> s <> []) -> lb ++ concat segs = framed m ++ rest ->
  (4 < zlen lb \/ exists s segs', segs = s :: segs' /\ 4 < zlen lb + zlen s) ->
  exists used segs' lb', segs = used ++ segs' /\ recv (mkConn lb segs) = (mkConn lb' segs', Ok m) /\ lb' ++ concat segs' = rest.
Proof.
  intros Hm Hs E Hh. unfold recv. cbn [lastbytes incoming]. unfold SIZE_BYTES at 1. destruct (Z.ltb_spec 4 (zlen lb)) as [Hl|Hl].
  - destruct (prefix_head m rest lb (concat segs) Hm Hl E) as [-> E2]. apply (loop_known m rest); auto.
  - destruct Hh as [Hh|(s & segs' & -> & Hh)]; [lia|]. cbn [recv_loop]. change (zlen (@nil Z) <? maxsize) with true. cbn iota.
    assert (Hne : s <> []) by (apply Hs; left; auto). rewrite (proj2 (Z.eqb_neq (zlen s) 0)) by (destruct s; [congruence|rewrite zlen_cons; pose proof (zlen_nonneg s); lia]).
    rewrite zlen_app. change (maxsize =? maxsize) with true. unfold SIZE_BYTES at 1. rewrite (proj2 (Z.ltb_lt _ _)) by lia. cbn [andb app].
    cbn [concat] in E. rewrite app_assoc in E.
    destruct (prefix_head m rest (lb ++ s) (concat segs') Hm) as [-> E2]; [rewrite zlen_app; lia|auto|].
    destruct (loop_known m rest segs' (lb ++ s) (slice_from (lb ++ s) SIZE_BYTES) Hm) as (used & segs'' & lb' & Eu & Er & El); [intros; apply Hs; right; auto|auto|].
    exists (s :: used), segs'', lb'. rewrite Eu at 1. repeat split; auto.
Qed.

(** ** all messages *)
Lemma recv_rest all segs0 : headers_not_cut_twice all segs0 -> (forall s, In s segs0 -> s <> []) -> (forall m, In m all -> zlen m < 2 ^ 31) ->
  forall msgs before pre segs lb, all = before ++ msgs -> segs0 = pre ++ segs -> concat segs0 = concat (map framed all) ->
    lb ++ concat segs = concat (map framed msgs) -> last msgs [0] <> [] ->
    recv_many (length msgs) (mkConn lb segs) = (mkConn [] [], Ok msgs) \/ (msgs = [] /\ lb = [] /\ segs = []).
Proof.
  intros Hg Hs Hz. induction msgs as [|m msgs IH]; intros before pre segs lb Ea Es Ec El Hlast.
  - right. cbn in El. apply app_eq_nil in El. destruct El as [-> El]. split; auto. split; auto.
    destruct segs as [|s segs]; auto. cbn in El. apply app_eq_nil in El. destruct El as [El _]. exfalso. apply (Hs s); auto. rewrite Es. apply in_app_iff. right; left; auto.
  - left. cbn [length recv_many]. cbn [map concat] in El.
    assert (Hp : zlen (concat pre) = zlen (concat (map framed before)) + zlen lb).
    { rewrite Es, Ea, map_app, !concat_app in Ec. cbn [map concat] in Ec. apply (f_equal zlen) in Ec. apply (f_equal zlen) in El.
      rewrite !zlen_app in *. lia. }
    assert (Hh : 4 < zlen lb \/ exists s segs', segs = s :: segs' /\ 4 < zlen lb + zlen s).
    { destruct (Z.lt_ge_cases 4 (zlen lb)) as [H|H]; auto. right. destruct segs as [|s segs'].
      - exfalso. cbn [concat] in El. rewrite app_nil_r in El. subst lb. rewrite zlen_app, zlen_framed in H. pose proof (zlen_nonneg m). pose proof (zlen_nonneg (concat (map framed msgs))).
        assert (m = []) by (destruct m; auto; rewrite zlen_cons in H; pose proof (zlen_nonneg m); lia). subst m.
        destruct msgs as [|m' msgs]; [cbn in Hlast; congruence|]. cbn [map concat] in *. rewrite zlen_app, zlen_framed in *. pose proof (zlen_nonneg m'). pose proof (zlen_nonneg (concat (map framed msgs))). lia.
      - exists s, segs'. split; auto. destruct (Z.lt_ge_cases 4 (zlen lb + zlen s)) as [|H']; auto. exfalso.
        apply (Hg before m msgs pre s segs' Ea Es). cbv zeta. pose proof (zlen_nonneg lb). lia. }
    destruct (recv_one m (concat (map framed msgs)) lb segs) as (used & segs' & lb' & Eu & Er & El'); auto.
    { apply Hz. rewrite Ea. apply in_app_iff. right; left; auto. }
    { intros s Hin. apply Hs. rewrite Es. apply in_app_iff; auto. }
    rewrite Er.
    destruct (IH (before ++ [m]) (pre ++ used) segs' lb') as [IH'|(-> & -> & ->)].
    + rewrite <- app_assoc. auto.
    + rewrite <- app_assoc, <- Eu. auto.
    + auto.
    + auto.
    + destruct msgs; [discriminate|]. exact Hlast.
    + rewrite IH'. reflexivity.
    + reflexivity.
Qed.
Lemma all_arrive msgs frames segs : mmap send msgs = Ok frames -> concat segs = concat frames -> (forall s, In s segs -> s <> []) ->
  headers_not_cut_twice msgs segs -> last msgs [0] <> [] ->
  recv_many (length msgs) (mkConn [] segs) = (mkConn [] [], Ok msgs).
Proof.
  intros E Ec Hs Hg Hl. apply mmap_send in E. destruct E as [-> Hz].
  destruct (recv_rest msgs segs Hg Hs Hz msgs [] [] segs [] eq_refl eq_refl Ec Ec Hl) as [H|(-> & _ & ->)]; auto.
Qed.

(** ** what goes wrong *)
Lemma corrupt_known (m : list Z) : forall segs total msg r, zlen m < 2 ^ 31 -> 0 < zlen m -> (forall s, In s segs -> s <> []) ->
  zlen m < zlen msg + zlen (concat segs) -> msg = 0 :: r ->
  exists c m', recv_loop segs total msg (zlen m) = (c, Ok m') /\ hd 1 m' = 0.
Proof.
  induction segs as [|s segs IH]; intros total msg r Hm H0 Hs Hl E; cbn [recv_loop].
  - change (zlen (concat (@nil (list Z)))) with 0 in Hl. rewrite (proj2 (Z.ltb_ge _ _)) by lia. eexists _, _. split; [reflexivity|].
    unfold slice_to. rewrite (proj2 (Z.ltb_ge (zlen m) 0)) by lia. destruct (Z.to_nat (zlen m)) eqn:Ez; [lia|]. rewrite E. reflexivity.
  - destruct (Z.ltb_spec (zlen msg) (zlen m)) as [Hlt|Hlt].
    + assert (Hne : s <> []) by (apply Hs; left; auto). rewrite (proj2 (Z.eqb_neq (zlen s) 0)) by (destruct s; [congruence|rewrite zlen_cons; pose proof (zlen_nonneg s); lia]).
      rewrite (proj2 (Z.eqb_neq (zlen m) maxsize)) by (unfold maxsize; lia). cbn [andb].
      apply (IH (total ++ s) (msg ++ s) (r ++ s)); auto; [intros; apply Hs; right; auto| |rewrite E; reflexivity].
      cbn [concat] in Hl. rewrite zlen_app in *. lia.
    + eexists _, _. split; [reflexivity|].
      unfold slice_to. rewrite (proj2 (Z.ltb_ge (zlen m) 0)) by lia. destruct (Z.to_nat (zlen m)) eqn:Ez; [lia|]. rewrite E. reflexivity.
Qed.
Lemma corrupt_unknown m : zlen m < 2 ^ 31 -> 0 < zlen m -> forall segs total msg r, (forall s, In s segs -> s <> []) ->
  total ++ concat segs = framed m -> zlen total <= 4 -> zlen msg <= zlen total -> msg = 0 :: r ->
  exists c m', recv_loop segs total msg maxsize = (c, Ok m') /\ hd 1 m' = 0.
Proof.
  intros Hm H0. induction segs as [|s segs IH]; intros total msg r Hs E Ht Hl Em; cbn [recv_loop].
  - cbn [concat] in E. rewrite app_nil_r in E. rewrite E, zlen_framed in Ht. lia.
  - rewrite (proj2 (Z.ltb_lt (zlen msg) maxsize)) by (unfold maxsize; lia).
    assert (Hne : s <> []) by (apply Hs; left; auto). rewrite (proj2 (Z.eqb_neq (zlen s) 0)) by (destruct s; [congruence|rewrite zlen_cons; pose proof (zlen_nonneg s); lia]).
    change (maxsize =? maxsize) with true. cbn [andb concat] in *. rewrite app_assoc in E. unfold SIZE_BYTES at 1. destruct (Z.ltb_spec 4 (zlen (total ++ s))) as [Hk|Hk].
    + destruct (prefix_head m [] (total ++ s) (concat segs) Hm Hk) as [-> E2]; [rewrite app_nil_r; auto|].
      apply (corrupt_known m segs _ _ (r ++ slice_from (total ++ s) SIZE_BYTES)); auto; [intros; apply Hs; right; auto| |rewrite Em; reflexivity].
      apply (f_equal zlen) in E2. rewrite app_nil_r in E2. rewrite zlen_app in E2. rewrite zlen_app, Em, zlen_cons. pose proof (zlen_nonneg r). lia.
    + apply (IH (total ++ s) (msg ++ s) (r ++ s)); auto; [intros; apply Hs; right; auto| |rewrite Em; reflexivity]. rewrite !zlen_app. lia.
Qed.
Lemma corrupted msg frame b segs : 0 < zlen msg < 2 ^ 24 -> hd 0 msg <> 0 -> send msg = Ok frame -> (forall s, In s segs -> s <> []) ->
  [b] ++ concat segs = frame -> exists c m', recv (mkConn [] ([b] :: segs)) = (c, Ok m') /\ m' <> msg.
Proof.
  intros Hl Hh E Hs Ec. rewrite send_ok in E by lia. injection E as E. rewrite <- E in Ec. clear E frame.
  assert (Hb : b = 0). { unfold framed in *. cbn [app] in *. assert (b = zlen msg / 2 ^ 24) by congruence. rewrite H. apply Z.div_small. lia. }
  subst b. unfold recv. cbn [lastbytes incoming]. change (SIZE_BYTES <? zlen (@nil Z)) with false. cbn iota. cbn [recv_loop].
  change (zlen (@nil Z) <? maxsize) with true. change (zlen [0] =? 0) with false. cbn iota. cbn [app] in *.
  change ((maxsize =? maxsize) && (SIZE_BYTES <? zlen [0])) with false. cbn iota.
  destruct (corrupt_unknown msg ltac:(lia) ltac:(lia) segs [0] [0] []) as (c & m' & E & Hm); auto; [vm_compute; discriminate|lia|].
  exists c, m'. split; auto. intros ->. destruct msg; [cbn in Hh; congruence|]. cbn in *. congruence.
Qed.
Lemma empty_late segs : concat segs = framed [] -> (forall s, In s segs -> s <> []) -> snd (recv (mkConn [] segs)) = Raise IOErrorExn.
Proof.
  intros E Hs. unfold recv. cbn [lastbytes incoming]. change (SIZE_BYTES <? zlen (@nil Z)) with false. cbn iota.
  assert (G : forall segs total msg, (forall s, In s segs -> s <> []) -> zlen (total ++ concat segs) <= 4 -> zlen msg <= zlen total -> snd (recv_loop segs total msg maxsize) = Raise IOErrorExn).
  { clear. induction segs as [|s segs IH]; intros total msg Hs Ht Hm; cbn [recv_loop].
    - cbn in Ht. rewrite app_nil_r in Ht. rewrite (proj2 (Z.ltb_lt (zlen msg) maxsize)) by (unfold maxsize; lia). reflexivity.
    - cbn [concat] in Ht. rewrite app_assoc in Ht. rewrite (zlen_app (total ++ s)) in Ht. pose proof (zlen_nonneg (concat segs)). pose proof (zlen_nonneg s). rewrite (proj2 (Z.ltb_lt (zlen msg) maxsize)) by (unfold maxsize; rewrite zlen_app in *; lia).
      destruct (zlen s =? 0); [reflexivity|]. unfold SIZE_BYTES at 1. rewrite (proj2 (Z.ltb_ge 4 _)) by lia. rewrite andb_false_r. apply IH; [intros; apply Hs; right; auto|rewrite zlen_app; lia|rewrite !zlen_app; lia]. }
  apply G; auto; [cbn [app]; rewrite E; vm_compute; discriminate|lia].
Qed.
