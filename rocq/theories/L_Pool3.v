(** Reducing measurements and the pool. *)
From Verif Require Import Base M_Proto S_Proto L_Proto M_Pool S_Pool L_Pool L_Pool2.

Lemma reduce_ok n b workers indices : 0 <= b <= n -> tiles (2 ^ n) workers -> blocks (2 ^ b) workers -> b <= n - zlen indices ->
  exists p' done, pool_reduce (mkPool n workers) indices = (p', done) /\ tiles (2 ^ (n - zlen indices)) (p_workers p') /\
    incl (p_workers p') workers /\ Permutation (map en_worker (p_workers p') ++ done) (map en_worker workers).
Proof.
  intros Hb Ht Hbl Hk. unfold pool_reduce. cbn [p_n p_workers]. rewrite split_ok. unfold reduce_threshold. set (T := 2 ^ (n - zlen indices)).
  eexists _, _. split; [reflexivity|]. cbn [p_workers]. split; [|split].
  - apply (tiles_below (2 ^ n) (2 ^ b)); auto; [apply Z.pow_pos_nonneg; lia| |].
    + split; [apply Z.pow_nonneg; lia|apply Z.pow_le_mono_r; [lia|pose proof (zlen_nonneg indices); lia]].
    + unfold T. replace (n - zlen indices) with (n - zlen indices - b + b) by lia. rewrite Z.pow_add_r by lia. apply Z_mod_mult.
  - intros e He. apply filter_In in He. tauto.
  - rewrite <- map_app. apply Permutation_map, filter_split.
Qed.
Lemma reduce_empty n b workers indices : 0 <= b <= n -> tiles (2 ^ n) workers -> blocks (2 ^ b) workers -> n - zlen indices < b ->
  pool_reduce (mkPool n workers) indices = (mkPool n [], map en_worker workers).
Proof.
  intros Hb Ht Hbl Hk. unfold pool_reduce. cbn [p_n p_workers]. rewrite split_ok. unfold reduce_threshold.
  assert (HT : 2 ^ (n - zlen indices) < 2 ^ b).
  { destruct (Z.ltb_spec (n - zlen indices) 0) as [H|H]; [rewrite Z.pow_neg_r by lia; apply Z.pow_pos_nonneg; lia|apply Z.pow_lt_mono_r; lia]. }
  assert (H0 : forall e, In e workers -> 0 <= fst (en_in e)).
  { intros e He. destruct (Hbl e He) as (i & j & Ei & Ej). assert (Hp : 0 < 2 ^ b) by (apply Z.pow_pos_nonneg; lia). 
    destruct (proj2 Ht e (j * 2 ^ b) (i * 2 ^ b) He) as [_ H]; [unfold owns; rewrite Ei, Ej; cbn [fst snd]; lia|]. rewrite Ei. cbn [fst]. lia. }
  rewrite (none_below (2 ^ b)); auto; [|apply Z.pow_pos_nonneg; lia]. f_equal. f_equal.
  pose proof (filter_split (reduce_keeps (2 ^ (n - zlen indices))) workers) as P. rewrite (none_below (2 ^ b)) in P; auto; [|apply Z.pow_pos_nonneg; lia].
  assert (G : forall (l : list entry) (p : entry -> bool), length (filter p l) = length l -> filter p l = l).
  { clear. intros l p. induction l as [|x l IH]; auto. cbn [filter]. destruct (p x); cbn [length]; intros H; [f_equal; apply IH; lia|].
    assert (length (filter p l) <= length l)%nat; [|lia]. clear. induction l as [|y l IH]; auto. cbn [filter]. destruct (p y); cbn [length]; lia. }
  apply G. cbn [app] in P. apply Permutation_length in P. exact P.
Qed.
Lemma reduce_again n b workers i1 i2 : 0 <= b <= n -> tiles (2 ^ n) workers -> blocks (2 ^ b) workers -> b <= n - zlen i1 -> 1 <= zlen i2 <= zlen i1 ->
  exists p1 d1, pool_reduce (mkPool n workers) i1 = (p1, d1) /\ pool_reduce p1 i2 = (p1, []) /\ ~ tiles (2 ^ (n - zlen i1 - zlen i2)) (p_workers p1).
Proof.
  intros Hb Ht Hbl Hk Hi. destruct (reduce_ok n b workers i1 Hb Ht Hbl Hk) as (p1 & d1 & E & Ht1 & _). exists p1, d1. split; auto.
  unfold pool_reduce in E. cbn [p_n p_workers] in E. rewrite split_ok in E. inversion E; subst p1. cbn [p_workers p_n] in *. unfold reduce_threshold in *. set (T := 2 ^ (n - zlen i1)) in *.
  split.
  - unfold pool_reduce, reduce_threshold. cbn [p_n p_workers]. rewrite split_ok.
    assert (HT : T <= 2 ^ (n - zlen i2)) by (apply Z.pow_le_mono_r; lia).
    assert (Hall : forall e, In e (filter (reduce_keeps T) workers) -> reduce_keeps (2 ^ (n - zlen i2)) e = true).
    { intros e He. apply filter_In in He. destruct He as [_ He]. unfold reduce_keeps in *. rewrite andb_true_iff, !Z.leb_le in *. lia. }
    assert (G : forall l : list entry, (forall e, In e l -> reduce_keeps (2 ^ (n - zlen i2)) e = true) ->
      filter (reduce_keeps (2 ^ (n - zlen i2))) l = l /\ filter (fun e => negb (reduce_keeps (2 ^ (n - zlen i2)) e)) l = []).
    { clear. induction l as [|e l IH]; intros H; auto. cbn [filter]. rewrite H by (left; auto). cbn [negb]. destruct IH as [I1 I2]; [intros; apply H; right; auto|]. rewrite I1, I2. auto. }
    destruct (G _ Hall) as [-> ->]. reflexivity.
  - intros [_ Hin]. assert (HT : 0 < T) by (apply Z.pow_pos_nonneg; lia).
    assert (HT2 : 2 ^ (n - zlen i1 - zlen i2) < T).
    { destruct (Z.ltb_spec (n - zlen i1 - zlen i2) 0) as [H|H]; [rewrite Z.pow_neg_r by lia; lia|apply Z.pow_lt_mono_r; lia]. }
    destruct (proj1 Ht1 (T - 1) (T - 1)) as (i & e & He & Ho & _); [lia|lia|]. apply nth_error_In in He. specialize (Hin e (T - 1) (T - 1) He Ho). lia.
Qed.
