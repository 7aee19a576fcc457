(** Lemmas about drawing and placing workers. *)
From Coq Require Import Sorted.
From Verif Require Import Base M_Proto S_Proto L_Proto M_Pool S_Pool.

Lemma pop_snoc {A} (l : list A) a : pop (l ++ [a]) = Ok (a, l).
Proof. unfold pop. rewrite rev_unit. rewrite rev_involutive. reflexivity. Qed.
Lemma pop_rev {A} (l : list A) a : pop (rev (a :: l)) = Ok (a, rev l).
Proof. cbn [rev]. apply pop_snoc. Qed.

(** ** sorting *)
Lemma insert_n_perm w l : Permutation (insert_n w l) (w :: l).
Proof.
  induction l as [|x l IH]; cbn [insert_n]; auto. destruct (wk_n w <? wk_n x); auto.
  eapply perm_trans; [apply perm_skip; exact IH|apply perm_swap].
Qed.
Lemma sort_n_perm l : Permutation (sort_n l) l.
Proof.
  unfold sort_n. assert (G : forall l acc, Permutation (fold_left (fun acc w => insert_n w acc) l acc) (l ++ acc)).
  { clear. induction l as [|w l IH]; intros acc; cbn [fold_left]; auto. eapply perm_trans; [apply IH|].
    eapply perm_trans; [apply Permutation_app_head, insert_n_perm|]. apply Permutation_sym, Permutation_middle. }
  eapply perm_trans; [apply G|]. rewrite app_nil_r. auto.
Qed.
Definition asc (a b : worker) : Prop := wk_n a <= wk_n b.
Lemma insert_n_sorted w l : StronglySorted asc l -> StronglySorted asc (insert_n w l).
Proof.
  induction 1 as [|x l Sd IH F]; cbn [insert_n]; [repeat constructor|]. destruct (Z.ltb_spec (wk_n w) (wk_n x)).
  - constructor; [constructor; auto|]. constructor; [unfold asc; lia|]. eapply Forall_impl; [|exact F]. unfold asc. intros; lia.
  - constructor; auto. eapply Permutation_Forall; [apply Permutation_sym, insert_n_perm|]. constructor; auto.
Qed.
Lemma sort_n_sorted l : StronglySorted asc (sort_n l).
Proof.
  unfold sort_n. assert (G : forall l acc, StronglySorted asc acc -> StronglySorted asc (fold_left (fun acc w => insert_n w acc) l acc)).
  { clear. induction l; intros; cbn [fold_left]; auto using insert_n_sorted. }
  apply G. constructor.
Qed.
Definition desc (a b : worker) : Prop := wk_n b <= wk_n a.
Lemma rev_desc l : StronglySorted asc l -> StronglySorted desc (rev l).
Proof.
  induction 1 as [|x l Sd IH F]; cbn [rev]; [constructor|].
  assert (G : forall l x, StronglySorted desc l -> Forall (fun y => asc x y) l -> StronglySorted desc (l ++ [x])).
  { clear. induction l as [|y l IH]; intros x Sd F; cbn [app]; [repeat constructor|]. inversion Sd; subst. inversion F; subst. constructor; [auto|].
    apply Forall_app. split; [auto|]. constructor; [|constructor]. exact H3. }
  apply G; auto. apply Forall_rev. auto.
Qed.
Definition w0 := mkWorker 0 0.
Notation at_ d k := (nth (k - 1) d w0).

(** in a descending list the capable workers come first *)
Lemma capable_first c d : StronglySorted desc d -> forall k, (1 <= k)%nat -> Z.of_nat k <= capable c d -> (k <= length d)%nat /\ c <= wk_n (at_ d k).
Proof.
  unfold capable. induction 1 as [|x d Sd IH F]; intros k Hk Hc; cbn [filter] in Hc; [change (zlen (@nil worker)) with 0 in Hc; lia|].
  destruct (Z.leb_spec c (wk_n x)) as [Hx|Hx].
  - rewrite zlen_cons in Hc. destruct k as [|[|k]]; [lia|cbn; split; [lia|auto]|]. cbn [length]. destruct (IH (S k)) as [H1 H2]; [lia|lia|].
    split; [lia|]. replace (S (S k) - 1)%nat with (S k) by lia. cbn [nth]. replace (S k - 1)%nat with k in H2 by lia. exact H2.
  - assert (E : filter (fun w => c <=? wk_n w) d = []).
    { clear - F Hx. induction d as [|y d IH]; auto. inversion F; subst. unfold desc in H1. cbn [filter]. destruct (Z.leb_spec c (wk_n y)); [lia|]. auto. }
    rewrite E in Hc. change (zlen (@nil worker)) with 0 in Hc. lia.
Qed.
Lemma first_capable d : StronglySorted desc d -> forall k, (1 <= k <= length d)%nat -> Z.of_nat k <= capable (wk_n (at_ d k)) d.
Proof.
  intros Sd. assert (G : forall k c, (k <= length d)%nat -> (forall i, (i < k)%nat -> c <= wk_n (nth i d w0)) -> Z.of_nat k <= capable c d).
  { clear Sd. unfold capable. induction d as [|x d IH]; intros k c Hk Hc; [cbn in Hk; assert (k = 0%nat) by lia; subst; vm_compute; congruence|].
    destruct k as [|k]; [pose proof (zlen_nonneg (filter (fun w => c <=? wk_n w) (x :: d))); lia|]. cbn [filter]. rewrite (proj2 (Z.leb_le c (wk_n x))) by (apply (Hc 0%nat); lia).
    rewrite zlen_cons. cbn [length] in Hk. assert (Z.of_nat k <= zlen (filter (fun w => c <=? wk_n w) d)); [|lia]. apply IH; [lia|]. intros i Hi. apply (Hc (S i)). lia. }
  intros k Hk. apply G; [lia|]. intros i Hi.
  assert (M : forall d i j, StronglySorted desc d -> (i <= j < length d)%nat -> wk_n (nth j d w0) <= wk_n (nth i d w0)).
  { clear. induction d as [|x d IH]; intros i j Sd H; [cbn in H; lia|]. inversion Sd; subst. destruct j as [|j]; [assert (i = 0%nat) by lia; subst; lia|].
    destruct i as [|i]; cbn [nth].
    - rewrite Forall_forall in H3. apply H3. apply nth_In. cbn in H. lia.
    - apply IH; auto. cbn in H. lia. }
  apply M; auto. lia.
Qed.
Lemma capable_perm c l l' : Permutation l l' -> capable c l = capable c l'.
Proof.
  intros P. unfold capable, zlen. f_equal. induction P; cbn [filter]; auto.
  - destruct (c <=? wk_n x); cbn [length]; lia.
  - destruct (c <=? wk_n x), (c <=? wk_n y); cbn [length]; lia.
  - lia.
Qed.

(** ** the loop *)
Lemma pops {I} (l : list I) : forall u d, mfold (fun '(u, c) _ => do wc <- pop c; Ok (u ++ [fst wc], snd wc)) l (u, rev d) =
  if (length l <=? length d)%nat then Ok (u ++ firstn (length l) d, rev (skipn (length l) d)) else Raise (IndexError) :> res (list worker * list worker).
Proof.
  induction l as [|i l IH]; intros u d; cbn [mfold length Nat.leb].
  - cbn [firstn skipn]. rewrite app_nil_r. reflexivity.
  - destruct d as [|w d]; [reflexivity|]. rewrite pop_rev. cbn [bind fst snd]. rewrite IH. cbn [length Nat.leb]. destruct (length l <=? length d)%nat; auto.
    cbn [firstn skipn]. rewrite <- app_assoc. reflexivity.
Qed.
Lemma required_pos n c : 1 <= required_for n c.
Proof. unfold required_for. pose proof (Z.pow_pos_nonneg 2 (2 * Z.max (n - c) 0)). lia. Qed.
Lemma required_4 n c : required_for n c = 4 ^ Z.max (n - c) 0.
Proof. unfold required_for. rewrite Z.pow_mul_r by lia. reflexivity. Qed.
Lemma required_mono n c c' : c' <= c -> required_for n c <= required_for n c'.
Proof. intros H. unfold required_for. apply Z.pow_le_mono_r; lia. Qed.

Lemma last_firstn (d : list worker) k : (1 <= k <= length d)%nat -> pyget (firstn k d) (-1) = Ok (at_ d k).
Proof.
  intros H. unfold pyget. change (-1 <? 0) with true. cbv iota zeta. assert (E : zlen (firstn k d) = Z.of_nat k) by (unfold zlen; rewrite firstn_length; lia).
  rewrite E, (proj2 (Z.ltb_ge _ _)) by lia. replace (Z.to_nat (-1 + Z.of_nat k)) with (k - 1)%nat by lia.
  rewrite (nth_error_nth' _ w0) by (rewrite firstn_length; lia). f_equal.
  rewrite <- (firstn_skipn k d) at 2. rewrite app_nth1 by (rewrite firstn_length; lia). reflexivity.
Qed.
Lemma loop_ok n (d : list worker) : StronglySorted desc d -> forall fuel k, (1 <= k <= length d)%nat -> (length d - k <= fuel)%nat ->
  Z.of_nat k <= required_for n (wk_n (at_ d k)) ->
  (exists k', let wn := wk_n (at_ d k') in (1 <= k' <= length d)%nat /\ Z.of_nat k' <= required_for n wn /\
     (Z.of_nat k' = required_for n wn \/ k' = length d) /\
     (forall c, c <= wk_n (at_ d k) -> suffice n c d -> c <= wn) /\
     draw_loop fuel n (firstn k d) (rev (skipn k d)) (wk_n (at_ d k)) (required_for n (wk_n (at_ d k))) = Ok (firstn k' d, rev (skipn k' d), wn, required_for n wn)) \/
  (draw_loop fuel n (firstn k d) (rev (skipn k d)) (wk_n (at_ d k)) (required_for n (wk_n (at_ d k))) = Raise IndexError /\
   forall c, c <= wk_n (at_ d k) -> ~ suffice n c d).
Proof.
  intros Sd. induction fuel as [|fuel IH]; intros k Hk Hf Hr; cbn [draw_loop];
    assert (E1 : zlen (firstn k d) = Z.of_nat k) by (unfold zlen; rewrite firstn_length; lia);
    assert (E2 : zlen (rev (skipn k d)) = Z.of_nat (length d - k)) by (unfold zlen; rewrite rev_length, skipn_length; lia); rewrite E1, E2.
  - left. exists k. cbv zeta. rewrite (proj2 (Z.ltb_ge 0 _)) by lia. rewrite andb_false_r. repeat split; auto; try lia.
  - destruct (Z.ltb_spec (Z.of_nat k) (required_for n (wk_n (at_ d k)))) as [Hlt|Hge]; cbn [andb].
    2:{ left. exists k. cbv zeta. repeat split; auto; try lia. }
    destruct (Z.ltb_spec 0 (Z.of_nat (length d - k))) as [Hlt'|Hge'].
    2:{ left. exists k. cbv zeta. repeat split; auto; try lia. }
    rewrite pops, zrange_length. set (r := required_for n (wk_n (at_ d k))) in *.
    destruct (Nat.leb_spec (Z.to_nat (r - Z.of_nat k - 0)) (length (skipn k d))) as [Hle|Hgt]; rewrite skipn_length in *.
    + cbn [bind fst snd]. set (k1 := Z.to_nat r). assert (Hk1 : (k < k1 <= length d)%nat) by (unfold k1; lia).
      assert (F1 : firstn k d ++ firstn (Z.to_nat (r - Z.of_nat k - 0)) (skipn k d) = firstn k1 d).
      { replace k1 with (k + Z.to_nat (r - Z.of_nat k - 0))%nat by (unfold k1; lia). generalize (Z.to_nat (r - Z.of_nat k - 0)). clear. induction k as [|k IH] in d |- *; intros m; [reflexivity|].
        destruct d as [|x d]; [destruct m; reflexivity|]. cbn [firstn skipn Nat.add app]. f_equal. apply IH. }
      assert (F2 : skipn (Z.to_nat (r - Z.of_nat k - 0)) (skipn k d) = skipn k1 d).
      { replace k1 with (k + Z.to_nat (r - Z.of_nat k - 0))%nat by (unfold k1; lia). generalize (Z.to_nat (r - Z.of_nat k - 0)). clear. induction k as [|k IH] in d |- *; intros m; [reflexivity|].
        destruct d as [|x d]; [destruct m; reflexivity|]. cbn [skipn Nat.add]. apply IH. }
      rewrite F1, F2, last_firstn by lia. cbn [bind].
      assert (Mono : wk_n (at_ d k1) <= wk_n (at_ d k)).
      { assert (M : forall d i j, StronglySorted desc d -> (i <= j < length d)%nat -> wk_n (nth j d w0) <= wk_n (nth i d w0)).
        { clear. induction d as [|x d IH]; intros i j Sd H; [cbn in H; lia|]. inversion Sd; subst. destruct j as [|j]; [assert (i = 0%nat) by lia; subst; lia|].
          destruct i as [|i]; cbn [nth]; [rewrite Forall_forall in H3; apply H3; apply nth_In; cbn in H; lia|apply IH; auto; cbn in H; lia]. }
        apply M; auto. lia. }
      assert (Feas : forall c, c <= wk_n (at_ d k) -> suffice n c d -> c <= wk_n (at_ d k1)).
      { intros c Hc Hs. unfold suffice in Hs. rewrite <- required_4 in Hs. pose proof (required_mono n _ _ Hc) as Hm. fold r in Hm.
        apply (capable_first c d Sd k1); [lia|unfold k1; lia]. }
      destruct (IH k1) as [(k' & H1 & H2 & H3 & H4 & H5)|[H1 H2]]; [lia|lia|pose proof (required_mono n _ _ Mono) as Hm; fold r in Hm; unfold k1 in *; lia| |].
      * left. exists k'. cbv zeta. split; [exact H1|]. split; [exact H2|]. split; [exact H3|]. split; [|exact H5]. intros c Hc Hs. apply H4; auto.
      * right. split; [exact H1|]. intros c Hc Hs. apply (H2 c); auto.
    + cbn [bind]. right. split; [reflexivity|]. intros c Hc Hs. unfold suffice in Hs. rewrite <- required_4 in Hs. pose proof (required_mono n _ _ Hc) as Hm. fold r in Hm.
      destruct (capable_first c d Sd (Z.to_nat r)); lia.
Qed.

(** ** drawing *)
Lemma draw_sorted n workers : (exists c, suffice n c workers) -> let d := rev (sort_n workers) in exists k, Permutation d workers /\ StronglySorted desc d /\ (1 <= k <= length d)%nat /\
  Z.of_nat k = required_for n (wk_n (at_ d k)) /\ draw_workers n workers = Ok (firstn k d, wk_n (at_ d k), rev (skipn k d)) /\
  forall c, suffice n c workers -> c <= wk_n (at_ d k).
Proof.
  intros (c0 & Hc0). intros d. assert (P : Permutation d workers) by (eapply perm_trans; [apply Permutation_sym, Permutation_rev|apply sort_n_perm]).
  assert (Sd : StronglySorted desc d) by (apply rev_desc, sort_n_sorted).
  assert (Hs : forall c, suffice n c workers <-> suffice n c d) by (intros c; unfold suffice; rewrite (capable_perm c d workers P); tauto).
  assert (Hne : forall c, suffice n c d -> (1 <= length d)%nat /\ c <= wk_n (at_ d 1)).
  { intros c H. apply (capable_first c d Sd 1); [lia|]. unfold suffice in H. rewrite <- required_4 in H. pose proof (required_pos n c). lia. }
  destruct (Hne c0) as [Hl Hc]; [apply Hs; auto|].
  unfold draw_workers. assert (Es : sort_n workers = rev d) by (unfold d; rewrite rev_involutive; auto). rewrite Es. clearbody d.
  destruct d as [|x d'] eqn:Ed; [cbn in Hl; lia|]. rewrite pop_rev. cbn [bind fst snd]. rewrite <- Ed in *.
  assert (Ll : length workers = length d) by (symmetry; apply Permutation_length; auto).
  destruct (loop_ok n d Sd (length workers) 1) as [(k' & H1 & H2 & H3 & H4 & H5)|[H1 H2]]; [lia|lia|pose proof (required_pos n (wk_n (at_ d 1))); lia| |].
  - exists k'. assert (Hk : Z.of_nat k' = required_for n (wk_n (at_ d k'))).
    { destruct H3 as [|H3]; auto. pose proof (H4 c0 Hc ltac:(apply Hs; auto)) as H6. assert (H7 : suffice n c0 d) by (apply Hs; auto). unfold suffice in H7. rewrite <- required_4 in H7.
      pose proof (required_mono n _ _ H6). assert (capable c0 d <= zlen d).
      { unfold capable, zlen. apply inj_le. clear. induction d as [|y d IH]; cbn [filter length]; [lia|]. destruct (c0 <=? wk_n y); cbn [length]; lia. }
      unfold zlen in *. lia. }
    do 4 (split; [assumption|]). split.
    + replace (firstn 1 d) with [x] in H5 by (rewrite Ed; reflexivity). replace (skipn 1 d) with d' in H5 by (rewrite Ed; reflexivity).
      replace (at_ d 1) with x in H5 by (rewrite Ed; reflexivity). rewrite H5. cbn [bind].
      rewrite (proj2 (Z.ltb_ge (zlen workers) _)); [reflexivity|]. unfold zlen. rewrite Ll, <- Hk. lia.
    + intros c Hc'. apply Hs in Hc'. apply H4; auto. apply (Hne c Hc').
  - exfalso. apply (H2 c0 Hc). apply Hs. auto.
Qed.
Lemma draw_ok n workers : (exists c, suffice n c workers) -> exists d k, Permutation d workers /\ StronglySorted desc d /\ (1 <= k <= length d)%nat /\
  Z.of_nat k = required_for n (wk_n (at_ d k)) /\ draw_workers n workers = Ok (firstn k d, wk_n (at_ d k), rev (skipn k d)) /\
  forall c, suffice n c workers -> c <= wk_n (at_ d k).
Proof. intros H. exists (rev (sort_n workers)). exact (draw_sorted n workers H). Qed.

Lemma draw_inv n workers r : draw_workers n workers = Ok r -> exists c, suffice n c workers.
Proof.
  set (d := rev (sort_n workers)). assert (P : Permutation d workers) by (eapply perm_trans; [apply Permutation_sym, Permutation_rev|apply sort_n_perm]).
  assert (Sd : StronglySorted desc d) by (apply rev_desc, sort_n_sorted).
  unfold draw_workers. assert (Es : sort_n workers = rev d) by (unfold d; rewrite rev_involutive; auto). rewrite Es.
  destruct d as [|x d'] eqn:Ed; [discriminate|]. rewrite pop_rev. cbn [bind fst snd]. rewrite <- Ed in *.
  assert (Ll : length workers = length d) by (symmetry; apply Permutation_length; auto).
  assert (Hl : (1 <= length d)%nat) by (rewrite Ed; cbn; lia).
  destruct (loop_ok n d Sd (length workers) 1) as [(k' & H1 & H2 & H3 & H4 & H5)|[H1 H2]]; [lia|lia|pose proof (required_pos n (wk_n (at_ d 1))); lia| |].
  - replace (firstn 1 d) with [x] in H5 by (rewrite Ed; reflexivity). replace (skipn 1 d) with d' in H5 by (rewrite Ed; reflexivity).
    replace (at_ d 1) with x in H5 by (rewrite Ed; reflexivity). rewrite H5. cbn [bind]. destruct (Z.ltb_spec (zlen workers) (required_for n (wk_n (at_ d k')))) as [|Hge]; [discriminate|].
    intros _. exists (wk_n (at_ d k')). unfold suffice. rewrite <- required_4. rewrite <- (capable_perm _ d workers P).
    eapply Z.le_trans; [|apply first_capable; [exact Sd|exact H1]]. destruct H3 as [->|H3]; [lia|]. subst k'. unfold zlen in Hge. lia.
  - replace (firstn 1 d) with [x] in H1 by (rewrite Ed; reflexivity). replace (skipn 1 d) with d' in H1 by (rewrite Ed; reflexivity).
    replace (at_ d 1) with x in H1 by (rewrite Ed; reflexivity). rewrite H1. discriminate.
Qed.
Lemma draw_exn n workers e : draw_workers n workers = Raise e -> e = IndexError \/ e = InsufficientResourcesExn.
Proof.
  set (d := rev (sort_n workers)). assert (P : Permutation d workers) by (eapply perm_trans; [apply Permutation_sym, Permutation_rev|apply sort_n_perm]).
  assert (Sd : StronglySorted desc d) by (apply rev_desc, sort_n_sorted).
  unfold draw_workers. assert (Es : sort_n workers = rev d) by (unfold d; rewrite rev_involutive; auto). rewrite Es.
  destruct d as [|x d'] eqn:Ed; [cbn; intros E; inversion E; auto|]. rewrite pop_rev. cbn [bind fst snd]. rewrite <- Ed in *.
  assert (Ll : length workers = length d) by (symmetry; apply Permutation_length; auto).
  assert (Hl : (1 <= length d)%nat) by (rewrite Ed; cbn; lia).
  destruct (loop_ok n d Sd (length workers) 1) as [(k' & H1 & H2 & H3 & H4 & H5)|[H1 H2]]; [lia|lia|pose proof (required_pos n (wk_n (at_ d 1))); lia| |].
  - replace (firstn 1 d) with [x] in H5 by (rewrite Ed; reflexivity). replace (skipn 1 d) with d' in H5 by (rewrite Ed; reflexivity).
    replace (at_ d 1) with x in H5 by (rewrite Ed; reflexivity). rewrite H5. cbn [bind]. destruct (Z.ltb_spec (zlen workers) (required_for n (wk_n (at_ d k')))); intros E; inversion E; auto.
  - replace (firstn 1 d) with [x] in H1 by (rewrite Ed; reflexivity). replace (skipn 1 d) with d' in H1 by (rewrite Ed; reflexivity).
    replace (at_ d 1) with x in H1 by (rewrite Ed; reflexivity). rewrite H1. cbn. intros E; inversion E; auto.
Qed.
(** two or more workers, all alike, but too few: the wrong exception *)
Lemma draw_index_error n c workers : (forall w, In w workers -> wk_n w = c) -> 2 <= zlen workers < 4 ^ Z.max (n - c) 0 -> draw_workers n workers = Raise IndexError.
Proof.
  intros Hc Hl. set (d := rev (sort_n workers)). assert (P : Permutation d workers) by (eapply perm_trans; [apply Permutation_sym, Permutation_rev|apply sort_n_perm]).
  assert (Hd : forall w, In w d -> wk_n w = c) by (intros w H; apply Hc; eapply Permutation_in; eauto).
  assert (Ll : length d = length workers) by (apply Permutation_length; auto).
  unfold draw_workers. assert (Es : sort_n workers = rev d) by (unfold d; rewrite rev_involutive; auto). rewrite Es. clearbody d.
  destruct d as [|x [|y d']]; [unfold zlen in Hl; cbn in *; lia|unfold zlen in Hl; cbn in *; lia|]. rewrite pop_rev. cbn [bind fst snd].
  rewrite (Hd x) by (left; auto). rewrite <- required_4 in Hl. destruct (length workers) as [|fuel] eqn:Ef; [cbn in Ll; lia|]. cbn [draw_loop].
  change (zlen [x]) with 1. rewrite (proj2 (Z.ltb_lt 1 _)) by lia. assert (E2 : zlen (rev (y :: d')) = Z.of_nat (S (length d'))) by (unfold zlen; rewrite rev_length; reflexivity). rewrite E2.
  rewrite (proj2 (Z.ltb_lt 0 _)) by lia. cbn [andb]. rewrite pops, zrange_length. unfold zlen in Hl. rewrite Ef in Hl. cbn [length] in *. rewrite (proj2 (Nat.leb_gt _ _)) by lia. reflexivity.
Qed.

(** ** ranges *)
Lemma ranges_ok n c : 0 <= c <= n -> worker_ranges n c = Ok (map (fun i => (i * 2 ^ c, (i + 1) * 2 ^ c)) (zrange 0 (2 ^ (n - c)))).
Proof.
  intros H. unfold worker_ranges. rewrite (proj2 (Z.ltb_ge c 0)) by lia. cbv zeta. f_equal. set (N := 2 ^ (n - c)). assert (HN : 1 <= N) by (unfold N; pose proof (Z.pow_pos_nonneg 2 (n - c)); lia).
  set (f := fun i => Z.shiftl i c).
  assert (E1 : removelast (map f (zrange 0 (N + 1))) = map f (zrange 0 N)).
  { rewrite zrange_snoc by lia. rewrite map_app. cbn [map]. rewrite removelast_last. f_equal. f_equal. lia. }
  assert (E2 : tl (map f (zrange 0 (N + 1))) = map (fun i => f (i + 1)) (zrange 0 N)).
  { rewrite zrange_cons by lia. cbn [map tl]. rewrite zrange_shift, map_map. reflexivity. }
  rewrite E1, E2, combine_map_same. apply map_ext_in. intros i Hi. unfold f. rewrite !Z.shiftl_mul_pow2 by lia. reflexivity.
Qed.
(** the entries in the order they are made *)
Definition grid (N size : Z) : list ((Z * Z) * (Z * Z)) :=
  flat_map (fun i => map (fun j => ((i * size, (i + 1) * size), (j * size, (j + 1) * size))) (zrange 0 N)) (zrange 0 N).
Lemma place_row {R} (inr : Z * Z) (h : R -> Z * Z) : forall (l : list R) (pool : list entry) (d : list worker), (length l <= length d)%nat ->
  mfold (fun '(workers, unallocated) r => do wu <- pop unallocated; Ok (workers ++ [(inr, h r, fst wu)], snd wu)) l (pool, d) =
  Ok (pool ++ combine (map (fun r => (inr, h r)) l) (rev d), rev (skipn (length l) (rev d))).
Proof.
  induction l as [|r l IH]; intros pool d Hd; cbn [mfold].
  - cbn. rewrite app_nil_r, rev_involutive. reflexivity.
  - rewrite <- (rev_involutive d). destruct (rev d) as [|x d'] eqn:Ed; [apply (f_equal (@length _)) in Ed; rewrite rev_length in Ed; cbn in *; lia|].
    assert (Hl : length d = S (length d')) by (rewrite <- (rev_length d), Ed; reflexivity).
    rewrite pop_rev. cbn [bind fst snd]. rewrite IH by (rewrite rev_length; cbn in Hd; lia). rewrite !rev_involutive. cbn [map combine length skipn]. rewrite <- app_assoc. reflexivity.
Qed.
Lemma combine_app' {A B} (a a' : list A) (b : list B) : combine (a ++ a') b = combine a b ++ combine a' (skipn (length a) b).
Proof. revert b. induction a as [|x a IH]; intros b; [reflexivity|]. destruct b as [|y b]; cbn [app combine length skipn]; [destruct a'; reflexivity|]. rewrite IH. reflexivity. Qed.
Lemma skipn_skipn' {A} i j (l : list A) : skipn i (skipn j l) = skipn (j + i) l.
Proof. revert l. induction j as [|j IH]; intros l; [reflexivity|]. destruct l; [destruct i; reflexivity|]. apply IH. Qed.
Lemma place_rows (rows cols : list (Z * Z)) : forall (pool : list entry) (d : list worker), (length rows * length cols <= length d)%nat ->
  mfold (fun acc inr => mfold (fun '(workers, unallocated) outr => do wu <- pop unallocated; Ok (workers ++ [(inr, outr, fst wu)], snd wu)) cols acc) rows (pool, d) =
  Ok (pool ++ combine (flat_map (fun i => map (fun o => (i, o)) cols) rows) (rev d), rev (skipn (length rows * length cols) (rev d))).
Proof.
  induction rows as [|r rows IH]; intros pool d Hd; cbn [mfold].
  - cbn. rewrite app_nil_r, rev_involutive. reflexivity.
  - cbn [length] in Hd. pose proof (place_row r (fun o => o) cols pool d) as PR. cbv beta in PR. rewrite PR by lia. cbn [bind]. rewrite IH by (rewrite rev_length, skipn_length, rev_length; lia).
    rewrite rev_involutive. cbn [flat_map]. rewrite combine_app', map_length, <- app_assoc, skipn_skipn'. reflexivity.
Qed.
Lemma flat_map_map {A B C} (f : B -> list C) (g : A -> B) l : flat_map f (map g l) = flat_map (fun a => f (g a)) l.
Proof. induction l; cbn; [auto|]. rewrite IHl. auto. Qed.
Lemma grid_length N size : 0 <= N -> length (grid N size) = Z.to_nat (N * N).
Proof.
  intros H. unfold grid.
  assert (G : forall l, length (flat_map (fun i => map (fun j => ((i * size, (i + 1) * size), (j * size, (j + 1) * size))) (zrange 0 N)) l) = (length l * Z.to_nat N)%nat).
  { induction l as [|i l IH]; auto. cbn [flat_map length]. rewrite app_length, map_length, zrange_length, IH. lia. }
  rewrite G, zrange_length. rewrite Z2Nat.inj_mul by lia. f_equal. lia.
Qed.
(** position of an entry *)
Lemma grid_nth N size i j : 0 <= i < N -> 0 <= j < N ->
  nth_error (grid N size) (Z.to_nat (i * N + j)) = Some ((i * size, (i + 1) * size), (j * size, (j + 1) * size)).
Proof.
  intros Hi Hj. unfold grid. set (row := fun i : Z => map (fun j : Z => ((i * size, (i + 1) * size), (j * size, (j + 1) * size))) (zrange 0 N)).
  assert (Lr : forall i, length (row i) = Z.to_nat N) by (intros; unfold row; rewrite map_length, zrange_length; f_equal; lia).
  rewrite (zrange_app 0 i N) by lia. rewrite flat_map_app.
  assert (Lp : length (flat_map row (zrange 0 i)) = Z.to_nat (i * N)).
  { assert (G : forall l, length (flat_map row l) = (length l * Z.to_nat N)%nat) by (induction l as [|x l IH]; auto; cbn [flat_map length]; rewrite app_length, Lr, IH; lia).
    rewrite G, zrange_length, Z2Nat.inj_mul by lia. f_equal. lia. }
  assert (Hm : 0 <= i * N) by nia.
  rewrite nth_error_app2 by lia. rewrite Lp. replace (Z.to_nat (i * N + j) - Z.to_nat (i * N))%nat with (Z.to_nat j) by lia.
  rewrite zrange_cons by lia. cbn [flat_map]. rewrite nth_error_app1 by (rewrite Lr; lia). unfold row. rewrite nth_error_map, nth_error_zrange by lia. reflexivity.
Qed.
