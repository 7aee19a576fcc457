(** Lemmas: allocation tiles the matrix; releasing workers. *)
From Coq Require Import Sorted.
From Verif Require Import Base M_Proto S_Proto L_Proto M_Pool S_Pool L_Pool.

Lemma place_grid (N size : Z) (u : list worker) : 0 <= N -> length u = Z.to_nat (N * N) ->
  mfold (fun acc inr => mfold (fun '(workers, unallocated) outr => do wu <- pop unallocated; Ok (workers ++ [(inr, outr, fst wu)], snd wu))
    (map (fun i => (i * size, (i + 1) * size)) (zrange 0 N)) acc) (map (fun i => (i * size, (i + 1) * size)) (zrange 0 N)) ([], u) =
  Ok (combine (grid N size) (rev u), []).
Proof.
  intros HN Hu. pose proof (grid_length N size HN) as Hg. rewrite place_rows.
  - rewrite !map_length, !zrange_length. f_equal. f_equal; [cbn [app]|].
    + f_equal. rewrite flat_map_map. unfold grid. apply flat_map_ext. intros i. rewrite map_map. reflexivity.
    + rewrite skipn_all2; [reflexivity|]. rewrite rev_length, Hu. rewrite Z2Nat.inj_mul by lia. replace (N - 0) with N by lia. lia.
  - rewrite !map_length, !zrange_length, Hu, Z2Nat.inj_mul by lia. replace (N - 0) with N by lia. lia.
Qed.
Lemma combine_nth_error {A B} (l : list A) (m : list B) i a b : nth_error (combine l m) i = Some (a, b) <-> nth_error l i = Some a /\ nth_error m i = Some b.
Proof.
  revert m i. induction l as [|x l IH]; intros m i; cbn [combine]; [destruct i; split; [discriminate|intros [H _]; discriminate|discriminate|intros [H _]; discriminate]|].
  destruct m as [|y m]; [destruct i; cbn; split; try discriminate; intros [_ H]; discriminate|]. destruct i as [|i]; cbn [nth_error]; [|apply IH].
  split; [intros H; inversion H; auto|intros [H1 H2]; congruence].
Qed.
Lemma combine_fst {A B} (l : list A) (m : list B) : length l = length m -> map fst (combine l m) = l.
Proof. revert m. induction l as [|x l IH]; intros [|y m] H; cbn in *; try discriminate; auto. f_equal. auto. Qed.
Lemma combine_snd {A B} (l : list A) (m : list B) : length l = length m -> map snd (combine l m) = m.
Proof. revert m. induction l as [|x l IH]; intros [|y m] H; cbn in *; try discriminate; auto. f_equal. auto. Qed.

Lemma grid_pos N size p g : 0 < N -> nth_error (grid N size) p = Some g ->
  exists i j, 0 <= i < N /\ 0 <= j < N /\ p = Z.to_nat (i * N + j) /\ g = ((i * size, (i + 1) * size), (j * size, (j + 1) * size)).
Proof.
  intros HN E. assert (Hp : (p < length (grid N size))%nat) by (apply nth_error_Some; congruence). rewrite grid_length in Hp by lia.
  set (i := Z.of_nat p / N). set (j := Z.of_nat p mod N). assert (D : Z.of_nat p = N * i + j) by (apply Z.div_mod; lia). assert (Hj : 0 <= j < N) by (apply Z.mod_pos_bound; lia).
  assert (Hi : 0 <= i < N) by (split; [apply Z.div_pos; lia|apply Z.div_lt_upper_bound; lia]).
  exists i, j. split; [auto|]. split; [auto|]. assert (Ep : p = Z.to_nat (i * N + j)) by lia. split; [auto|]. rewrite Ep, grid_nth in E by auto. congruence.
Qed.
Lemma in_block i size x : 0 < size -> i * size <= x < (i + 1) * size <-> i = x / size.
Proof.
  intros Hs. split.
  - intros H. apply Z.div_unique_pos with (r := x - i * size); lia.
  - intros ->. pose proof (Z.div_mod x size ltac:(lia)). pose proof (Z.mod_pos_bound x size ltac:(lia)). lia.
Qed.
Lemma grid_tiles N size ws : 0 < N -> 0 < size -> length ws = Z.to_nat (N * N) -> tiles (N * size) (combine (grid N size) ws).
Proof.
  intros HN Hs Hw. assert (Hg : length (grid N size) = Z.to_nat (N * N)) by (apply grid_length; lia).
  assert (B : forall x, 0 <= x < N * size -> 0 <= x / size < N) by (intros x Hx; split; [apply Z.div_pos; lia|apply Z.div_lt_upper_bound; lia]).
  split.
  - intros row col Hr Hc. set (i := col / size). set (j := row / size). pose proof (B _ Hc) as Hi. pose proof (B _ Hr) as Hj. fold i in Hi. fold j in Hj.
    pose proof (grid_nth N size i j Hi Hj) as E. set (p := Z.to_nat (i * N + j)) in *.
    assert (Hp : (p < length ws)%nat) by (rewrite Hw, <- Hg; apply nth_error_Some; congruence).
    destruct (nth_error ws p) as [w|] eqn:Ew; [|apply nth_error_None in Ew; lia].
    exists p, (((i * size, (i + 1) * size), (j * size, (j + 1) * size)), w). split; [apply combine_nth_error; auto|]. split.
    + unfold owns. cbn [en_in en_out fst snd]. split; apply in_block; auto.
    + intros q [g w'] Hq Ho. apply combine_nth_error in Hq. destruct Hq as [Hq _]. apply grid_pos in Hq; auto. destruct Hq as (i' & j' & Hi' & Hj' & -> & ->).
      unfold owns in Ho. cbn [en_in en_out fst snd] in Ho. destruct Ho as [H1 H2]. apply in_block in H1; auto. apply in_block in H2; auto. unfold p, i, j. congruence.
  - intros [g w] row col Hin Ho. apply In_nth_error in Hin. destruct Hin as (p & Hp). apply combine_nth_error in Hp. destruct Hp as [Hp _]. apply grid_pos in Hp; auto. destruct Hp as (i & j & Hi & Hj & _ & ->).
    unfold owns in Ho. cbn [en_in en_out fst snd] in Ho. nia.
Qed.
Lemma grid_blocks N size ws : 0 < N -> blocks size (combine (grid N size) ws).
Proof.
  intros HN [g w] Hin. apply In_nth_error in Hin. destruct Hin as (p & Hp). apply combine_nth_error in Hp. destruct Hp as [Hp _]. apply grid_pos in Hp; auto. destruct Hp as (i & j & Hi & Hj & _ & ->).
  exists i, j. auto.
Qed.

Definition told (pool : list entry) : list (worker * setup_msg) := map (fun e => (en_worker e, mkSetup (en_in e) (en_out e) pool)) pool.
Lemma allocate_shape n c u : let b := Z.min c n in 0 <= b -> length u = Z.to_nat (2 ^ (n - b) * 2 ^ (n - b)) ->
  allocate_workers n c u = let pool := combine (grid (2 ^ (n - b)) (2 ^ b)) (rev u) in do _ <- mfold (fun _ e => check_ranges e) pool tt; Ok (pool, told pool).
Proof.
  intros b Hb Hu. unfold allocate_workers. fold b. cbv zeta. rewrite ranges_ok by lia. cbn [bind]. rewrite place_grid; [|apply Z.pow_nonneg; lia|auto]. cbn [bind].
  change (zlen (@nil worker) =? 0) with true. cbn [negb]. reflexivity.
Qed.
Lemma allocate_negative n c u : Z.min c n < 0 -> allocate_workers n c u = Raise ValueError.
Proof. intros H. unfold allocate_workers, worker_ranges. rewrite (proj2 (Z.ltb_lt _ _)) by lia. reflexivity. Qed.
Lemma check_all (pool : list entry) : (forall e, In e pool -> is_int64 (fst (en_in e)) /\ is_int64 (snd (en_in e)) /\ is_int64 (fst (en_out e)) /\ is_int64 (snd (en_out e))) ->
  mfold (fun _ e => check_ranges e) pool tt = Ok tt.
Proof.
  induction pool as [|e pool IH]; intros H; cbn [mfold]; auto. destruct (H e (or_introl eq_refl)) as (H1 & H2 & H3 & H4).
  unfold check_ranges at 1. rewrite !int64_ok by auto. cbn [bind]. apply IH. intros; apply H; right; auto.
Qed.
Lemma pow_square k : 0 <= k -> 2 ^ k * 2 ^ k = 4 ^ k.
Proof. intros H. rewrite <- Z.pow_mul_l. reflexivity. Qed.
Lemma required_side n c : required_for n c = 2 ^ (n - Z.min c n) * 2 ^ (n - Z.min c n).
Proof. rewrite pow_square by lia. rewrite required_4. f_equal. lia. Qed.

(** ** the whole of make_state's allocation *)
Lemma pool_ok n workers pool msgs rest : make_pool n workers = Ok (pool, msgs, rest) ->
  Permutation (map en_worker pool ++ rest) workers /\ tiles (2 ^ n) pool /\
  (exists b, 0 <= b <= n /\ blocks (2 ^ b) pool /\ (forall e, In e pool -> b <= wk_n (en_worker e)) /\ forall c, suffice n c workers -> Z.min c n <= b) /\
  msgs = map (fun e => (en_worker e, mkSetup (en_in e) (en_out e) pool)) pool.
Proof.
  unfold make_pool. destruct (draw_workers n workers) as [[[u c] rest']|e] eqn:E; [|discriminate]. cbn [bind].
  destruct (draw_ok n workers (draw_inv n workers _ E)) as (d & k & P & Sd & Hk & Hr & E' & Hmax). rewrite E in E'. inversion E'; subst u c rest'. clear E'.
  set (c := wk_n (at_ d k)) in *. destruct (Z.ltb_spec (Z.min c n) 0) as [Hneg|Hpos]; [rewrite allocate_negative by auto; discriminate|].
  rewrite required_side in Hr.
  assert (Lu : length (firstn k d) = Z.to_nat (2 ^ (n - Z.min c n) * 2 ^ (n - Z.min c n))) by (rewrite <- Hr, firstn_length; lia).
  rewrite (allocate_shape n c (firstn k d) Hpos Lu). cbv zeta. set (b := Z.min c n) in *. set (N := 2 ^ (n - b)) in *. set (pool' := combine (grid N (2 ^ b)) (rev (firstn k d))).
  destruct (mfold (fun _ e => check_ranges e) pool' tt); [|discriminate]. cbn [bind fst snd]. intros E'. inversion E'; subst. clear E'.
  assert (HN : 0 < N) by (apply Z.pow_pos_nonneg; lia). assert (HB : 0 < 2 ^ b) by (apply Z.pow_pos_nonneg; lia).
  assert (Lr : length (rev (firstn k d)) = Z.to_nat (N * N)) by (rewrite rev_length; auto).
  assert (Ew : map en_worker pool' = rev (firstn k d)) by (unfold pool', en_worker; apply combine_snd; rewrite grid_length, Lr by lia; auto).
  split; [|split; [|split]].
  - rewrite Ew. eapply perm_trans; [|exact P]. rewrite <- (firstn_skipn k d) at 3. apply Permutation_app; apply Permutation_sym, Permutation_rev.
  - replace (2 ^ n) with (N * 2 ^ b) by (unfold N; rewrite <- Z.pow_add_r by lia; f_equal; lia). apply grid_tiles; auto.
  - exists b. split; [lia|]. split; [apply grid_blocks; auto|]. split.
    + intros e He. assert (Hw : In (en_worker e) (rev (firstn k d))) by (rewrite <- Ew; apply in_map; auto). apply in_rev in Hw.
      assert (Hc : c <= wk_n (en_worker e)); [|lia]. apply In_nth with (d := w0) in Hw. destruct Hw as (i & Hi & <-). rewrite firstn_length in Hi.
      assert (M : forall d i j, StronglySorted desc d -> (i <= j < length d)%nat -> wk_n (nth j d w0) <= wk_n (nth i d w0)).
      { clear. induction d as [|x d IH]; intros i j Sd H; [cbn in H; lia|]. inversion Sd; subst. destruct j as [|j]; [assert (i = 0%nat) by lia; subst; lia|].
        destruct i as [|i]; cbn [nth]; [rewrite Forall_forall in H3; apply H3; apply nth_In; cbn in H; lia|apply IH; auto; cbn in H; lia]. }
      replace (nth i (firstn k d) w0) with (nth i d w0); [apply M; [auto|lia]|]. rewrite <- (firstn_skipn k d) at 1. rewrite app_nth1 by (rewrite firstn_length; lia). reflexivity.
    + intros c' Hc'. apply Hmax in Hc'. lia.
  - reflexivity.
Qed.
Lemma pool_exists n workers : 0 <= n <= 62 -> (forall w, In w workers -> 0 <= wk_n w) -> (exists c, suffice n c workers) -> exists pool msgs rest, make_pool n workers = Ok (pool, msgs, rest).
Proof.
  intros Hn Hw Hs. unfold make_pool. destruct (draw_ok n workers Hs) as (d & k & P & Sd & Hk & Hr & E & _). rewrite E. cbn [bind].
  set (c := wk_n (at_ d k)) in *. assert (Hc : 0 <= c) by (apply Hw; eapply Permutation_in; [exact P|]; apply nth_In; lia). rewrite required_side in Hr.
  assert (Lu : length (firstn k d) = Z.to_nat (2 ^ (n - Z.min c n) * 2 ^ (n - Z.min c n))) by (rewrite <- Hr, firstn_length; lia).
  rewrite (allocate_shape n c (firstn k d) ltac:(lia) Lu). cbv zeta. rewrite check_all; [cbn [bind]; eauto|].
  intros [g w] Hin. apply In_nth_error in Hin. destruct Hin as (p & Hp). apply combine_nth_error in Hp. destruct Hp as [Hp _].
  set (b := Z.min c n) in *. apply grid_pos in Hp; [|apply Z.pow_pos_nonneg; lia]. destruct Hp as (i & j & Hi & Hj & _ & ->). cbn [en_in en_out fst snd].
  assert (HB : 0 < 2 ^ b) by (apply Z.pow_pos_nonneg; lia). assert (HNB : 2 ^ (n - b) * 2 ^ b = 2 ^ n) by (rewrite <- Z.pow_add_r by lia; f_equal; lia).
  assert (Hp : 2 ^ n <= 2 ^ 62) by (apply Z.pow_le_mono_r; lia). unfold is_int64. 
  assert (H63 : 2 ^ 62 < 2 ^ 63) by (apply Z.pow_lt_mono_r; lia). assert (0 < 2 ^ 63) by (apply Z.pow_pos_nonneg; lia). generalize dependent (2 ^ 63). generalize dependent (2 ^ 62). intros. repeat split; nia.
Qed.
Lemma pool_fails n workers : ~ (exists c, suffice n c workers) -> make_pool n workers = Raise IndexError \/ make_pool n workers = Raise InsufficientResourcesExn.
Proof.
  intros H. unfold make_pool. destruct (draw_workers n workers) as [r|e] eqn:E; [exfalso; apply H; eapply draw_inv; eauto|]. cbn [bind]. apply draw_exn in E. destruct E as [->| ->]; auto.
Qed.

(** ** releasing workers *)
Lemma split_ok threshold pool : reduce_split threshold pool = (filter (reduce_keeps threshold) pool, map en_worker (filter (fun e => negb (reduce_keeps threshold e)) pool)).
Proof.
  unfold reduce_split. assert (G : forall pool r dn, fold_left (fun '(remaining, done) e => if reduce_keeps threshold e then (remaining ++ [e], done) else (remaining, done ++ [en_worker e])) pool (r, dn) =
    (r ++ filter (reduce_keeps threshold) pool, dn ++ map en_worker (filter (fun e => negb (reduce_keeps threshold e)) pool))).
  { induction pool0 as [|e l IH]; intros r dn; cbn [fold_left filter map]; [rewrite !app_nil_r; auto|]. destruct (reduce_keeps threshold e); cbn [negb map]; rewrite IH, <- app_assoc; reflexivity. }
  apply (G pool [] []).
Qed.
Lemma filter_split {A} (p : A -> bool) l : Permutation (filter p l ++ filter (fun x => negb (p x)) l) l.
Proof.
  induction l as [|x l IH]; cbn [filter]; auto. destruct (p x); cbn [negb app]; [apply perm_skip; auto|].
  eapply perm_trans; [apply Permutation_sym, Permutation_middle|]. apply perm_skip; auto.
Qed.
Lemma split_perm threshold pool remaining done : reduce_split threshold pool = (remaining, done) -> Permutation (map en_worker remaining ++ done) (map en_worker pool).
Proof. rewrite split_ok. intros E. inversion E; subst. rewrite <- map_app. apply Permutation_map, filter_split. Qed.
(** a tiling restricted to the blocks below the threshold tiles the smaller matrix *)
Lemma filter_nth {A} (p : A -> bool) l : forall j a, nth_error (filter p l) j = Some a -> exists i, nth_error l i = Some a /\ p a = true /\ j = length (filter p (firstn i l)).
Proof.
  induction l as [|x l IH]; intros j a E; cbn [filter] in E; [destruct j; discriminate|]. destruct (p x) eqn:Ep.
  - destruct j as [|j]; cbn [nth_error] in E; [inversion E; subst; exists 0%nat; cbn; auto|]. destruct (IH j a E) as (i & H1 & H2 & H3). exists (S i). cbn [nth_error firstn filter]. rewrite Ep. cbn [length]. auto.
  - destruct (IH j a E) as (i & H1 & H2 & H3). exists (S i). cbn [nth_error firstn filter]. rewrite Ep. auto.
Qed.
Lemma nth_filter {A} (p : A -> bool) l : forall i a, nth_error l i = Some a -> p a = true -> nth_error (filter p l) (length (filter p (firstn i l))) = Some a.
Proof.
  induction l as [|x l IH]; intros i a E Hp; [destruct i; discriminate|]. destruct i as [|i]; cbn [nth_error firstn filter] in *.
  - inversion E; subst. rewrite Hp. reflexivity.
  - destruct (p x); cbn [length nth_error]; apply IH; auto.
Qed.
Lemma tiles_below N size T pool : 0 < size -> tiles N pool -> blocks size pool -> 0 <= T <= N -> T mod size = 0 -> tiles T (filter (reduce_keeps T) pool).
Proof.
  intros Hs [T1 T2] Hb HT Hm.
  assert (K : forall e row col, In e pool -> owns e row col -> reduce_keeps T e = true <-> row < T /\ col < T).
  { intros e row col Hin Ho. destruct (Hb e Hin) as (i & j & Ei & Ej). unfold owns in Ho. unfold reduce_keeps. rewrite Ei, Ej in *. cbn [fst snd] in *. rewrite andb_true_iff, !Z.leb_le.
    assert (ET : T = T / size * size) by (pose proof (Z.div_mod T size ltac:(lia)); lia). set (t := T / size) in *. split; [nia|]. intros [H1 H2]. 
    assert (i < t) by nia. assert (j < t) by nia. nia. }
  split.
  - intros row col Hr Hc. destruct (T1 row col) as (i & e & Hi & Ho & Hu); [lia|lia|]. assert (Hin : In e pool) by (eapply nth_error_In; eauto).
    assert (Hk : reduce_keeps T e = true) by (apply (K e row col); auto; lia). exists (length (filter (reduce_keeps T) (firstn i pool))), e.
    split; [apply nth_filter; auto|]. split; auto. intros j e' Hj Ho'. apply filter_nth in Hj. destruct Hj as (i' & Hi' & Hk' & ->). rewrite (Hu i' e' Hi' Ho'). reflexivity.
  - intros e row col Hin Ho. apply filter_In in Hin. destruct Hin as [Hin Hk]. destruct (T2 e row col Hin Ho). apply (K e row col Hin Ho) in Hk. lia.
Qed.
Lemma none_below size T pool : 0 < size -> blocks size pool -> (forall e, In e pool -> 0 <= fst (en_in e)) -> T < size -> filter (reduce_keeps T) pool = [].
Proof.
  intros Hs Hb H0 HT. induction pool as [|e pool IH]; auto. cbn [filter]. destruct (Hb e (or_introl eq_refl)) as (i & j & Ei & Ej). pose proof (H0 e (or_introl eq_refl)) as Hi.
  unfold reduce_keeps at 1. rewrite Ei, Ej in *. cbn [fst snd] in *. rewrite (proj2 (Z.leb_gt _ _)) by nia. cbn [andb]. apply IH; [intros e' He'; apply Hb; right; auto|intros; apply H0; right; auto].
Qed.
