From Verif Require Import Base M_Pool S_Pool L_Pool L_Pool2 L_Pool3 M_Manager S_Manager.

Lemma held_upd jobs j x y : nth_error jobs j = Some x -> Permutation (held x ++ concat (map held (upd jobs j y))) (held y ++ concat (map held jobs)).
Proof.
  revert j. induction jobs as [|z jobs IH]; intros j H; [destruct j; discriminate|]. destruct j as [|j]; cbn in *.
  - injection H as ->. rewrite !app_assoc. apply Permutation_app_tail, Permutation_app_comm.
  - specialize (IH j H). rewrite !app_assoc. rewrite (Permutation_app_comm (held x) (held z)), (Permutation_app_comm (held y) (held z)), <- !app_assoc. apply Permutation_app_head. exact IH.
Qed.
Lemma held_same jobs j x y : nth_error jobs j = Some x -> Permutation (held y) (held x) -> Permutation (concat (map held (upd jobs j y))) (concat (map held jobs)).
Proof. intros H Hp. apply Permutation_app_inv_l with (held x). rewrite held_upd by exact H. apply Permutation_app_tail. exact Hp. Qed.
Lemma allocate_perm n mn u es ms : allocate_workers n mn u = Ok (es, ms) -> Permutation (map en_worker es) u.
Proof.
  unfold allocate_workers. destruct (worker_ranges n (Z.min mn n)) as [rs|]; [|discriminate]. cbn [bind].
  assert (Hin : forall ir rs acc acc', mfold (fun '(workers, unallocated) outputrange => do wu <- pop unallocated; Ok (workers ++ [(ir, outputrange, fst wu)], snd wu)) rs acc = Ok acc' ->
    Permutation (map en_worker (fst acc') ++ snd acc') (map en_worker (fst acc) ++ snd acc)).
  { intros ir l. induction l as [|o l IH]; intros [ws ua] acc' E; cbn in E; [injection E as <-; reflexivity|].
    unfold pop in E. destruct (rev ua) as [|w l'] eqn:Er; [discriminate|]. cbn [bind fst snd] in E. rewrite (IH _ _ E). cbn [fst snd].
    assert (Eu : ua = rev l' ++ [w]) by (rewrite <- (rev_involutive ua), Er; reflexivity). rewrite Eu, map_app, <- app_assoc. apply Permutation_app_head. cbn. apply Permutation_cons_append. }
  assert (H : forall l acc acc', mfold (fun acc inputrange => mfold (fun '(workers, unallocated) outputrange => do wu <- pop unallocated; Ok (workers ++ [(inputrange, outputrange, fst wu)], snd wu)) rs acc) l acc = Ok acc' ->
    Permutation (map en_worker (fst acc') ++ snd acc') (map en_worker (fst acc) ++ snd acc)).
  { induction l as [|i l IH]; intros acc acc' E; cbn [mfold] in E; [injection E as <-; reflexivity|].
    destruct (mfold (fun '(workers, unallocated) outputrange => do wu <- pop unallocated; Ok (workers ++ [(i, outputrange, fst wu)], snd wu)) rs acc) as [a|] eqn:E1; [|discriminate].
    cbn [bind] in E. rewrite (IH _ _ E). exact (Hin i rs acc a E1). }
  destruct (mfold _ rs ([], u)) as [[ws ua]|] eqn:E; [|discriminate]. specialize (H rs _ _ E). cbn [bind fst snd map app] in *.
  destruct (zlen ua =? 0) eqn:E0; cbn [negb]; [|discriminate]. apply Z.eqb_eq in E0. destruct ua; [|rewrite zlen_cons in E0; pose proof (zlen_nonneg ua); lia].
  rewrite app_nil_r in H. destruct (mfold (fun _ e => check_ranges e) ws tt); [|discriminate]. cbn [bind]. intros E2. injection E2 as <- _. exact H.
Qed.

Lemma draw_perm n ws u mn rest : draw_workers n ws = Ok (u, mn, rest) -> Permutation (u ++ rest) ws.
Proof.
  intros E. destruct (draw_ok n ws (draw_inv _ _ _ E)) as (d & k & P & _ & _ & _ & E' & _). rewrite E in E'. injection E' as -> _ ->.
  rewrite <- P. rewrite <- (firstn_skipn k d) at 3. apply Permutation_app_head. symmetry. apply Permutation_rev.
Qed.
Lemma reduce_perm n ws is p d : pool_reduce (mkPool n ws) is = (p, d) -> Permutation (map en_worker (p_workers p) ++ d) (map en_worker ws).
Proof.
  unfold pool_reduce. cbn [p_n p_workers]. destruct (reduce_split (reduce_threshold n is) ws) as [r d'] eqn:E. intros E'. injection E' as <- <-. cbn [p_workers].
  exact (split_perm _ _ _ _ E).
Qed.

Definition all_workers (m : manager) : list worker := mg_free m ++ concat (map held (mg_jobs m)).
(** what the status says about the lists *)
Definition job_ok (x : job) : Prop :=
  match jb_status x with
  | Drawn => jb_pool x = [] /\ jb_returned x = []
  | Allocated => jb_unallocated x = [] /\ jb_returned x = []
  | Serving => jb_unallocated x = []
  | Closing => jb_unallocated x = [] /\ jb_returned x = []
  | Returning => jb_unallocated x = [] /\ jb_pool x = []
  | Finished => jb_unallocated x = [] /\ jb_pool x = [] /\ jb_returned x = []
  | Dead => True
  end.
Definition ok (m : manager) : Prop := forall j x, nth_error (mg_jobs m) j = Some x -> job_ok x.

Lemma nth_error_upd {A} (l : list A) j y i : nth_error (upd l j y) i = if (i =? j)%nat then match nth_error l i with Some _ => Some y | None => None end else nth_error l i.
Proof.
  revert j i. induction l as [|a l IH]; intros j i; [destruct i; cbn; match goal with |- context [if ?b then _ else _] => destruct b end; reflexivity|].
  destruct j as [|j], i as [|i]; cbn; try reflexivity. apply IH.
Qed.
Lemma ok_set m j x y f : ok m -> nth_error (mg_jobs m) j = Some x -> job_ok y -> ok (mkManager f (upd (mg_jobs m) j y)).
Proof.
  intros Hm Hj Hy i z. cbn [mg_jobs]. rewrite nth_error_upd. destruct (Nat.eqb_spec i j) as [->|_]; [|apply Hm]. rewrite Hj. intros E. injection E as <-. exact Hy.
Qed.
Lemma ok_app m f x : ok m -> job_ok x -> ok (mkManager f (mg_jobs m ++ [x])).
Proof.
  intros Hm Hx i z. cbn [mg_jobs]. destruct (Nat.lt_ge_cases i (length (mg_jobs m))) as [H|H]; [rewrite nth_error_app1 by exact H; apply Hm|].
  rewrite nth_error_app2 by exact H. destruct (i - length (mg_jobs m))%nat as [|k]; cbn; [intros E; injection E as <-; exact Hx|destruct k; discriminate].
Qed.

Lemma step_ok m e m' : ok m -> step m e = Some m' -> ok m' /\ Permutation (all_workers m') (all_workers m ++ registered [e]).
Proof.
  intros Hm. unfold all_workers. destruct e as [w|n|j sent|j sent|j op|j|j sent]; cbn [step registered flat_map]; intros E.
  - injection E as <-. split; [exact Hm|]. cbn [mg_free mg_jobs]. rewrite <- !app_assoc. apply Permutation_app_head. apply Permutation_app_comm.
  - rewrite app_nil_r. destruct (draw_workers n (mg_free m)) as [[[u mn] rest]|ex] eqn:Ed; injection E as <-; (split; [apply ok_app; [exact Hm|cbn; auto]|]); cbn [mg_free mg_jobs]; rewrite map_app, concat_app; cbn.
    + unfold held at 2. cbn. rewrite !app_nil_r. rewrite <- (draw_perm _ _ _ _ _ Ed). rewrite (Permutation_app_comm (concat _) u), app_assoc, (Permutation_app_comm rest u). reflexivity.
    + rewrite app_nil_r. reflexivity.
  - rewrite app_nil_r. destruct (nth_error (mg_jobs m) j) as [x|] eqn:Ej; [|discriminate]. pose proof (Hm j x Ej) as Hx. unfold job_ok in Hx. destruct (jb_status x) eqn:Es; try discriminate. destruct Hx as [Hp Hr].
    destruct (allocate_workers (jb_n x) (jb_min x) (jb_unallocated x)) as [[es ms]|ex] eqn:Ea; injection E as <-; cbn [mg_free mg_jobs set_job]; (split; [eapply ok_set; [exact Hm|exact Ej|]|apply Permutation_app_head]).
    + unfold job_ok; cbn. destruct sent; auto.
    + apply held_same with x; [exact Ej|]. unfold held. rewrite Hp, Hr. cbn. rewrite !app_nil_r. exact (allocate_perm _ _ _ _ _ Ea).
    + exact I.
    + apply held_same with x; [exact Ej|reflexivity].
  - rewrite app_nil_r. destruct (nth_error (mg_jobs m) j) as [x|] eqn:Ej; [|discriminate]. pose proof (Hm j x Ej) as Hx. unfold job_ok in Hx. destruct (jb_status x) eqn:Es; try discriminate. destruct Hx as [Hu Hr].
    injection E as <-. cbn [mg_free mg_jobs set_job]. split; [eapply ok_set; [exact Hm|exact Ej|]|apply Permutation_app_head; apply held_same with x; [exact Ej|reflexivity]].
    destruct sent; [exact Hu|exact I].
  - rewrite app_nil_r. destruct (nth_error (mg_jobs m) j) as [x|] eqn:Ej; [|discriminate]. pose proof (Hm j x Ej) as Hx. unfold job_ok in Hx. destruct (jb_status x) eqn:Es; try discriminate.
    destruct (jb_returned x) as [|? ?] eqn:Er; [|discriminate]. destruct op as [|is| |].
    + injection E as <-. split; [exact Hm|reflexivity].
    + destruct (pool_reduce (mkPool (jb_n x) (jb_pool x)) is) as [p d] eqn:Ep. injection E as <-. cbn [mg_free mg_jobs set_job].
      split; [eapply ok_set; [exact Hm|exact Ej|exact Hx]|apply Permutation_app_head; apply held_same with x; [exact Ej|]].
      unfold held. cbn. rewrite Hx, Er, app_nil_r. cbn. exact (reduce_perm _ _ _ _ _ Ep).
    + injection E as <-. cbn [mg_free mg_jobs set_job]. split; [eapply ok_set; [exact Hm|exact Ej|split; [exact Hx|exact Er]]|apply Permutation_app_head; apply held_same with x; [exact Ej|reflexivity]].
    + injection E as <-. cbn [mg_free mg_jobs set_job]. split; [eapply ok_set; [exact Hm|exact Ej|split; [exact Hx|exact Er]]|apply Permutation_app_head; apply held_same with x; [exact Ej|reflexivity]].
  - rewrite app_nil_r. destruct (nth_error (mg_jobs m) j) as [x|] eqn:Ej; [|discriminate]. pose proof (Hm j x Ej) as Hx. unfold job_ok in Hx.
    assert (Hsame : forall s, Permutation (jb_returned x ++ concat (map held (upd (mg_jobs m) j (mkJob (jb_n x) (jb_min x) (jb_unallocated x) (jb_pool x) [] s)))) (concat (map held (mg_jobs m)))).
    { intros s. apply Permutation_app_inv_l with (held x). pose proof (held_upd (mg_jobs m) j x (mkJob (jb_n x) (jb_min x) (jb_unallocated x) (jb_pool x) [] s) Ej) as H.
      rewrite app_assoc, (Permutation_app_comm (held x)), <- app_assoc. rewrite H. rewrite app_assoc. apply Permutation_app_tail. unfold held. cbn. rewrite app_nil_r.
      rewrite (Permutation_app_comm (jb_returned x)), <- app_assoc. reflexivity. }
    destruct (jb_status x) eqn:Es; try discriminate; injection E as <-; cbn [mg_free mg_jobs]; (split; [eapply ok_set; [exact Hm|exact Ej|]|rewrite <- app_assoc; apply Permutation_app_head; apply Hsame]).
    + exact Hx.
    + destruct Hx as [H1 H2]. split; [exact H1|split; [exact H2|reflexivity]].
  - rewrite app_nil_r. destruct (nth_error (mg_jobs m) j) as [x|] eqn:Ej; [|discriminate]. pose proof (Hm j x Ej) as Hx. unfold job_ok in Hx. destruct (jb_status x) eqn:Es; try discriminate. destruct Hx as [Hu Hr].
    injection E as <-. cbn [mg_free mg_jobs set_job]. destruct sent; (split; [eapply ok_set; [exact Hm|exact Ej|]|apply Permutation_app_head; apply held_same with x; [exact Ej|]]).
    + split; [exact Hu|reflexivity].
    + unfold held. cbn. rewrite Hr, app_nil_r. reflexivity.
    + exact I.
    + reflexivity.
Qed.

Lemma run_ok es : forall m m', ok m -> run m es = Some m' -> ok m' /\ Permutation (all_workers m') (all_workers m ++ registered es).
Proof.
  induction es as [|e es IH]; intros m m' Hm E; cbn in E; [injection E as <-; split; [exact Hm|cbn; rewrite app_nil_r; reflexivity]|].
  destruct (step m e) as [m1|] eqn:E1; [|discriminate]. destruct (step_ok m e m1 Hm E1) as [H1 P1]. destruct (IH m1 m' H1 E) as [H2 P2]. split; [exact H2|].
  rewrite P2, P1, <- app_assoc. apply Permutation_app_head. unfold registered. cbn. rewrite app_nil_r. reflexivity.
Qed.
Lemma init_ok : ok manager_init.
Proof. intros [|j] x H; discriminate. Qed.
Lemma conserved es m : run manager_init es = Some m -> Permutation (mg_free m ++ concat (map held (mg_jobs m))) (registered es).
Proof. intros E. destruct (run_ok es _ _ init_ok E) as [_ H]. exact H. Qed.

Lemma finished_free es m : run manager_init es = Some m ->
  (forall j x, nth_error (mg_jobs m) j = Some x -> jb_status x = Finished -> held x = []) /\
  ((forall j x, nth_error (mg_jobs m) j = Some x -> jb_status x = Finished) -> Permutation (mg_free m) (registered es)).
Proof.
  intros E. destruct (run_ok es _ _ init_ok E) as [H P].
  assert (Hf : forall j x, nth_error (mg_jobs m) j = Some x -> jb_status x = Finished -> held x = []).
  { intros j x Hj Hs. specialize (H j x Hj). unfold job_ok in H. rewrite Hs in H. destruct H as (H1 & H2 & H3). unfold held. rewrite H1, H2, H3. reflexivity. }
  split; [exact Hf|]. intros Hall. cbn in P. rewrite <- P. unfold all_workers.
  assert (En : concat (map held (mg_jobs m)) = []); [|rewrite En, app_nil_r; reflexivity].
  assert (Hin : forall x, In x (mg_jobs m) -> held x = []) by (intros x Hx; apply In_nth_error in Hx; destruct Hx as [j Hj]; apply (Hf j x Hj), (Hall j x Hj)).
  clear -Hin. induction (mg_jobs m) as [|x l IH]; [reflexivity|]. cbn. rewrite (Hin x) by (left; reflexivity). apply IH. intros y Hy. apply Hin. right. exact Hy.
Qed.

Lemma dead_stays m e m' j x : step m e = Some m' -> nth_error (mg_jobs m) j = Some x -> jb_status x = Dead -> nth_error (mg_jobs m') j = Some x.
Proof.
  intros E Hj Hd.
  assert (Hset : forall i y z, nth_error (mg_jobs m) i = Some y -> jb_status y <> Dead -> nth_error (upd (mg_jobs m) i z) j = Some x).
  { intros i y z Hi Hy. rewrite nth_error_upd. destruct (Nat.eqb_spec j i) as [->|_]; [|exact Hj]. congruence. }
  destruct e as [w|n|i sent|i sent|i op|i|i sent]; cbn [step] in E.
  - injection E as <-. exact Hj.
  - assert (Ha : forall f y, nth_error (mg_jobs (mkManager f (mg_jobs m ++ [y]))) j = Some x) by (intros f y; cbn; rewrite nth_error_app1; [exact Hj|apply nth_error_Some; congruence]).
    destruct (draw_workers n (mg_free m)) as [[[u mn] rest]|ex]; injection E as <-; apply Ha.
  - destruct (nth_error (mg_jobs m) i) as [y|] eqn:Ei; [|discriminate]. destruct (jb_status y) eqn:Es; try discriminate.
    destruct (allocate_workers _ _ _) as [[? ?]|]; injection E as <-; apply (Hset i y); try exact Ei; congruence.
  - destruct (nth_error (mg_jobs m) i) as [y|] eqn:Ei; [|discriminate]. destruct (jb_status y) eqn:Es; try discriminate. injection E as <-; apply (Hset i y); try exact Ei; congruence.
  - destruct (nth_error (mg_jobs m) i) as [y|] eqn:Ei; [|discriminate]. destruct (jb_status y) eqn:Es; try discriminate. destruct (jb_returned y); [|discriminate].
    destruct op; [injection E as <-; exact Hj|destruct (pool_reduce _ _)| |]; injection E as <-; apply (Hset i y); try exact Ei; congruence.
  - destruct (nth_error (mg_jobs m) i) as [y|] eqn:Ei; [|discriminate]. destruct (jb_status y) eqn:Es; try discriminate; injection E as <-; apply (Hset i y); try exact Ei; congruence.
  - destruct (nth_error (mg_jobs m) i) as [y|] eqn:Ei; [|discriminate]. destruct (jb_status y) eqn:Es; try discriminate. injection E as <-; apply (Hset i y); try exact Ei; congruence.
Qed.
Lemma dead_stays_run es : forall m m' j x, run m es = Some m' -> nth_error (mg_jobs m) j = Some x -> jb_status x = Dead -> nth_error (mg_jobs m') j = Some x.
Proof.
  induction es as [|e es IH]; intros m m' j x E Hj Hd; cbn in E; [injection E as <-; exact Hj|]. destruct (step m e) as [m1|] eqn:E1; [|discriminate].
  exact (IH m1 m' j x E (dead_stays m e m1 j x E1 Hj Hd) Hd).
Qed.
Lemma run_app es : forall es' m, run m (es ++ es') = match run m es with Some m' => run m' es' | None => None end.
Proof. induction es as [|e es IH]; intros es' m; cbn; [reflexivity|]. destruct (step m e); [apply IH|reflexivity]. Qed.
Lemma in_held_concat jobs j x w : nth_error jobs j = Some x -> In w (held x) -> In w (concat (map held jobs)).
Proof. intros Hj Hw. apply in_concat. exists (held x). split; [|exact Hw]. apply in_map, (nth_error_In _ _ Hj). Qed.
Lemma nodup_app_disjoint {A} (l l' : list A) a : NoDup (l ++ l') -> In a l -> In a l' -> False.
Proof. induction l as [|b l IH]; intros Hn [] H'; cbn in Hn; inversion Hn; subst; [apply H2; apply in_or_app; right; exact H'|auto]. Qed.

Lemma lost_forever es m j x e : run manager_init es = Some m -> nth_error (mg_jobs m) j = Some x ->
  (jb_status x = Drawn /\ e = Allocate j false) \/ (jb_status x = Allocated /\ e = Reply j false) \/ (jb_status x = Closing /\ e = ClosePool j false) ->
  forall w, In w (held x) -> forall es' m', run m (e :: es') = Some m' -> NoDup (registered (es ++ e :: es')) -> ~ In w (mg_free m').
Proof.
  intros E Hj He w Hw es' m' E' Hn Hin. cbn [run] in E'. destruct (step m e) as [m1|] eqn:E1; [|discriminate].
  assert (Hy : exists y, nth_error (mg_jobs m1) j = Some y /\ jb_status y = Dead /\ In w (held y)).
  { destruct (run_ok es _ _ init_ok E) as [Hm _]. pose proof (Hm j x Hj) as Hx. unfold job_ok in Hx.
    destruct He as [[Hs ->]|[[Hs ->]|[Hs ->]]]; cbn [step] in E1; rewrite Hj, Hs in E1; rewrite Hs in Hx.
    - destruct (allocate_workers (jb_n x) (jb_min x) (jb_unallocated x)) as [[es0 ms]|ex] eqn:Ea; injection E1 as <-; cbn [set_job mg_jobs]; rewrite nth_error_upd, Nat.eqb_refl, Hj; (eexists; split; [reflexivity|split; [reflexivity|]]).
      + destruct Hx as [H1 H2]. unfold held in *. rewrite H1, H2 in Hw. cbn in *. rewrite !app_nil_r in *. apply (Permutation_in w (Permutation_sym (allocate_perm _ _ _ _ _ Ea))). exact Hw.
      + exact Hw.
    - injection E1 as <-; cbn [set_job mg_jobs]; rewrite nth_error_upd, Nat.eqb_refl, Hj; (eexists; split; [reflexivity|split; [reflexivity|exact Hw]]).
    - injection E1 as <-; cbn [set_job mg_jobs]; rewrite nth_error_upd, Nat.eqb_refl, Hj; (eexists; split; [reflexivity|split; [reflexivity|exact Hw]]). }
  destruct Hy as (y & Hy & Hd & Hwy). pose proof (dead_stays_run es' m1 m' j y E' Hy Hd) as Hy'.
  assert (Erun : run manager_init (es ++ e :: es') = Some m') by (rewrite run_app, E; cbn; rewrite E1; exact E').
  pose proof (conserved _ _ Erun) as P. apply (Permutation_NoDup (Permutation_sym P)) in Hn. apply (nodup_app_disjoint _ _ w Hn Hin). apply (in_held_concat _ j y w Hy' Hwy).
Qed.

(** a served client that closes gives everything back *)
Lemma normal_end es m j x : run manager_init es = Some m -> nth_error (mg_jobs m) j = Some x -> jb_status x = Serving ->
  exists m', run m [GiveBack j; Operation j OpClose; ClosePool j true; GiveBack j] = Some m' /\ Permutation (mg_free m') (mg_free m ++ held x) /\
    exists y, nth_error (mg_jobs m') j = Some y /\ jb_status y = Finished /\ forall i, i <> j -> nth_error (mg_jobs m') i = nth_error (mg_jobs m) i.
Proof.
  intros E Hj Hs. destruct (run_ok es _ _ init_ok E) as [Hm _]. pose proof (Hm j x Hj) as Hx. unfold job_ok in Hx. rewrite Hs in Hx.
  cbn [run step]. rewrite Hj, Hs. cbn [mg_jobs mg_free]. rewrite !nth_error_upd, Nat.eqb_refl, Hj. cbn [jb_status jb_returned set_job mg_jobs mg_free with_status].
  rewrite !nth_error_upd, Nat.eqb_refl, Hj. cbn [jb_status jb_returned set_job mg_jobs mg_free with_status jb_pool].
  rewrite !nth_error_upd, Nat.eqb_refl, Hj. cbn [jb_status jb_returned set_job mg_jobs mg_free with_status jb_pool].
  eexists. split; [reflexivity|]. cbn [mg_free mg_jobs]. split.
  - rewrite <- app_assoc. apply Permutation_app_head. unfold held. rewrite Hx. cbn. apply Permutation_app_comm.
  - rewrite !nth_error_upd, Nat.eqb_refl, Hj. eexists. split; [reflexivity|]. split; [reflexivity|]. intros i Hi. rewrite !nth_error_upd. apply Nat.eqb_neq in Hi. rewrite Hi. reflexivity.
Qed.
