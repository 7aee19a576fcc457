(** Lemmas: the workers a job has given back are drawn again. *)
From Coq Require Import Sorted.
From Verif Require Import Base M_Proto S_Proto L_Proto M_Pool S_Pool L_Pool L_Pool2 M_Manager S_Manager.

Lemma insert_above a l r : Forall (fun x => wk_n x <= wk_n r) a -> insert_n r (a ++ l) = a ++ insert_n r l.
Proof. induction 1 as [|x a Hx _ IH]; cbn [app insert_n]; [reflexivity|]. rewrite (proj2 (Z.ltb_ge _ _)) by lia. rewrite IH. reflexivity. Qed.
Lemma sort_above a r : StronglySorted asc a -> (forall x y, In x a -> In y r -> wk_n x <= wk_n y) -> sort_n (a ++ r) = a ++ sort_n r.
Proof.
  intros Ha Hr. unfold sort_n. rewrite fold_left_app. assert (E : fold_left (fun acc w => insert_n w acc) a [] = a).
  { clear Hr. assert (G : forall a acc, StronglySorted asc (acc ++ a) -> fold_left (fun acc w => insert_n w acc) a acc = acc ++ a).
    { clear. induction a as [|x a IH]; intros acc H; cbn [fold_left]; [rewrite app_nil_r; reflexivity|].
      assert (E : insert_n x acc = acc ++ [x]).
      { rewrite <- (app_nil_r acc) at 1. apply insert_above. clear IH. induction acc as [|y acc IH]; [constructor|]. cbn [app] in H. inversion H as [|? ? Hs Hf]; subst. constructor; [|apply IH; exact Hs].
        apply (proj1 (Forall_forall _ _) Hf x). apply in_or_app. right. left. reflexivity. }
      rewrite E, IH; rewrite <- app_assoc; [reflexivity|exact H]. }
    apply (G a []). exact Ha. }
  rewrite E. clear E. assert (G : forall r, (forall x y, In x a -> In y r -> wk_n x <= wk_n y) -> forall acc, fold_left (fun acc w => insert_n w acc) r (a ++ acc) = a ++ fold_left (fun acc w => insert_n w acc) r acc).
  { clear. induction r as [|y r IH]; intros H acc; cbn [fold_left]; [reflexivity|]. rewrite insert_above; [|apply Forall_forall; intros x Hx; apply H; [exact Hx|left; reflexivity]]. apply IH. intros x z Hx Hz. apply H; [exact Hx|right; exact Hz]. }
  rewrite <- (app_nil_r a) at 1. apply G. exact Hr.
Qed.
Lemma sorted_app a b : StronglySorted desc (a ++ b) -> StronglySorted desc b /\ forall x y, In x a -> In y b -> wk_n y <= wk_n x.
Proof.
  induction a as [|z a IH]; cbn [app]; intros H; [split; [exact H|intros x y []]|]. inversion H as [|? ? Hs Hf]; subst. destruct (IH Hs) as [H1 H2]. split; [exact H1|].
  intros x y [<-|Hx] Hy; [|apply H2; assumption]. apply (proj1 (Forall_forall _ _) Hf y). apply in_or_app. right. exact Hy.
Qed.
Lemma desc_rev l : StronglySorted desc l -> StronglySorted asc (rev l).
Proof.
  induction 1 as [|x l Hs IH Hf]; cbn [rev]; [constructor|]. assert (G : forall l x, StronglySorted asc l -> Forall (fun y => asc y x) l -> StronglySorted asc (l ++ [x])).
  { clear. induction l as [|y l IH]; intros x H F; cbn [app]; [repeat constructor|]. inversion H; subst. inversion F; subst. constructor; [auto|]. apply Forall_app. split; [assumption|]. repeat constructor. assumption. }
  apply G; [exact IH|]. apply Forall_rev. exact Hf.
Qed.

Lemma redraw n ws u c rest r : draw_workers n ws = Ok (u, c, rest) -> Permutation r u -> exists u', draw_workers n (rest ++ r) = Ok (u', c, rest) /\ Permutation u' u.
Proof.
  intros E P. assert (Hs := draw_inv _ _ _ E). destruct (draw_sorted n ws Hs) as (k & Pd & Sd & Hk & Hr & E' & Hmax). set (d := rev (sort_n ws)) in *.
  rewrite E in E'. injection E' as -> -> ->. set (c := wk_n (at_ d k)) in *.
  assert (Pf : Permutation (rev (skipn k d) ++ r) ws).
  { eapply perm_trans; [apply Permutation_app; [apply Permutation_sym, Permutation_rev|exact P]|]. eapply perm_trans; [apply Permutation_app_comm|]. rewrite firstn_skipn. exact Pd. }
  assert (Hsame : forall x, suffice n x (rev (skipn k d) ++ r) <-> suffice n x ws) by (intros x; unfold suffice; rewrite (capable_perm x _ _ Pf); tauto).
  assert (Hc : forall l j, StronglySorted desc l -> (1 <= j <= length l)%nat -> Z.of_nat j = required_for n (wk_n (at_ l j)) -> suffice n (wk_n (at_ l j)) l).
  { intros l j Hl Hj E1. unfold suffice. rewrite <- required_4, <- E1. apply first_capable; assumption. }
  destruct (draw_sorted n (rev (skipn k d) ++ r)) as (k' & Pd' & Sd' & Hk' & Hr' & E' & Hmax'); [destruct Hs as (x & Hx); exists x; apply Hsame; exact Hx|].
  set (d' := rev (sort_n (rev (skipn k d) ++ r))) in *. set (c' := wk_n (at_ d' k')) in *.
  assert (Ec : c' = c).
  { apply Z.le_antisymm.
    - apply Hmax. apply Hsame. unfold suffice. rewrite <- (capable_perm c' _ _ Pd'). apply Hc; assumption.
    - apply Hmax'. apply Hsame. unfold suffice. rewrite <- (capable_perm c _ _ Pd). apply Hc; assumption. }
  assert (Ek : k' = k) by (apply Nat2Z.inj; rewrite Hr, Hr', Ec; reflexivity). subst k'.
  assert (Sp := sorted_app (firstn k d) (skipn k d)). rewrite firstn_skipn in Sp. destruct (Sp Sd) as [Ss Hle].
  assert (Ed : d' = rev (sort_n r) ++ skipn k d).
  { unfold d'. rewrite sort_above; [rewrite rev_app_distr, rev_involutive; reflexivity|apply desc_rev; exact Ss|]. intros x y Hx Hy. apply Hle; [eapply Permutation_in; [exact P|exact Hy]|apply in_rev; exact Hx]. }
  assert (Lr : length (rev (sort_n r)) = k). { rewrite rev_length, (Permutation_length (sort_n_perm r)), (Permutation_length P), firstn_length. lia. }
  assert (F1 : forall (a b : list worker), firstn (length a) (a ++ b) = a /\ skipn (length a) (a ++ b) = b) by (clear; induction a as [|x a IH]; intros b; cbn; [auto|destruct (IH b) as [-> ->]; auto]).
  destruct (F1 (rev (sort_n r)) (skipn k d)) as [G1 G2]. rewrite Lr in G1, G2. rewrite <- Ed in G1, G2.
  exists (rev (sort_n r)). split; [rewrite E', Ec, G1, G2; reflexivity|].
  eapply perm_trans; [apply Permutation_sym, Permutation_rev|]. eapply perm_trans; [apply sort_n_perm|exact P].
Qed.
Lemma draw_length n ws u c rest : draw_workers n ws = Ok (u, c, rest) -> Z.of_nat (length u) = required_for n c.
Proof.
  intros E. destruct (draw_sorted n ws (draw_inv _ _ _ E)) as (k & _ & _ & Hk & Hr & E' & _). rewrite E in E'. injection E' as -> -> _. rewrite <- Hr, firstn_length. lia.
Qed.
Lemma check_shape (p q : list entry) : map fst p = map fst q -> mfold (fun _ e => check_ranges e) p tt = mfold (fun _ e => check_ranges e) q tt.
Proof.
  revert q. induction p as [|e p IH]; intros [|f q] E; try discriminate; [reflexivity|]. cbn [map] in E. injection E as E1 E2. cbn [mfold]. replace (check_ranges f) with (check_ranges e) by (unfold check_ranges, en_in, en_out; rewrite E1; reflexivity).
  destruct (check_ranges e) as [[]|]; cbn [bind]; [apply IH; exact E2|reflexivity].
Qed.
Lemma reallocate n c u u' p ms : Z.of_nat (length u) = required_for n c -> Permutation u' u -> allocate_workers n c u = Ok (p, ms) ->
  exists p' ms', allocate_workers n c u' = Ok (p', ms') /\ Permutation (map en_worker p) u /\ Permutation (map en_worker p') u.
Proof.
  intros L P E. destruct (Z.ltb_spec (Z.min c n) 0) as [Hn|Hn]; [rewrite allocate_negative in E by exact Hn; discriminate|]. rewrite required_side in L.
  rewrite allocate_shape in E by (auto; lia). assert (L' := Permutation_length P). rewrite allocate_shape by (auto; lia). cbv zeta in *. set (N := 2 ^ (n - Z.min c n)) in *.
  assert (HN : 0 <= N) by (apply Z.pow_nonneg; lia). assert (Lg := grid_length N (2 ^ Z.min c n) HN).
  assert (G : forall v, length v = length u -> map fst (combine (grid N (2 ^ Z.min c n)) (rev v)) = grid N (2 ^ Z.min c n) /\ map en_worker (combine (grid N (2 ^ Z.min c n)) (rev v)) = rev v).
  { intros v Hv. split; [apply combine_fst|apply combine_snd]; rewrite rev_length; lia. }
  destruct (G u eq_refl) as [G1 G2], (G u' L') as [G1' G2'].
  rewrite (check_shape _ (combine (grid N (2 ^ Z.min c n)) (rev u))) by congruence. destruct (mfold _ _ tt) as [t|]; [|discriminate]. cbn [bind] in *. injection E as <- _.
  do 2 eexists. split; [reflexivity|]. rewrite G2, G2'. split; [apply Permutation_sym, Permutation_rev|]. eapply perm_trans; [apply Permutation_sym, Permutation_rev|exact P].
Qed.

Definition new_job (n : Z) (j : nat) : list event := [MakeState n; Allocate j true; Reply j true].
Definition failing_job (j : nat) : list event := [Operation j OpFails; ClosePool j true; GiveBack j].
Lemma upd_last {A} (l : list A) a b : upd (l ++ [a]) (length l) b = l ++ [b].
Proof. induction l as [|x l IH]; cbn [app length upd]; [reflexivity|]. rewrite IH. reflexivity. Qed.
Lemma nth_last {A} (l : list A) a : nth_error (l ++ [a]) (length l) = Some a.
Proof. induction l as [|x l IH]; [reflexivity|exact IH]. Qed.
Lemma again m n m1 x : let j := length (mg_jobs m) in run m (new_job n j) = Some m1 -> nth_error (mg_jobs m1) j = Some x ->
  exists m2 y, run m1 (failing_job j ++ new_job n (S j)) = Some m2 /\ nth_error (mg_jobs m2) (S j) = Some y /\ jb_status y = Serving /\
    Permutation (map en_worker (jb_pool y)) (map en_worker (jb_pool x)).
Proof.
  intros j E Hx. unfold new_job in E. cbn [run step] in E. destruct (draw_workers n (mg_free m)) as [[[u c] rest]|] eqn:Ed.
  2:{ cbn [mg_jobs] in E. unfold j in E. rewrite nth_last in E. discriminate. }
  cbn [mg_jobs] in E. unfold j in E. rewrite nth_last in E. cbn [jb_status jb_n jb_min jb_unallocated] in E. destruct (allocate_workers n c u) as [[p ms]|] eqn:Ea.
  2:{ cbn [set_job mg_jobs] in E. rewrite upd_last, nth_last in E. discriminate. }
  cbn [set_job mg_jobs mg_free] in E. rewrite upd_last, nth_last in E. cbn [jb_status with_status set_job mg_free mg_jobs jb_n jb_min jb_unallocated jb_pool jb_returned] in E. unfold set_job, with_status in E. cbn [mg_free mg_jobs jb_n jb_min jb_unallocated jb_pool jb_returned] in E. rewrite upd_last in E. rewrite upd_last in E. injection E as <-.
  cbn [mg_jobs] in Hx. unfold j in Hx. rewrite nth_last in Hx. injection Hx as <-. cbn [jb_pool].
  assert (Lu := draw_length _ _ _ _ _ Ed). destruct (reallocate n c u u p ms Lu (Permutation_refl u) Ea) as (_ & _ & _ & P1 & _).
  destruct (redraw n _ u c rest (map en_worker p) Ed P1) as (u' & Ed' & P2). destruct (reallocate n c u u' p ms Lu P2 Ea) as (p' & ms' & Ea' & _ & P3).
  set (x1 := mkJob n c [] p [] Serving). set (x2 := mkJob n c [] [] [] Finished).
  assert (R1 : run (mkManager rest (mg_jobs m ++ [x1])) (failing_job j) = Some (mkManager (rest ++ map en_worker p) (mg_jobs m ++ [x2]))).
  { unfold failing_job, j, x1, x2. cbn [run step mg_jobs]. rewrite nth_last. cbn [jb_status jb_returned set_job mg_jobs mg_free]. rewrite upd_last, nth_last. unfold set_job, with_status. cbn [jb_status mg_jobs mg_free jb_n jb_min jb_unallocated jb_pool jb_returned]. rewrite ?upd_last, ?nth_last. cbn [jb_status set_job mg_jobs mg_free jb_n jb_min jb_unallocated jb_pool jb_returned]. rewrite upd_last. reflexivity. }
  assert (Ra : forall a b c, run a (b ++ c) = match run a b with Some a' => run a' c | None => None end).
  { clear. intros a b. revert a. induction b as [|e b IH]; intros a c; cbn [app run]; [reflexivity|]. destruct (step a e); [apply IH|reflexivity]. }
  exists (mkManager rest ((mg_jobs m ++ [x2]) ++ [mkJob n c [] p' [] Serving])), (mkJob n c [] p' [] Serving). rewrite Ra. change (mkJob n c [] p [] Serving) with x1. cbn [jb_n jb_min jb_unallocated jb_pool jb_returned]. rewrite R1.
  assert (Ej : S j = length (mg_jobs m ++ [x2])) by (unfold j; rewrite app_length; cbn [length]; lia). set (l := mg_jobs m ++ [x2]) in *. rewrite Ej.
  split; [|split; [cbn [mg_jobs]; apply nth_last|split; [reflexivity|cbn [jb_pool]; eapply perm_trans; [exact P3|apply Permutation_sym; exact P1]]]].
  unfold new_job. cbn [run step mg_free mg_jobs]. rewrite Ed'. cbn [mg_jobs]. rewrite nth_last. cbn [jb_status jb_n jb_min jb_unallocated]. rewrite Ea'. cbn [set_job mg_jobs mg_free]. rewrite upd_last, nth_last. unfold set_job, with_status. cbn [jb_status mg_jobs mg_free jb_n jb_min jb_unallocated jb_pool jb_returned]. rewrite !upd_last. reflexivity.
Qed.
