From Coq Require Import Sorted.
From Verif Require Import Base S_Measure M_Pool M_Top S_Top.

Section Top.
  Context {K : Type} {OK : OrdRing K}.
  Add Ring KRt : (@rth K or_ring).
  Notation asc := (StronglySorted (fun a b : Z * K => fst a < fst b)).

  (** ** sorting *)
  Lemma insert_rev_perm x l : Permutation (insert_rev x l) (x :: l).
  Proof.
    induction l as [|y l IH]; cbn [insert_rev]; [reflexivity|]. destruct (tuple_leb x y); [|reflexivity].
    rewrite IH. constructor.
  Qed.
  Lemma sort_rev_perm l : Permutation (sort_rev l) l.
  Proof.
    unfold sort_rev. assert (H : forall acc, Permutation (fold_left (fun acc x => insert_rev x acc) l acc) (acc ++ l)).
    { induction l as [|x l IH]; intros acc; cbn; [rewrite app_nil_r; reflexivity|]. rewrite IH, insert_rev_perm. rewrite <- Permutation_middle. reflexivity. }
    exact (H []).
  Qed.
  Notation desc := (StronglySorted (fun a b : Z * K => fst b < fst a)).
  Lemma insert_rev_sorted x l : ~ In (fst x) (map fst l) -> desc l -> desc (insert_rev x l).
  Proof.
    induction l as [|y l IH]; intros Hn Hs; cbn [insert_rev]; [repeat constructor|]. inversion Hs as [|? ? Hl Hy]; subst.
    unfold tuple_leb. destruct (Z.ltb_spec (fst x) (fst y)) as [H|H]; cbn [orb].
    - constructor; [apply IH; [cbn in Hn; tauto|exact Hl]|]. rewrite Forall_forall in *. intros z Hz. apply (Permutation_in _ (insert_rev_perm x l)) in Hz.
      destruct Hz as [<-|Hz]; [exact H|auto].
    - destruct (Z.eqb_spec (fst x) (fst y)) as [E|E]; [exfalso; apply Hn; left; auto|]. cbn [andb]. constructor; [exact Hs|].
      rewrite Forall_forall in *. intros z [<-|Hz]; [lia|]. specialize (Hy z Hz). lia.
  Qed.
  Lemma sort_rev_sorted l : NoDup (map fst l) -> desc (sort_rev l).
  Proof.
    unfold sort_rev. assert (H : forall acc, NoDup (map fst acc ++ map fst l) -> desc acc -> desc (fold_left (fun acc x => insert_rev x acc) l acc)).
    { induction l as [|x l IH]; intros acc Hn Hs; cbn; [exact Hs|]. cbn in Hn.
      assert (Hx := NoDup_remove_2 _ _ _ Hn). apply IH.
      - rewrite (Permutation_map fst (insert_rev_perm x acc)). cbn. apply Permutation_NoDup with (2 := Hn). rewrite <- Permutation_middle. reflexivity.
      - apply insert_rev_sorted; [|exact Hs]. intros Hin. apply Hx. apply in_or_app. left. exact Hin. }
    intros Hn. apply H; [exact Hn|constructor].
  Qed.
  Lemma ssorted_snoc {A} (R : A -> A -> Prop) l x : StronglySorted R l -> Forall (fun y => R y x) l -> StronglySorted R (l ++ [x]).
  Proof.
    induction l as [|y l IH]; intros Hs Hf; cbn; [repeat constructor|]. inversion Hs; subst. inversion Hf; subst. constructor; [auto|].
    rewrite Forall_app. split; [assumption|repeat constructor; assumption].
  Qed.
  Lemma rev_sorted l : desc l -> asc (rev l).
  Proof.
    induction l as [|x l IH]; intros H; cbn; [constructor|]. inversion H as [|? ? Hl Hx]; subst. apply ssorted_snoc; [auto|].
    rewrite Forall_forall in *. intros y Hy. apply in_rev in Hy. auto.
  Qed.

  Lemma insert_top_perm (x : Z * K * K) l : Permutation (insert_top x l) (x :: l).
  Proof.
    induction l as [|y l IH]; cbn [insert_top]; [reflexivity|]. destruct (rleb (snd (fst x)) (snd (fst y))); [|reflexivity].
    rewrite IH. constructor.
  Qed.
  Lemma sort_top_perm (l : list (Z * K * K)) : Permutation (sort_top l) l.
  Proof.
    unfold sort_top. assert (H : forall acc, Permutation (fold_left (fun acc x => insert_top x acc) l acc) (acc ++ l)).
    { induction l as [|x l IH]; intros acc; cbn; [rewrite app_nil_r; reflexivity|]. rewrite IH, insert_top_perm. rewrite <- Permutation_middle. reflexivity. }
    exact (H []).
  Qed.
  Lemma insert_top_sorted (x : Z * K * K) l : decreasing (map (fun t => snd (fst t)) l) -> decreasing (map (fun t => snd (fst t)) (insert_top x l)).
  Proof.
    induction l as [|y l IH]; intros Hd; cbn [insert_top]; [cbn; split; [intros b []|exact I]|]. cbn in Hd. destruct Hd as [H1 H2].
    destruct (rleb (snd (fst x)) (snd (fst y))) eqn:E.
    - cbn. split; [|auto]. intros b Hb. rewrite (Permutation_map _ (insert_top_perm x l)) in Hb. destruct Hb as [<-|Hb]; [exact E|auto].
    - cbn. split; [|split; auto]. intros b [<-|Hb]; [apply rlt_le; exact E|]. apply rle_trans with (snd (fst y)); [auto|]. apply rlt_le. exact E.
  Qed.
  Lemma sort_top_sorted (l : list (Z * K * K)) : decreasing (map (fun t => snd (fst t)) (sort_top l)).
  Proof.
    unfold sort_top. assert (H : forall acc : list (Z * K * K), decreasing (map (fun t => snd (fst t)) acc) -> decreasing (map (fun t => snd (fst t)) (fold_left (fun acc x => insert_top x acc) l acc))).
    { induction l as [|x l IH]; intros acc Ha; cbn; [exact Ha|]. apply IH. apply insert_top_sorted. exact Ha. }
    apply H. exact I.
  Qed.

  (** ** one index *)
  Definition adv (m : Z) (a : list (Z * K)) : list (Z * K) := match a with t :: a' => if fst t =? m then a' else a | [] => [] end.
  Definition hp (m : Z) (a : list (Z * K)) : K := match a with t :: _ => if fst t =? m then snd t else 0%r | [] => 0%r end.
  Definition hit (m : Z) (a : list (Z * K)) : bool := match a with t :: _ => fst t =? m | [] => false end.
  Definition he (m : Z) (am : list (Z * K) * K) : K := if hit m (fst am) then 0%r else snd am.
  Definition cnt (m : Z) (as_ : list (list (Z * K))) : Z := zlen (filter (hit m) as_).

  Lemma ok4 {A B D E} (a a' : A) (b b' : B) (c c' : D) (d d' : E) : a = a' -> b = b' -> c = c' -> d = d' -> Ok (a, b, c, d) = Ok (a', b', c', d').
  Proof. intros -> -> -> ->. reflexivity. Qed.
  Lemma pop_rev {A} (t : A) a : pop (rev (t :: a)) = Ok (t, rev a).
  Proof. unfold pop. rewrite rev_involutive. reflexivity. Qed.
  Lemma visit_ok m as_ mins : length mins = length as_ -> visit m (combine (map (@rev _) as_) mins) =
    Ok (map (fun a => rev (adv m a)) as_, sum as_ (hp m), sum (combine as_ mins) (he m), cnt m as_).
  Proof.
    unfold visit. assert (H : forall as_ mins acc p e n, length mins = length as_ ->
      mfold (fun '(acc, agg_p, agg_err, taken) '(r, conf_min) =>
        match rev r with
        | t :: _ => if (fst t =? m)
                  then do tr <- pop r; Ok (acc ++ [snd tr], (agg_p + snd (fst tr))%r, agg_err, taken + 1)
                  else Ok (acc ++ [r], agg_p, (agg_err + conf_min)%r, taken)
        | [] => Ok (acc ++ [r], agg_p, (agg_err + conf_min)%r, taken)
        end) (combine (map (@rev _) as_) mins) (acc, p, e, n) =
      Ok (acc ++ map (fun a => rev (adv m a)) as_, (p + sum as_ (hp m))%r, (e + sum (combine as_ mins) (he m))%r, n + cnt m as_)).
    { clear. induction as_ as [|a as_ IH]; intros [|mn mins] acc p e n Hl; try discriminate.
      - unfold cnt. cbn. apply ok4; [rewrite app_nil_r; reflexivity|ring|ring|rewrite zlen_nil; lia].
      - cbn [map combine mfold sum]. rewrite rev_involutive. unfold cnt. cbn [filter]. unfold he at 1. cbn [fst snd]. destruct a as [|t a].
        + cbn [bind hit adv rev hp]. rewrite IH by (cbn in Hl; congruence). apply ok4; [rewrite <- app_assoc; reflexivity|ring|ring|reflexivity].
        + cbn [hit adv hp]. destruct (fst t =? m) eqn:E.
          * rewrite pop_rev. cbn [bind fst snd]. rewrite IH by (cbn in Hl; congruence). rewrite zlen_cons. apply ok4; [rewrite <- app_assoc; reflexivity|ring|ring|unfold cnt; lia].
          * cbn [bind]. rewrite IH by (cbn in Hl; congruence). apply ok4; [rewrite <- app_assoc; reflexivity|ring|ring|reflexivity]. }
    intros Hl. rewrite H by exact Hl. apply ok4; [reflexivity|ring|ring|lia].
  Qed.

  Lemma pyget_last {A} (t : A) a : pyget (rev (t :: a)) (-1) = Ok t.
  Proof.
    unfold pyget. cbn [rev]. rewrite zlen_snoc, zlen_rev. pose proof (zlen_nonneg a). replace (-1 <? 0) with true by reflexivity.
    replace (-1 + (zlen a + 1)) with (zlen a) by lia. unfold cget.
    destruct (Z.ltb_spec (zlen a) 0); [lia|]. unfold zlen. rewrite Nat2Z.id.
    rewrite nth_error_app2 by (rewrite rev_length; lia). rewrite rev_length, Nat.sub_diag. cbn. reflexivity.
  Qed.
  Lemma fold_min l : forall x, (fold_left Z.min l x = x \/ In (fold_left Z.min l x) l) /\ fold_left Z.min l x <= x /\ forall y, In y l -> fold_left Z.min l x <= y.
  Proof.
    induction l as [|y l IH]; intros x; cbn; [split; [auto|split; [lia|intros y []]]|]. destruct (IH (Z.min x y)) as (H1 & H2 & H3).
    split; [|split; [lia|]].
    - destruct H1 as [H1|H1]; [|right; right; exact H1]. rewrite H1. destruct (Z.min_spec x y) as [[_ E]|[_ E]]; rewrite E; auto.
    - intros z [<-|Hz]; [lia|auto].
  Qed.
  Definition total (as_ : list (list (Z * K))) : Z := fold_left (fun acc r => acc + zlen r) as_ 0.
  Lemma total_from as_ : forall n, fold_left (fun acc (r : list (Z * K)) => acc + zlen r) as_ n = n + total as_.
  Proof. unfold total. induction as_ as [|a as_ IH]; intros n; cbn [fold_left]; [lia|]. rewrite (IH (n + zlen a)), (IH (0 + zlen a)). lia. Qed.
  Lemma total_cons a as_ : total (a :: as_) = zlen a + total as_.
  Proof. unfold total at 1. cbn [fold_left]. rewrite total_from. lia. Qed.
  Lemma total_adv m as_ : total (map (adv m) as_) = total as_ - cnt m as_.
  Proof.
    unfold cnt. induction as_ as [|a as_ IH]; [reflexivity|]. cbn [map filter]. rewrite !total_cons, IH. destruct a as [|t a]; cbn [adv hit]; [lia|].
    destruct (fst t =? m); rewrite ?zlen_cons; lia.
  Qed.
  Lemma total_nonneg as_ : 0 <= total as_.
  Proof. induction as_ as [|a as_ IH]; [cbn; lia|]. rewrite total_cons. pose proof (zlen_nonneg a). lia. Qed.
  Lemma total_pos as_ a : In a as_ -> zlen a <= total as_.
  Proof. induction as_ as [|b as_ IH]; intros []; rewrite total_cons; subst; [pose proof (total_nonneg as_); lia|]. pose proof (zlen_nonneg b). specialize (IH H). lia. Qed.
  Lemma total_rev as_ : total (map (@rev _) as_) = total as_.
  Proof. induction as_ as [|a as_ IH]; [reflexivity|]. cbn [map]. rewrite !total_cons, IH, zlen_rev. reflexivity. Qed.

  (** the smallest head *)
  Lemma heads_ok as_ : as_ <> [] -> (forall a, In a as_ -> a <> []) ->
    exists lasts m, mmap (fun r : list (Z * K) => do t <- pyget r (-1); Ok (fst t)) (map (@rev _) as_) = Ok lasts /\ zmin lasts = Ok m /\
      (exists a t, In (t :: a) as_ /\ fst t = m) /\ (forall t a, In (t :: a) as_ -> m <= fst t).
  Proof.
    intros Hn Ha. exists (map (fun a => match a with t :: _ => fst t | [] => 0 end) as_).
    assert (E : mmap (fun r : list (Z * K) => do t <- pyget r (-1); Ok (fst t)) (map (@rev _) as_) = Ok (map (fun a => match a with t :: _ => fst t | [] => 0 end) as_)).
    { rewrite mmap_map. apply mmap_ok. intros a Hin. specialize (Ha a Hin). destruct a as [|t a]; [congruence|]. rewrite pyget_last. reflexivity. }
    destruct as_ as [|a as_]; [congruence|]. cbn [map] in *. exists (fold_left Z.min (map (fun a => match a with t :: _ => fst t | [] => 0 end) as_) (match a with t :: _ => fst t | [] => 0 end)).
    split; [exact E|]. split; [reflexivity|]. destruct (fold_min (map (fun a => match a with t :: _ => fst t | [] => 0 end) as_) (match a with t :: _ => fst t | [] => 0 end)) as (H1 & H2 & H3). split.
    - destruct H1 as [H1|H1].
      + specialize (Ha a (or_introl eq_refl)). destruct a as [|t a]; [congruence|]. exists a, t. split; [left; reflexivity|]. symmetry. exact H1.
      + apply in_map_iff in H1. destruct H1 as (b & H1 & Hb). specialize (Ha b (or_intror Hb)). destruct b as [|t b]; [congruence|]. exists b, t. split; [right; exact Hb|exact H1].
    - intros t b [->|Hb]; [exact H2|]. apply H3. apply in_map_iff. exists (t :: b). auto.
  Qed.
  Lemma heads_fail as_ : (exists a, In a as_ /\ a = []) ->
    mmap (fun r : list (Z * K) => do t <- pyget r (-1); Ok (fst t)) (map (@rev _) as_) = Raise IndexError.
  Proof.
    intros (a & Hin & ->). induction as_ as [|b as_ IH]; [destruct Hin|]. cbn [map mmap].
    destruct b as [|t b]; [reflexivity|]. rewrite pyget_last. cbn [bind]. destruct Hin as [E|Hin]; [discriminate|]. rewrite (IH Hin). reflexivity.
  Qed.

  (** ** the sums *)
  Definition prob (a : list (Z * K)) (m : Z) : K := sum a (fun ip => if fst ip =? m then snd ip else 0%r).
  Definition has (a : list (Z * K)) (m : Z) : bool := existsb (fun ip => fst ip =? m) a.
  Definition err (m : Z) (am : list (Z * K) * K) : K := if has (fst am) m then 0%r else snd am.
  Lemma has_in a m : has a m = true <-> In m (map fst a).
  Proof.
    unfold has. rewrite existsb_exists, in_map_iff. split.
    - intros (x & Hx & E). exists x. apply Z.eqb_eq in E. auto.
    - intros (x & E & Hx). exists x. apply Z.eqb_eq in E. auto.
  Qed.
  Lemma tail_above t a : asc (t :: a) -> forall y, In y a -> fst t < fst y.
  Proof. inversion 1; subst. rewrite Forall_forall in *. assumption. Qed.
  Lemma prob_none a m : has a m = false -> prob a m = 0%r.
  Proof.
    intros H. apply sum_zero. intros ip Hin. destruct (fst ip =? m) eqn:E; [|reflexivity]. exfalso. assert (has a m = true); [|congruence].
    apply has_in. apply in_map_iff. exists ip. apply Z.eqb_eq in E. auto.
  Qed.
  Lemma at_head a m : asc a -> (forall t a', a = t :: a' -> m <= fst t) -> has a m = hit m a /\ prob a m = hp m a.
  Proof.
    intros Hs Hm. destruct a as [|t a]; [split; reflexivity|]. specialize (Hm t a eq_refl). pose proof (tail_above t a Hs) as Ht.
    assert (Hh : has a m = false).
    { destruct (has a m) eqn:E; [|reflexivity]. apply has_in in E. apply in_map_iff in E. destruct E as (y & E & Hy). specialize (Ht y Hy). lia. }
    unfold prob. cbn [has existsb hit hp sum]. fold (has a m) (prob a m). rewrite Hh, Bool.orb_false_r, prob_none by exact Hh. split; [reflexivity|]. ring.
  Qed.
  Lemma after_head a m m' : asc a -> m < m' -> has (adv m a) m' = has a m' /\ prob (adv m a) m' = prob a m'.
  Proof.
    intros Hs Hm. destruct a as [|t a]; [split; reflexivity|]. cbn [adv]. destruct (fst t =? m) eqn:E; [|split; reflexivity]. apply Z.eqb_eq in E.
    unfold prob. cbn [has existsb sum]. replace (fst t =? m') with false by lia. split; [reflexivity|]. ring.
  Qed.
  Lemma adv_sorted m a : asc a -> asc (adv m a).
  Proof. destruct a as [|t a]; [auto|]. cbn. destruct (fst t =? m); [inversion 1; assumption|auto]. Qed.
  Lemma adv_above m a : asc a -> (forall t a', a = t :: a' -> m <= fst t) -> forall y, In y (adv m a) -> m < fst y.
  Proof.
    intros Hs Hm y Hy. destruct a as [|t a]; [destruct Hy|]. pose proof (tail_above t a Hs) as Ht. specialize (Hm t a eq_refl). cbn in Hy.
    destruct (fst t =? m) eqn:E; [apply Z.eqb_eq in E; specialize (Ht y Hy); lia|]. apply Z.eqb_neq in E. destruct Hy as [<-|Hy]; [lia|]. specialize (Ht y Hy). lia.
  Qed.
  Definition top (M : Z) (a : list (Z * K)) : Prop := In M (map fst a) /\ forall y, In y a -> fst y <= M.
  Lemma adv_top M m a : asc a -> top M a -> m < M -> top M (adv m a).
  Proof.
    intros Hs [H1 H2] Hm. destruct a as [|t a]; [split; auto|]. cbn. destruct (fst t =? m) eqn:E; [|split; auto]. apply Z.eqb_eq in E.
    split; [|intros y Hy; apply H2; right; exact Hy]. destruct H1 as [H1|H1]; [lia|exact H1].
  Qed.
  Lemma top_nonempty M a : top M a -> a <> [].
  Proof. intros [H _] ->. destruct H. Qed.

  Lemma cnt_pos m as_ a t : In (t :: a) as_ -> fst t = m -> 0 < cnt m as_.
  Proof.
    intros Hin E. unfold cnt. assert (Hf : In (t :: a) (filter (hit m) as_)) by (apply filter_In; split; [exact Hin|]; cbn; apply Z.eqb_eq; exact E).
    destruct (filter (hit m) as_); [destruct Hf|]. rewrite zlen_cons. pose proof (zlen_nonneg l0). lia.
  Qed.
  Lemma combine_map_l {A B D} (f : A -> B) (l : list A) (l' : list D) : combine (map f l) l' = map (fun '(a, d) => (f a, d)) (combine l l').
  Proof. revert l'. induction l as [|a l IH]; intros [|d l']; cbn; [reflexivity..|]. rewrite IH. reflexivity. Qed.

  Lemma loop_empty fuel mins (as_ : list (list (Z * K))) acc : (forall a, In a as_ -> a = []) -> agg_loop fuel mins (map (@rev _) as_) (total as_) acc = Ok acc.
  Proof.
    intros H. assert (E : total as_ = 0).
    { induction as_ as [|a as_ IH]; [reflexivity|]. rewrite total_cons, (H a) by (left; reflexivity). rewrite IH by (intros; apply H; right; assumption). reflexivity. }
    rewrite E. destruct fuel; reflexivity.
  Qed.

  Lemma loop_ok M : forall fuel mins as_ acc, length mins = length as_ -> as_ <> [] -> (Z.to_nat (total as_) <= fuel)%nat ->
    (forall a, In a as_ -> asc a) -> (forall a, In a as_ -> top M a) ->
    exists us, StronglySorted Z.lt us /\ (forall m, In m us <-> exists a, In a as_ /\ In m (map fst a)) /\
      agg_loop fuel mins (map (@rev _) as_) (total as_) acc = Ok (acc ++ map (fun m => (m, sum as_ (fun a => prob a m), sum (combine as_ mins) (err m))) us).
  Proof.
    induction fuel as [|fuel IH]; intros mins as_ acc Hl Hne Hf Hs Ht.
    { exfalso. destruct as_ as [|a as_]; [congruence|]. pose proof (top_nonempty M a (Ht a (or_introl eq_refl))). rewrite total_cons in Hf. pose proof (total_nonneg as_).
      destruct a; [congruence|]. rewrite zlen_cons in Hf. pose proof (zlen_nonneg a). lia. }
    assert (Hpos : 0 < total as_).
    { destruct as_ as [|a as_]; [congruence|]. pose proof (top_nonempty M a (Ht a (or_introl eq_refl))). rewrite total_cons. pose proof (total_nonneg as_).
      destruct a; [congruence|]. rewrite zlen_cons. pose proof (zlen_nonneg a). lia. }
    destruct (heads_ok as_ Hne (fun a Ha => top_nonempty M a (Ht a Ha))) as (lasts & m & E1 & E2 & (a0 & t0 & Hin0 & E0) & Hmin).
    cbn [agg_loop]. rewrite (proj2 (Z.ltb_lt _ _) Hpos), E1. cbn [bind]. rewrite E2. cbn [bind]. rewrite visit_ok by exact Hl. cbn [bind].
    rewrite <- total_adv. rewrite <- (map_map (adv m) (@rev _)).
    assert (Hhead : forall a, In a as_ -> forall t a', a = t :: a' -> m <= fst t) by (intros a Ha t a' ->; apply (Hmin t a' Ha)).
    assert (Ep : sum as_ (hp m) = sum as_ (fun a => prob a m)) by (apply sum_ext; intros a Ha; symmetry; apply (at_head a m (Hs a Ha) (Hhead a Ha))).
    assert (Ee : sum (combine as_ mins) (he m) = sum (combine as_ mins) (err m)).
    { apply sum_ext. intros [a mn] Ha. unfold he, err. cbn [fst snd]. rewrite (proj1 (at_head a m (Hs a (in_combine_l _ _ _ _ Ha)) (Hhead a (in_combine_l _ _ _ _ Ha)))). reflexivity. }
    rewrite Ep, Ee. assert (HmM : m <= M) by (rewrite <- E0; apply (proj2 (Ht _ Hin0)); left; reflexivity).
    assert (Hfuel : (Z.to_nat (total (map (adv m) as_)) <= fuel)%nat) by (rewrite total_adv; pose proof (cnt_pos m as_ a0 t0 Hin0 E0); lia).
    destruct (Z.eq_dec m M) as [EM|EM].
    - (* everything is used up *)
      assert (Hall : forall a, In a (map (adv m) as_) -> a = []).
      { intros b Hb. apply in_map_iff in Hb. destruct Hb as (a & <- & Ha). destruct (adv m a) as [|y b] eqn:Eb; [reflexivity|]. exfalso.
        assert (Hy : In y (adv m a)) by (rewrite Eb; left; reflexivity). pose proof (adv_above m a (Hs a Ha) (Hhead a Ha) y Hy).
        assert (In y a) by (destruct a as [|t a]; [destruct Hy|]; cbn in Hy; destruct (fst t =? m); [right|]; exact Hy). pose proof (proj2 (Ht a Ha) y H0). lia. }
      rewrite loop_empty by exact Hall. exists [m]. split; [repeat constructor|]. split; [|reflexivity].
      intros m'. split.
      + intros [<-|[]]. exists (t0 :: a0). split; [exact Hin0|left; exact E0].
      + intros (a & Ha & Hm'). left. apply in_map_iff in Hm'. destruct Hm' as (y & E & Hy). pose proof (proj2 (Ht a Ha) y Hy).
        destruct a as [|t a]; [destruct Hy|]. pose proof (Hmin t a Ha). destruct Hy as [->|Hy]; [lia|]. pose proof (tail_above t a (Hs _ Ha) y Hy). lia.
    - destruct (IH mins (map (adv m) as_) (acc ++ [(m, sum as_ (fun a => prob a m), sum (combine as_ mins) (err m))])) as (us & S1 & S2 & S3).
      + rewrite map_length. exact Hl.
      + destruct as_; [congruence|discriminate].
      + exact Hfuel.
      + intros b Hb. apply in_map_iff in Hb. destruct Hb as (a & <- & Ha). apply adv_sorted. auto.
      + intros b Hb. apply in_map_iff in Hb. destruct Hb as (a & <- & Ha). apply adv_top; auto. lia.
      + assert (Hab : forall m', In m' us -> m < m').
        { intros m' Hm'. apply S2 in Hm'. destruct Hm' as (b & Hb & Hm'). apply in_map_iff in Hb. destruct Hb as (a & <- & Ha).
          apply in_map_iff in Hm'. destruct Hm' as (y & <- & Hy). apply (adv_above m a (Hs a Ha) (Hhead a Ha)); exact Hy. }
        exists (m :: us). split; [constructor; [exact S1|apply Forall_forall; exact Hab]|]. split.
        * intros m'. split.
          -- intros [<-|Hm']; [exists (t0 :: a0); split; [exact Hin0|left; exact E0]|]. pose proof (Hab m' Hm'). apply S2 in Hm'. destruct Hm' as (b & Hb & Hm').
             apply in_map_iff in Hb. destruct Hb as (a & <- & Ha). exists a. split; [exact Ha|]. apply has_in. rewrite <- (proj1 (after_head a m m' (Hs a Ha) H)). apply has_in. exact Hm'.
          -- intros (a & Ha & Hm'). destruct (Z.eq_dec m m') as [->|Hd]; [left; reflexivity|right]. apply S2. exists (adv m a). split; [apply in_map; exact Ha|].
             assert (m < m'). { apply in_map_iff in Hm'. destruct Hm' as (y & <- & Hy). destruct a as [|t a]; [destruct Hy|]. pose proof (Hmin t a Ha). destruct Hy as [->|Hy]; [lia|]. pose proof (tail_above t a (Hs _ Ha) y Hy). lia. }
             apply has_in. rewrite (proj1 (after_head a m m' (Hs a Ha) H)). apply has_in. exact Hm'.
        * rewrite S3, <- app_assoc. f_equal. f_equal. cbn [app map]. f_equal. apply map_ext_in. intros m' Hm'. pose proof (Hab m' Hm'). f_equal; [f_equal|].
          -- rewrite sum_map. apply sum_ext. intros a Ha. apply after_head; auto.
          -- rewrite combine_map_l, sum_map. apply sum_ext. intros [a mn] Ha. unfold err. cbn [fst snd]. rewrite (proj1 (after_head a m m' (Hs a (in_combine_l _ _ _ _ Ha)) H)). reflexivity.
  Qed.

  Lemma loop_fails : forall fuel mins as_ acc, length mins = length as_ -> (Z.to_nat (total as_) <= fuel)%nat ->
    (forall a, In a as_ -> asc a) -> (exists a b M, In a as_ /\ In b as_ /\ (forall y, In y a -> fst y < M) /\ In M (map fst b)) ->
    agg_loop fuel mins (map (@rev _) as_) (total as_) acc = Raise IndexError.
  Proof.
    induction fuel as [|fuel IH]; intros mins as_ acc Hl Hf Hs (a & b & M & Ha & Hb & Hlow & HM).
    { exfalso. pose proof (total_pos as_ b Hb). destruct b; [destruct HM|]. rewrite zlen_cons in H. pose proof (zlen_nonneg b). lia. }
    assert (Hpos : 0 < total as_) by (pose proof (total_pos as_ b Hb); destruct b; [destruct HM|]; rewrite zlen_cons in H; pose proof (zlen_nonneg b); lia).
    cbn [agg_loop]. rewrite (proj2 (Z.ltb_lt _ _) Hpos).
    destruct (existsb (fun a => match a with [] => true | _ => false end) as_) eqn:Ex.
    { rewrite heads_fail; [reflexivity|]. apply existsb_exists in Ex. destruct Ex as (c & Hc & E). exists c. split; [exact Hc|]. destruct c; [reflexivity|discriminate]. }
    assert (Hall : forall c, In c as_ -> c <> []).
    { intros c Hc ->. assert (existsb (fun a : list (Z * K) => match a with [] => true | _ => false end) as_ = true) by (apply existsb_exists; exists []; auto). congruence. }
    destruct (heads_ok as_ ltac:(destruct as_; [destruct Ha|discriminate]) Hall) as (lasts & m & E1 & E2 & (a0 & t0 & Hin0 & E0) & Hmin).
    rewrite E1. cbn [bind]. rewrite E2. cbn [bind]. rewrite visit_ok by exact Hl. cbn [bind]. rewrite <- total_adv. rewrite <- (map_map (adv m) (@rev _)).
    apply IH.
    - rewrite map_length. exact Hl.
    - rewrite total_adv. pose proof (cnt_pos m as_ a0 t0 Hin0 E0). lia.
    - intros c Hc. apply in_map_iff in Hc. destruct Hc as (c' & <- & Hc). apply adv_sorted. auto.
    - exists (adv m a), (adv m b), M. split; [apply in_map; exact Ha|]. split; [apply in_map; exact Hb|]. split.
      + intros y Hy. apply Hlow. destruct a as [|t a]; [destruct Hy|]. cbn in Hy. destruct (fst t =? m); [right|]; exact Hy.
      + assert (m < M). { pose proof (Hall a Ha). destruct a as [|t a]; [congruence|]. pose proof (Hmin t a Ha). specialize (Hlow t (or_introl eq_refl)). lia. }
        apply has_in. rewrite (proj1 (after_head b m M (Hs b Hb) H)). apply has_in. exact HM.
  Qed.

  (** ** all of it *)
  Lemma kmin_from_ok l : forall x, (kmin_from x l = x \/ In (kmin_from x l) l) /\ rle (kmin_from x l) x /\ forall y, In y l -> rle (kmin_from x l) y.
  Proof.
    induction l as [|y l IH]; intros x; cbn; [split; [auto|split; [apply rle_refl|intros y []]]|]. destruct (IH (if rleb x y then x else y)) as (H1 & H2 & H3).
    destruct (rleb x y) eqn:E.
    - split; [tauto|]. split; [exact H2|]. intros z [<-|Hz]; [apply rle_trans with x; assumption|auto].
    - assert (rle y x) by (apply rlt_le; exact E). split; [destruct H1 as [->|H1]; auto|]. split; [apply rle_trans with y; assumption|]. intros z [<-|Hz]; auto.
  Qed.
  Lemma kmin_ok c : reply_ok c -> exists mn, kmin (snd c) = Ok mn /\ is_min c mn.
  Proof.
    intros (_ & Hl & Hn). destruct c as [is ps]. cbn in *. destruct ps as [|p ps]; [destruct is; [congruence|discriminate]|]. cbn. eexists. split; [reflexivity|].
    destruct (kmin_from_ok ps p) as (H1 & H2 & H3). split; cbn; [destruct H1 as [H1|H1]; [left; symmetry; exact H1|right; exact H1]|]. intros q [<-|Hq]; auto.
  Qed.
  Lemma kmins_ok cs : (forall c, In c cs -> reply_ok c) -> exists mins, mmap (fun conf => kmin (snd conf)) cs = Ok mins /\ Forall2 is_min cs mins.
  Proof.
    induction cs as [|c cs IH]; intros H; [exists []; split; [reflexivity|constructor]|]. destruct (kmin_ok c (H c (or_introl eq_refl))) as (mn & E & Hm).
    destruct IH as (mins & E' & Hms); [intros; apply H; right; assumption|]. exists (mn :: mins). cbn [mmap]. rewrite E. cbn [bind]. rewrite E'. split; [reflexivity|constructor; assumption].
  Qed.
  Definition asc_of (c : reply K) : list (Z * K) := rev (sort_rev (combine (fst c) (snd c))).
  Lemma map_fst_combine {A B} (l : list A) (l' : list B) : length l' = length l -> map fst (combine l l') = l.
  Proof. revert l'. induction l as [|a l IH]; intros [|b l'] H; cbn; try discriminate; [reflexivity|]. rewrite IH by (cbn in H; congruence). reflexivity. Qed.
  Lemma asc_perm c : Permutation (asc_of c) (combine (fst c) (snd c)).
  Proof. unfold asc_of. rewrite <- Permutation_rev. apply sort_rev_perm. Qed.
  Lemma asc_sorted c : reply_ok c -> asc (asc_of c).
  Proof. intros (H1 & H2 & _). apply rev_sorted, sort_rev_sorted. rewrite map_fst_combine by exact H2. exact H1. Qed.
  Lemma asc_in c m : reply_ok c -> In m (map fst (asc_of c)) <-> In m (fst c).
  Proof. intros (H1 & H2 & _). rewrite (Permutation_map fst (asc_perm c)), map_fst_combine by exact H2. reflexivity. Qed.
  Lemma asc_prob c m : prob (asc_of c) m = reply_prob c m.
  Proof. unfold prob, reply_prob. apply sum_perm, asc_perm. Qed.

  Lemma forall2_len {A B} (R : A -> B -> Prop) l l' : Forall2 R l l' -> length l' = length l.
  Proof. induction 1; cbn; congruence. Qed.
  Lemma map_eq_rev (cs : list (reply K)) : map (fun conf => sort_rev (combine (fst conf) (snd conf))) cs = map (@rev _) (map asc_of cs).
  Proof. rewrite map_map. apply map_ext. intros c. unfold asc_of. rewrite rev_involutive. reflexivity. Qed.

  Lemma combine_ok M cs top_k : cs <> [] -> (forall c, In c cs -> reply_ok c) -> (forall c, In c cs -> largest c M) ->
    exists mins l, Forall2 is_min cs mins /\
      combine_replies cs top_k = Ok (firstn (Z.to_nat top_k) (map (fun t => fst (fst t)) l), firstn (Z.to_nat top_k) (map (fun t => snd (fst t)) l), firstn (Z.to_nat top_k) (map snd l)) /\
      decreasing (map (fun t => snd (fst t)) l) /\ NoDup (map (fun t => fst (fst t)) l) /\
      forall m p e, In (m, p, e) l <-> listed cs m /\ p = sum cs (fun c => reply_prob c m) /\ e = sum (combine cs mins) (err_of m).
  Proof.
    intros Hne Hok Hlg. destruct (kmins_ok cs Hok) as (mins & Em & Hm). exists mins.
    assert (Hlen : length mins = length (map asc_of cs)) by (rewrite map_length; apply (forall2_len _ _ _ Hm)).
    destruct (loop_ok M (Z.to_nat (total (map asc_of cs))) mins (map asc_of cs) [] Hlen) as (us & S1 & S2 & S3).
    - destruct cs; [congruence|discriminate].
    - lia.
    - intros a Ha. apply in_map_iff in Ha. destruct Ha as (c & <- & Hc). apply asc_sorted; auto.
    - intros a Ha. apply in_map_iff in Ha. destruct Ha as (c & <- & Hc). destruct (Hlg c Hc) as [L1 L2]. split; [apply asc_in; auto|].
      intros y Hy. apply L2. apply (asc_in c); auto. apply in_map. exact Hy.
    - cbn [app] in S3. set (agg := map (fun m => (m, sum (map asc_of cs) (fun a => prob a m), sum (combine (map asc_of cs) mins) (err m))) us) in *.
      exists (sort_top agg). split; [exact Hm|]. split.
      + unfold combine_replies. rewrite Em. cbn [bind]. rewrite map_eq_rev. fold (total (map (@rev _) (map asc_of cs))). rewrite total_rev, S3. cbn [bind].
        destruct (Z.eqb_spec (zlen (sort_top agg)) 0) as [E|_]; [|reflexivity]. exfalso.
        assert (In M us). { apply S2. destruct cs as [|c cs]; [congruence|]. exists (asc_of c). split; [left; reflexivity|]. apply asc_in; [apply Hok; left; reflexivity|]. apply Hlg. left. reflexivity. }
        assert (zlen (sort_top agg) = zlen us). { unfold zlen. rewrite (Permutation_length (sort_top_perm agg)). unfold agg. rewrite map_length. reflexivity. }
        destruct us; [destruct H|]. rewrite zlen_cons in H0. pose proof (zlen_nonneg us). lia.
      + split; [apply sort_top_sorted|]. split.
        * rewrite (Permutation_map (fun t : Z * K * K => fst (fst t)) (sort_top_perm agg)). unfold agg. rewrite map_map. cbn. rewrite map_id.
          clear -S1. induction S1; constructor; [|assumption]. intros Hin. rewrite Forall_forall in H. specialize (H _ Hin). lia.
        * intros m p e. assert (Hin : In (m, p, e) (sort_top agg) <-> In (m, p, e) agg) by (split; apply Permutation_in; [|symmetry]; apply sort_top_perm).
          rewrite Hin. unfold agg. rewrite in_map_iff.
          assert (Ep : forall m, sum (map asc_of cs) (fun a => prob a m) = sum cs (fun c => reply_prob c m)) by (intros m'; rewrite sum_map; apply sum_ext; intros; apply asc_prob).
          assert (Ee : forall m, sum (combine (map asc_of cs) mins) (err m) = sum (combine cs mins) (err_of m)).
          { intros m'. rewrite combine_map_l, sum_map. apply sum_ext. intros [c mn] Hc. unfold err, err_of. cbn [fst snd].
            replace (has (asc_of c) m') with (existsb (Z.eqb m') (fst c)); [reflexivity|]. apply Bool.eq_iff_eq_true. rewrite has_in, existsb_exists. rewrite asc_in by (apply Hok; apply (in_combine_l _ _ _ _ Hc)).
            split; [intros (x & Hx & E); apply Z.eqb_eq in E; subst; exact Hx|]. intros Hx. exists m'. split; [exact Hx|apply Z.eqb_refl]. }
          assert (Hus : forall m, In m us <-> listed cs m).
          { intros m'. rewrite S2. unfold listed. split.
            - intros (a & Ha & H). apply in_map_iff in Ha. destruct Ha as (c & <- & Hc). exists c. split; [exact Hc|]. apply (asc_in c); auto.
            - intros (c & Hc & H). exists (asc_of c). split; [apply in_map; exact Hc|]. apply asc_in; auto. }
          rewrite <- Hus. split.
          -- intros (m' & E & H). injection E as <- <- <-. rewrite <- Ep, <- Ee. auto.
          -- intros (H & -> & ->). exists m. split; [rewrite Ep, Ee; reflexivity|exact H].
  Qed.

  Lemma combine_fails cs top_k c c' M M' : (forall c, In c cs -> reply_ok c) -> In c cs -> In c' cs -> largest c M -> largest c' M' -> M <> M' ->
    combine_replies cs top_k = Raise IndexError.
  Proof.
    intros Hok Hc Hc' HM HM' Hd. destruct (kmins_ok cs Hok) as (mins & Em & Hm).
    unfold combine_replies. rewrite Em. cbn [bind]. rewrite map_eq_rev. fold (total (map (@rev _) (map asc_of cs))). rewrite total_rev.
    assert (Hlen : length mins = length (map asc_of cs)) by (rewrite map_length; apply (forall2_len _ _ _ Hm)).
    rewrite loop_fails; [reflexivity|exact Hlen|lia| |].
    - intros a Ha. apply in_map_iff in Ha. destruct Ha as (d & <- & Hdd). apply asc_sorted; auto.
    - assert (W : forall c c' M M', In c cs -> In c' cs -> largest c M -> largest c' M' -> M < M' -> exists a b N, In a (map asc_of cs) /\ In b (map asc_of cs) /\ (forall y, In y a -> fst y < N) /\ In N (map fst b)).
      { clear c c' M M' Hc Hc' HM HM' Hd. intros c c' M M' Hc Hc' [_ H2] [H3 _] Hlt. exists (asc_of c), (asc_of c'), M'. split; [apply in_map; exact Hc|]. split; [apply in_map; exact Hc'|]. split.
        - intros y Hy. assert (fst y <= M); [|lia]. apply H2. apply (asc_in c); auto. apply in_map. exact Hy.
        - apply asc_in; auto. }
      destruct (Z.lt_total M M') as [H|[H|H]]; [exact (W c c' M M' Hc Hc' HM HM' H)|congruence|exact (W c' c M' M Hc' Hc HM' HM H)].
  Qed.
End Top.
