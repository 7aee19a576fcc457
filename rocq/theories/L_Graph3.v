(** get_deps finds the needed nodes; run_graph executes them in creation order. *)
From Coq Require Import Sorted.
From Verif Require Import Base S_Bits L_Bits M_Kron M_Ops M_Feed M_Graph S_Graph L_Graph1 L_Graph2 L_Func.

(** ** sets as lists *)
Lemma set_add_In s x y : In y (set_add s x) <-> In y s \/ y = x.
Proof.
  unfold set_add. destruct (mem x s) eqn:E.
  - apply mem_In in E. split; [auto|]. intros [H| ->]; auto.
  - rewrite in_app_iff. cbn. split; intros [H|H]; auto. destruct H as [->|[]]; auto.
Qed.
Lemma NoDup_snoc {A} (l : list A) x : NoDup (l ++ [x]) <-> NoDup l /\ ~ In x l.
Proof.
  split.
  - intros H. apply NoDup_remove in H. rewrite app_nil_r in H. exact H.
  - intros [H1 H2]. apply (Permutation_NoDup (l := x :: l)); [apply Permutation_cons_append|constructor; auto].
Qed.
Lemma set_add_NoDup s x : NoDup s -> NoDup (set_add s x).
Proof.
  unfold set_add. intros H. destruct (mem x s) eqn:E; auto. apply mem_false in E. apply NoDup_snoc. auto.
Qed.
Lemma set_adds l : forall s, exists new, fold_left set_add l s = s ++ new /\ NoDup new /\
  (forall y, In y new -> In y l /\ ~ In y s) /\ forall y, In y (s ++ new) <-> In y s \/ In y l.
Proof.
  induction l as [|x l IH]; intros s; cbn [fold_left].
  - exists []. rewrite app_nil_r. split; auto. split; [constructor|]. split; [intros y []|]. cbn. tauto.
  - destruct (IH (set_add s x)) as (new & E & Hd & Hi & Hy). unfold set_add in *. destruct (mem x s) eqn:Em.
    + apply mem_In in Em. exists new. split; auto. split; auto. split.
      * intros y H. destruct (Hi y H). cbn. auto.
      * intros y. rewrite Hy. cbn. split; [tauto|]. intros [H|[<-|H]]; auto.
    + apply mem_false in Em. exists (x :: new). rewrite E, <- app_assoc. split; auto. split.
      * constructor; auto. intros Hx. apply Hi in Hx. rewrite in_app_iff in Hx. cbn in Hx. tauto.
      * split.
        -- intros y [<-|H]; cbn; auto. apply Hi in H. rewrite in_app_iff in H. tauto.
        -- intros y. change (x :: new) with ([x] ++ new). rewrite app_assoc, Hy, in_app_iff. cbn. tauto.
Qed.
Lemma NoDup_app_intro {A} (l l' : list A) : NoDup l -> NoDup l' -> (forall x, In x l' -> ~ In x l) -> NoDup (l ++ l').
Proof.
  induction l as [|a l IH]; cbn; intros H1 H2 H; auto. inversion H1; subst. constructor.
  - rewrite in_app_iff. intros [Hi|Hi]; auto. apply (H a Hi). auto.
  - apply IH; auto. intros x Hx Hl. apply (H x Hx). auto.
Qed.

(** ** stable sort *)
Section Sort.
  Context {A : Type} (key : A -> Z).
  Lemma insert_perm x l : Permutation (insert_by key x l) (x :: l).
  Proof.
    induction l as [|y l IH]; cbn; auto. destruct (key y <=? key x); auto.
    rewrite IH. apply perm_swap.
  Qed.
  Lemma sort_perm_aux l : forall acc, Permutation (fold_left (fun acc x => insert_by key x acc) l acc) (l ++ acc).
  Proof.
    induction l as [|x l IH]; cbn; intros acc; auto. rewrite IH, insert_perm.
    symmetry. apply Permutation_middle.
  Qed.
  Lemma sort_perm l : Permutation (sort_by key l) l.
  Proof. unfold sort_by. rewrite sort_perm_aux, app_nil_r. auto. Qed.
  Lemma insert_sorted x l : StronglySorted (fun a b => key a <= key b) l -> StronglySorted (fun a b => key a <= key b) (insert_by key x l).
  Proof.
    induction 1 as [|y l H IH HF]; cbn; [repeat constructor|]. destruct (Z.leb_spec (key y) (key x)).
    - constructor; auto. eapply Permutation_Forall; [symmetry; apply insert_perm|]. constructor; auto.
    - constructor; [constructor; auto|]. constructor; [lia|]. eapply Forall_impl; [|exact HF]. cbn. intros; lia.
  Qed.
  Lemma sort_sorted_aux l : forall acc, StronglySorted (fun a b => key a <= key b) acc ->
    StronglySorted (fun a b => key a <= key b) (fold_left (fun acc x => insert_by key x acc) l acc).
  Proof. induction l as [|x l IH]; cbn; intros acc H; auto. apply IH, insert_sorted, H. Qed.
  Lemma sort_sorted l : StronglySorted (fun a b => key a <= key b) (sort_by key l).
  Proof. apply sort_sorted_aux. constructor. Qed.

  (** elements with equal keys keep their order *)
  Section Stable.
    Variable R : A -> A -> Prop.
    Let T a b := key a = key b -> R a b.
    Lemma insert_stable x l : StronglySorted (fun a b => key a <= key b) l -> ForallOrdPairs T l -> Forall (fun y => T y x) l ->
      ForallOrdPairs T (insert_by key x l).
    Proof.
      induction l as [|y l IH]; cbn; intros Hs Hp Hx; [repeat constructor|].
      inversion Hs; inversion Hp; inversion Hx; subst. destruct (Z.leb_spec (key y) (key x)).
      - constructor; auto. eapply Permutation_Forall; [symmetry; apply insert_perm|]. constructor; auto.
      - constructor; auto. apply Forall_forall. intros z [<-|Hz] E; [lia|].
        rewrite Forall_forall in *. specialize (H2 z Hz). cbn in H2. lia.
    Qed.
    Lemma sort_stable_aux l : forall acc, StronglySorted (fun a b => key a <= key b) acc -> ForallOrdPairs T acc -> ForallOrdPairs T l ->
      (forall a x, In a acc -> In x l -> T a x) -> ForallOrdPairs T (fold_left (fun acc x => insert_by key x acc) l acc).
    Proof.
      induction l as [|x l IH]; cbn; intros acc Hs Ha Hl Hc; auto. inversion Hl; subst. apply IH; auto.
      - apply insert_sorted; auto.
      - apply insert_stable; auto. apply Forall_forall. intros; apply Hc; auto.
      - intros a y Hin Hy. apply (Permutation_in _ (insert_perm x acc)) in Hin. destruct Hin as [<-|Hin]; [|apply Hc; auto].
        rewrite Forall_forall in H1. auto.
    Qed.
    Lemma sort_stable l : ForallOrdPairs T l -> ForallOrdPairs T (sort_by key l).
    Proof. intros H. apply sort_stable_aux; auto; [constructor|constructor|]. intros a x []. Qed.
  End Stable.
End Sort.

Lemma FOP_app {A} (R : A -> A -> Prop) l l' : ForallOrdPairs R l -> ForallOrdPairs R l' ->
  (forall a b, In a l -> In b l' -> R a b) -> ForallOrdPairs R (l ++ l').
Proof.
  induction 1 as [|a l H1 H2 IH]; cbn; intros Hl' Hc; auto. constructor; [|apply IH; auto].
  apply Forall_app. split; auto. apply Forall_forall. auto.
Qed.
Lemma sorted_lt_unique l l' : StronglySorted lt l -> StronglySorted lt l' -> (forall x, In x l <-> In x l') -> l = l'.
Proof.
  revert l'. induction l as [|a l IH]; intros [|b l'] H H' E; auto.
  - exfalso. apply (E b). left; auto.
  - exfalso. apply (E a). left; auto.
  - inversion H as [|? ? Ha1 Ha2]; inversion H' as [|? ? Hb1 Hb2]; subst. rewrite Forall_forall in *.
    assert (a = b).
    { assert (Ha : In a (b :: l')) by (apply E; left; auto). assert (Hb : In b (a :: l)) by (apply E; left; auto).
      destruct Ha as [->|Ha]; auto. destruct Hb as [->|Hb]; auto. apply Ha2 in Hb. apply Hb2 in Ha. lia. }
    subst b. f_equal. apply IH; auto. intros x. split; intros Hx.
    + assert (Hx' : In x (a :: l')) by (apply E; right; auto). destruct Hx' as [<-|]; auto. apply Ha2 in Hx. lia.
    + assert (Hx' : In x (a :: l)) by (apply E; right; auto). destruct Hx' as [<-|]; auto. apply Hb2 in Hx. lia.
Qed.
Lemma sorted_lt_NoDup l : StronglySorted lt l -> NoDup l.
Proof.
  induction 1 as [|a l H IH HF]; constructor; auto. rewrite Forall_forall in HF. intros Ha. apply HF in Ha. lia.
Qed.
Lemma seq_sorted n : forall a, StronglySorted lt (seq a n).
Proof.
  induction n as [|n IH]; intros a; cbn; constructor; auto. apply Forall_forall. intros x Hx. apply in_seq in Hx. lia.
Qed.
Lemma filter_SS {A} (R : A -> A -> Prop) p l : StronglySorted R l -> StronglySorted R (filter p l).
Proof.
  induction 1 as [|a l H IH HF]; cbn; [constructor|]. destruct (p a); auto. constructor; auto.
  apply Forall_forall. intros x Hx. apply filter_In in Hx. rewrite Forall_forall in HF. apply HF, Hx.
Qed.

(** ** weights, for termination of get_deps *)
Definition weight (l : list nat) : nat := fold_right (fun x s => 2 ^ x + s)%nat O l.
Lemma weight_app l l' : weight (l ++ l') = (weight l + weight l')%nat.
Proof. unfold weight. induction l as [|a l IH]; cbn [app fold_right]; auto. rewrite IH. lia. Qed.
Lemma weight_perm l l' : Permutation l l' -> weight l = weight l'.
Proof. unfold weight. induction 1; cbn [fold_right]; lia. Qed.
Lemma weight_bound n : forall l, NoDup l -> (forall x, In x l -> (x < n)%nat) -> (weight l < 2 ^ n)%nat.
Proof.
  induction n as [|n IH]; intros l Hd Hl.
  - destruct l as [|a l]; [cbn; lia|]. specialize (Hl a (or_introl eq_refl)). lia.
  - destruct (in_dec Nat.eq_dec n l) as [Hn|Hn].
    + apply in_split in Hn. destruct Hn as (l1 & l2 & ->).
      rewrite <- (weight_perm _ _ (Permutation_middle l1 l2 n)). cbn [weight fold_right]. fold (weight (l1 ++ l2)).
      apply NoDup_remove in Hd. destruct Hd as [Hd Hn].
      assert (weight (l1 ++ l2) < 2 ^ n)%nat.
      { apply IH; auto. intros x Hx. assert (In x (l1 ++ n :: l2)) by (apply in_app_iff in Hx; apply in_app_iff; cbn; tauto).
        specialize (Hl x H). assert (x <> n) by (intros ->; auto). lia. }
      cbn. lia.
    + assert (weight l < 2 ^ n)%nat; [|cbn; lia]. apply IH; auto. intros x Hx. specialize (Hl x Hx).
      assert (x <> n) by (intros ->; auto). lia.
Qed.

Section Trace.
  Context {K : Type} {OK : OrdRing K}.
  Implicit Types h : heap K.

  Lemma deps_loop_ok pick h args : wf0 h -> forall fuel fr seen deps,
    (weight fr <= fuel)%nat -> NoDup fr -> (forall x, In x fr -> (x < size h)%nat) ->
    (forall x, In x fr -> ancestor h args x) -> (forall x, In x seen -> ancestor h args x) ->
    (forall x, In x args -> In x seen \/ In x fr) ->
    (forall x y, In x seen -> In y (inputs_of h x) -> In y seen \/ In y fr) ->
    NoDup seen -> NoDup deps -> (forall x, In x deps <-> In x seen /\ inputs_of h x = []) ->
    exists deps' seen', deps_loop pick h fuel fr seen deps = Ok (deps', seen') /\ NoDup deps' /\ NoDup seen' /\
      (forall x, In x seen' <-> ancestor h args x) /\ (forall x, In x deps' <-> ancestor h args x /\ inputs_of h x = []).
  Proof.
    intros W. induction fuel as [|fuel IH]; intros fr seen deps Hw Hd Hlt Hfa Hsa Harg Hcl Hsd Hdd Hdeps.
    - destruct fr as [|x fr]; [|exfalso; cbn in Hw; pose proof (Nat.pow_nonzero 2 x); lia].
      cbn [deps_loop].
      assert (HS : forall x, In x seen <-> ancestor h args x).
      { intros x. split; auto. induction 1 as [i Hi|i j Hi IHi Hj].
        - destruct (Harg i Hi) as [|[]]; auto.
        - destruct (Hcl i j IHi Hj) as [|[]]; auto. }
      exists deps, seen. split; [reflexivity|]. split; auto. split; auto. split; auto. intros x. rewrite Hdeps, HS. tauto.
    - destruct fr as [|x0 fr0].
      { cbn [deps_loop].
        assert (HS : forall x, In x seen <-> ancestor h args x).
        { intros x. split; auto. induction 1 as [i Hi|i j Hi IHi Hj].
          - destruct (Harg i Hi) as [|[]]; auto.
          - destruct (Hcl i j IHi Hj) as [|[]]; auto. }
        exists deps, seen. split; [reflexivity|]. split; auto. split; auto. split; auto. intros x. rewrite Hdeps, HS. tauto. }
      cbn [deps_loop]. set (fr := x0 :: fr0) in *. set (k := Nat.modulo (pick fuel) (length fr)).
      assert (Hk : (k < length fr)%nat) by (apply Nat.mod_upper_bound; cbn; lia).
      set (x := nth k fr x0). set (fr1 := firstn k fr ++ skipn (S k) fr).
      assert (P : Permutation fr (x :: fr1)).
      { assert (E : fr = firstn k fr ++ x :: skipn (S k) fr).
        { rewrite <- (firstn_skipn k fr) at 1. f_equal. subst x. clearbody k. clear - Hk. clearbody fr. revert k Hk.
          induction fr as [|a l IH]; intros [|k] Hk; cbn in *; try lia; auto. apply IH. lia. }
        rewrite E at 1. symmetry. apply Permutation_middle. }
      clearbody k x fr1.
      assert (Hx : In x fr) by (eapply Permutation_in; [symmetry; exact P|left; auto]).
      assert (Hxl := Hlt x Hx). assert (Hxa := Hfa x Hx).
      assert (Hd1 : NoDup (x :: fr1)) by (eapply Permutation_NoDup; eauto). inversion Hd1 as [|? ? Hx1 Hd1']; subst.
      assert (Hw1 : weight fr = (2 ^ x + weight fr1)%nat) by (rewrite (weight_perm _ _ P); reflexivity).
      assert (Hin1 : forall y, In y fr1 -> In y fr) by (intros y Hy; eapply Permutation_in; [symmetry; exact P|right; auto]).
      assert (Hin2 : forall y, In y fr -> y = x \/ In y fr1) by (intros y Hy; eapply Permutation_in in Hy; [|exact P]; destruct Hy; auto).
      fold (inputs_of h x). destruct (inputs_of h x) as [|i0 il] eqn:Ei.
      + apply IH; auto.
        * pose proof (Nat.pow_nonzero 2 x). lia.
        * intros y Hy. apply set_add_In in Hy. destruct Hy as [Hy| ->]; auto.
        * intros y Hy. rewrite set_add_In. destruct (Harg y Hy) as [Hy'|Hy']; auto. destruct (Hin2 y Hy'); auto.
        * intros y z Hy Hz. rewrite set_add_In in *. destruct Hy as [Hy| ->]; [|rewrite Ei in Hz; destruct Hz].
          destruct (Hcl y z Hy Hz) as [Hz'|Hz']; auto. destruct (Hin2 z Hz'); auto.
        * apply set_add_NoDup; auto.
        * apply set_add_NoDup; auto.
        * intros y. rewrite !set_add_In, Hdeps. split; [intros [[]| ->]; auto|]. intros [[Hy| ->] E]; auto.
      + assert (Hil : forall y, In y (i0 :: il) -> (y < x)%nat) by (intros y Hy; apply (wf_in h W x y); [auto|rewrite Ei; auto]).
        destruct (set_adds (i0 :: il) fr1) as (new & E & Hnd & Hni & Hny). rewrite E.
        apply IH; auto.
        * rewrite weight_app. assert (weight new < 2 ^ x)%nat by (apply weight_bound; auto; intros y Hy; apply Hil, Hni, Hy). lia.
        * apply NoDup_app_intro; auto. intros y Hy. apply Hni; auto.
        * intros y Hy. apply Hny in Hy. destruct Hy as [Hy|Hy]; auto. apply Hil in Hy. lia.
        * intros y Hy. apply Hny in Hy. destruct Hy as [Hy|Hy]; auto. eapply anc_input; eauto. rewrite Ei; auto.
        * intros y Hy. apply set_add_In in Hy. destruct Hy as [Hy| ->]; auto.
        * intros y Hy. rewrite set_add_In, Hny. destruct (Harg y Hy) as [Hy'|Hy']; auto. destruct (Hin2 y Hy'); auto.
        * intros y z Hy Hz. rewrite set_add_In in *. rewrite Hny. destruct Hy as [Hy| ->]; [|rewrite Ei in Hz; auto].
          destruct (Hcl y z Hy Hz) as [Hz'|Hz']; auto. destruct (Hin2 z Hz'); auto.
        * apply set_add_NoDup; auto.
        * intros y. rewrite set_add_In, Hdeps. split; [intros []; auto|]. intros [[Hy| ->] E']; auto. congruence.
  Qed.

  Lemma anc_lt h vis args i : wf h vis -> incl args vis -> ancestor h args i -> In i vis.
  Proof. intros W Ha. induction 1 as [i Hi|i j Hi IHi Hj]; auto. eapply (wf_closed _ _ W); eauto. Qed.

  Lemma get_deps_ok ev h vis args : wf h vis -> incl args vis -> enum_ok ev ->
    exists fr gn, get_deps ev h args = Ok (fr, gn) /\ NoDup fr /\ NoDup gn /\
      (forall x, In x gn <-> ancestor h args x) /\ (forall x, In x fr <-> ancestor h args x /\ inputs_of h x = []).
  Proof.
    intros W Ha He. unfold get_deps.
    destruct (set_adds args []) as (new & E & Hnd & Hni & Hny). cbn [app] in *. rewrite E.
    assert (Hlt : forall x, In x new -> (x < size h)%nat) by (intros x Hx; apply (wf_vis _ _ W), Ha, Hni, Hx).
    destruct (deps_loop_ok (e_pick ev) h args (wf_base _ _ W) (2 ^ size h) new [] []) as (deps & seen & E2 & D1 & D2 & D3 & D4);
      cbn [In]; try tauto; auto; try apply NoDup_nil.
    - apply Nat.lt_le_incl, weight_bound; auto.
    - intros x Hx. apply anc_arg, Hni, Hx.
    - intros x Hx. right. apply Hny. auto.
    - rewrite E2. cbn [bind fst snd]. exists (e_enum ev deps), seen. split; auto. split.
      + eapply Permutation_NoDup; [symmetry; apply He|auto].
      + split; auto. split; auto. intros x. rewrite <- D4. split; apply Permutation_in; [|symmetry]; apply He.
  Qed.

  (** ** wires *)
  Definition sel (k : kind K) (l : list Z) : list Z :=
    match k with KSplit idx => map (znth 0 l) idx | _ => l end.
  Definition src_wire h srcs i : list Z :=
    match odict_get (fst (assign_indices h srcs)) i with Ok r => r | Raise _ => [] end.
  Fixpoint wireF h srcs (fuel : nat) (i : nat) : list Z :=
    match fuel with
    | O => []
    | S fuel => match inputs_of h i with
                | [] => src_wire h srcs i
                | l => sel (nd_kind (nd h i)) (concat (map (wireF h srcs fuel) l))
                end
    end.
  Definition wire h srcs i := wireF h srcs (S i) i.
  Lemma wireF_wire h srcs : wf0 h -> forall fuel i, (i < fuel)%nat -> (i < size h)%nat -> wireF h srcs fuel i = wire h srcs i.
  Proof.
    intros W. assert (G : forall f1 f2 i, (i < f1)%nat -> (i < f2)%nat -> (i < size h)%nat -> wireF h srcs f1 i = wireF h srcs f2 i).
    { induction f1 as [|f1 IH]; intros [|f2] i H1 H2 Hs; try lia. cbn [wireF].
      destruct (inputs_of h i) as [|a l] eqn:E; auto. f_equal. f_equal. apply map_ext_in. intros j Hj.
      assert (j < i)%nat by (apply (wf_in h W i j); auto; rewrite E; auto). apply IH; lia. }
    intros. apply G; auto.
  Qed.
  Lemma wire_eq h srcs i : wf0 h -> (i < size h)%nat -> wire h srcs i =
    match inputs_of h i with [] => src_wire h srcs i | l => sel (nd_kind (nd h i)) (concat (map (wire h srcs) l)) end.
  Proof.
    intros W Hi. unfold wire at 1. cbn [wireF]. destruct (inputs_of h i) as [|a l] eqn:E; auto. f_equal. f_equal.
    apply map_ext_in. intros j Hj. assert (j < i)%nat by (apply (wf_in h W i j); auto; rewrite E; auto). apply wireF_wire; auto; lia.
  Qed.

  (** positions of the sources *)
  Lemma odict_get_set {V} (d : list (nat * V)) k v k' : odict_get (odict_set d k v) k' = if Nat.eqb k k' then Ok v else odict_get d k'.
  Proof.
    induction d as [|[k0 v0] d IH]; cbn; auto. destruct (Nat.eqb_spec k0 k) as [->|Hk]; cbn.
    - destruct (Nat.eqb k k'); auto.
    - rewrite IH. destruct (Nat.eqb_spec k0 k'), (Nat.eqb_spec k k'); auto. congruence.
  Qed.
  Lemma widths_app h l l' : widths h (l ++ l') = widths h l + widths h l'.
  Proof. induction l as [|a l IH]; cbn; auto. unfold widths in *. cbn. lia. Qed.
  Lemma widths_cons h a l : widths h (a :: l) = width h a + widths h l.
  Proof. reflexivity. Qed.
  Lemma sum_n_widths h l : sum_n h l = widths h l.
  Proof.
    unfold sum_n. enough (G : forall z, fold_left (fun a q => a + nd_n (nd h q)) l z = z + widths h l) by (rewrite G; lia).
    induction l as [|a l IH]; intros z; cbn [fold_left]; [unfold widths; cbn; lia|]. rewrite IH, widths_cons. unfold width. lia.
  Qed.
  Lemma assign_aux h l : forall d n l1, NoDup (l1 ++ l) -> n = widths h l1 ->
    (forall a i b, l1 = a ++ i :: b -> odict_get d i = Ok (zrange (widths h a) (widths h a + width h i))) ->
    exists d', fold_left (fun '(d, n) q => (odict_set d q (zrange n (n + nd_n (nd h q))), n + nd_n (nd h q))) l (d, n) = (d', widths h (l1 ++ l)) /\
    forall a i b, l1 ++ l = a ++ i :: b -> odict_get d' i = Ok (zrange (widths h a) (widths h a + width h i)).
  Proof.
    induction l as [|q l IH]; intros d n l1 Hd Hn H; cbn [fold_left].
    - exists d. rewrite app_nil_r in *. subst. auto.
    - destruct (IH (odict_set d q (zrange n (n + nd_n (nd h q)))) (n + nd_n (nd h q)) (l1 ++ [q])) as (d' & E & Hd').
      + rewrite <- app_assoc. exact Hd.
      + rewrite widths_app, widths_cons. unfold width. change (widths h []) with 0. lia.
      + intros a i b E. rewrite odict_get_set. rewrite <- (rev_involutive b) in E. destruct (rev b) as [|z rb]; cbn [rev] in E.
        * apply app_inj_tail in E. destruct E as [-> ->]. rewrite Nat.eqb_refl. subst n. reflexivity.
        * change (a ++ i :: rev rb ++ [z]) with (a ++ (i :: rev rb) ++ [z]) in E. rewrite app_assoc in E.
          apply app_inj_tail in E. destruct E as [El ->]. destruct (Nat.eqb_spec z i) as [->|Hne]; [|eapply H; eauto].
          exfalso. apply NoDup_remove in Hd. destruct Hd as [_ Hd]. apply Hd. rewrite in_app_iff. left. rewrite El.
          apply in_app_iff. right. left. auto.
      + exists d'. rewrite <- app_assoc in E, Hd'. split; auto.
  Qed.
  Lemma assign_ok h l : NoDup l -> exists d, assign_indices h l = (d, widths h l) /\
    forall a i b, l = a ++ i :: b -> odict_get d i = Ok (zrange (widths h a) (widths h a + width h i)).
  Proof.
    intros Hd. destruct (assign_aux h l [] 0 [] Hd eq_refl) as (d & E & H); [intros [] i b; discriminate|]. exists d. auto.
  Qed.
  Lemma src_wire_eq h l a i b : NoDup l -> l = a ++ i :: b -> src_wire h l i = zrange (widths h a) (widths h a + width h i).
  Proof.
    intros Hd E. unfold src_wire. destruct (assign_ok h l Hd) as (d & -> & H). cbn [fst]. rewrite (H a i b E). reflexivity.
  Qed.
  Lemma zlen_concat_map {A} (f : A -> list Z) (g : A -> Z) l : (forall x, In x l -> zlen (f x) = g x) ->
    zlen (concat (map f l)) = fold_right (fun x s => g x + s) 0 l.
  Proof.
    induction l as [|a l IH]; cbn [map concat fold_right]; intros H; [reflexivity|]. rewrite zlen_app, IH by (intros; apply H; right; auto). rewrite H by (left; auto). reflexivity.
  Qed.
  Lemma wire_len h vis srcs i : wf h vis -> NoDup srcs -> (forall j, ancestor h [i] j -> inputs_of h j = [] -> In j srcs) ->
    In i vis -> zlen (wire h srcs i) = width h i.
  Proof.
    intros W Hd. revert i. enough (G : forall n i, (i < n)%nat -> (forall j, ancestor h [i] j -> inputs_of h j = [] -> In j srcs) ->
      In i vis -> zlen (wire h srcs i) = width h i) by (intros i H1 H2; apply (G (S i)); auto).
    induction n as [|n IH]; intros i Hn Hsrc Hi; [lia|]. pose proof (wf_vis _ _ W i Hi) as Hlt.
    rewrite wire_eq by (auto; apply W). destruct (inputs_of h i) as [|a l] eqn:E.
    - assert (Hs : In i srcs) by (apply Hsrc; auto; apply anc_arg; left; auto).
      apply in_split in Hs. destruct Hs as (l1 & l2 & E2). rewrite (src_wire_eq h srcs l1 i l2 Hd E2).
      pose proof (wf_nonneg _ _ W i Hi). unfold width in *. rewrite zlen_zrange; lia.
    - unfold width. rewrite (wf_n h (wf_base _ _ W) i Hlt) by (rewrite E; discriminate).
      assert (El : zlen (concat (map (wire h srcs) (a :: l))) = widths h (a :: l)).
      { apply (zlen_concat_map (wire h srcs) (width h)). intros j Hj.
        assert (Hji : In j (inputs_of h i)) by (rewrite E; auto).
        pose proof (wf_in h (wf_base _ _ W) i j Hlt Hji). apply IH; [lia| |eapply (wf_closed _ _ W); eauto].
        intros x Hx. apply Hsrc. clear - Hx Hji. induction Hx as [x [->|[]]|x y Hx IHx Hy].
        - eapply anc_input; [apply anc_arg; left; reflexivity|auto].
        - eapply anc_input; eauto. }
      destruct (nd_kind (nd h i)); cbn [sel]; rewrite ?zlen_map, ?E, ?sum_n_widths, ?El; reflexivity.
  Qed.

  (** ** run_graph *)
  Section Run.
    Variables (h : heap K) (vis args : list nat) (srcs gn : list nat).
    Hypothesis W : wf h vis.
    Hypothesis Hargs : incl args vis.
    Hypothesis Hsplit : forall i idx k, ancestor h args i -> nd_kind (nd h i) = KSplit idx -> inputs_of h i <> [] ->
      In k idx -> 0 <= k < widths h (inputs_of h i).
    Hypothesis Hsrcs : sources h args srcs.
    Hypothesis Hgn : forall x, In x gn <-> ancestor h args x.
    Hypothesis Hgnd : NoDup gn.
    Notation WF0 := (wf_base _ _ W).
    Let w := wire h srcs.

    Lemma anc_vis i : ancestor h args i -> In i vis.
    Proof. apply (anc_lt h vis args i W Hargs). Qed.
    Lemma anc_size i : ancestor h args i -> (i < size h)%nat.
    Proof. intros H. apply (wf_vis _ _ W), anc_vis, H. Qed.
    Lemma anc_sub i j : ancestor h args i -> ancestor h [i] j -> ancestor h args j.
    Proof. intros Hi. induction 1 as [x [->|[]]|x y Hx IHx Hy]; auto. eapply anc_input; eauto. Qed.
    Lemma srcs_nodup : NoDup srcs.
    Proof. apply sorted_lt_NoDup, Hsrcs. Qed.
    Lemma w_len i : ancestor h args i -> zlen (w i) = width h i.
    Proof.
      intros Hi. apply (wire_len h vis); auto; [apply srcs_nodup| |apply anc_vis; auto].
      intros j Hj E. apply Hsrcs. split; auto. eapply anc_sub; eauto.
    Qed.
    Lemma w_inputs_len i : ancestor h args i -> zlen (concat (map w (inputs_of h i))) = widths h (inputs_of h i).
    Proof.
      intros Hi. apply (zlen_concat_map w (width h)). intros j Hj. apply w_len. eapply anc_input; eauto.
    Qed.
    Lemma select_ok i : ancestor h args i -> inputs_of h i <> [] ->
      select_index (nd_kind (nd h i)) (concat (map w (inputs_of h i))) = Ok (w i).
    Proof.
      intros Hi Hne. unfold w at 2. rewrite wire_eq; [|exact WF0|apply anc_size; auto]. fold w.
      destruct (inputs_of h i) as [|a l] eqn:E; [congruence|]. rewrite <- E in *.
      pose proof (w_inputs_len i Hi) as El. pose proof (Hsplit i) as Hr.
      destruct (nd_kind (nd h i)) as [|idx| | | |]; cbn [select_index sel]; auto.
      apply mmap_ok. intros k Hk. apply pyget_ok. specialize (Hr idx k Hi eq_refl Hne Hk). lia.
    Qed.

    (** the relation of the specification holds of the computed wires *)
    Lemma w_wires i : ancestor h args i -> wires h srcs i (w i).
    Proof.
      enough (G : forall n i, (i < n)%nat -> ancestor h args i -> wires h srcs i (w i)) by (intros; apply (G (S i)); auto).
      clear i. induction n as [|n IH]; intros i Hn Hi; [lia|]. pose proof (anc_size i Hi) as Hlt.
      assert (HF : Forall2 (wires h srcs) (inputs_of h i) (map w (inputs_of h i))).
      { assert (G : forall l, incl l (inputs_of h i) -> Forall2 (wires h srcs) l (map w l)).
        { induction l as [|j l IHl]; cbn; intros Hl; constructor.
          - pose proof (Hl j (or_introl eq_refl)) as Hj. pose proof (wf_in h WF0 i j Hlt Hj). apply IH; [lia|]. eapply anc_input; eauto.
          - apply IHl. intros x Hx. apply Hl. right. auto. }
        apply G, incl_refl. }
      pose proof (w_inputs_len i Hi) as El.
      unfold w at 1. rewrite wire_eq by (auto; apply WF0). fold w. destruct (inputs_of h i) as [|a l] eqn:E.
      - assert (Hs : In i srcs) by (apply Hsrcs; auto). apply in_split in Hs. destruct Hs as (l1 & l2 & E2).
        rewrite (src_wire_eq h srcs l1 i l2 srcs_nodup E2). eapply wires_source; eauto.
      - rewrite <- E in *. assert (Hne : inputs_of h i <> []) by (rewrite E; discriminate).
        pose proof (Hsplit i) as Hr.
        destruct (nd_kind (nd h i)) as [|idx| | | |] eqn:Ek; cbn [sel]; try (eapply wires_keep; eauto; intros idx; rewrite Ek; discriminate).
        eapply wires_split; eauto. specialize (Hr idx).
        assert (G : forall l', incl l' idx -> Forall2 (fun k z => 0 <= k /\ nth_error (concat (map w (inputs_of h i))) (Z.to_nat k) = Some z)
          l' (map (znth 0 (concat (map w (inputs_of h i)))) l')).
        { induction l' as [|k l' IHl]; cbn; intros Hl; constructor.
          - specialize (Hr k Hi eq_refl Hne (Hl k (or_introl eq_refl))). split; [lia|].
            rewrite znth_nth by lia. apply nth_error_nth'. unfold zlen in El. lia.
          - apply IHl. intros x Hx. apply Hl. right; auto. }
        apply G, incl_refl.
    Qed.

    Let good (qb : list (nat * list Z)) (l : list nat) := forall i, In i l -> odict_get qb i = Ok (w i).

    Lemma mmap_get qb l l' : good qb l -> incl l' l -> mmap (odict_get qb) l' = Ok (map w l').
    Proof. intros G Hi. apply mmap_ok. intros a Ha. apply G, Hi, Ha. Qed.

    Lemma push_ok seen sinks : StronglySorted le sinks -> forall fr qb,
      good qb (seen ++ fr) -> (forall i, ancestor h args i -> inputs_of h i = [] -> In i (seen ++ fr)) ->
      exists new qb', push_sinks h gn seen sinks fr qb = Ok (fr ++ new, qb') /\ StronglySorted lt new /\
        (forall i, In i new <-> In i sinks /\ ancestor h args i /\ ~ In i seen /\ ~ In i fr /\ incl (inputs_of h i) seen) /\
        good qb' (seen ++ fr ++ new).
    Proof.
      unfold push_sinks. induction 1 as [|s sinks Hs IH HF]; intros fr qb Hg Hsrc; cbn [mfold].
      - exists [], qb. rewrite app_nil_r. split; auto. split; [constructor|]. split; auto. cbn. intros; tauto.
      - rewrite Forall_forall in HF.
        assert (Skip : (forall i, In i [s] -> ~ (ancestor h args i /\ ~ In i seen /\ ~ In i fr /\ incl (inputs_of h i) seen)) ->
          forall new, (forall i, In i new <-> In i sinks /\ ancestor h args i /\ ~ In i seen /\ ~ In i fr /\ incl (inputs_of h i) seen) ->
          forall i, In i new <-> In i (s :: sinks) /\ ancestor h args i /\ ~ In i seen /\ ~ In i fr /\ incl (inputs_of h i) seen).
        { intros Hn new Hnew i. rewrite Hnew. cbn. split; [tauto|]. intros [[->|Hi] H]; auto. exfalso. apply (Hn i); auto. left; auto. }
        destruct (mem s gn) eqn:E1; cbn [andb].
        + apply mem_In, Hgn in E1. destruct (mem s seen) eqn:E2; cbn [negb andb].
          * apply mem_In in E2. cbn [bind]. destruct (IH fr qb Hg Hsrc) as (new & qb' & P & Q & R & T).
            exists new, qb'. split; auto. split; auto. split; auto. apply Skip; auto. intros i [<-|[]] H. tauto.
          * destruct (mem s fr) eqn:E3; cbn [negb andb].
            -- apply mem_In in E3. cbn [bind]. destruct (IH fr qb Hg Hsrc) as (new & qb' & P & Q & R & T).
               exists new, qb'. split; auto. split; auto. split; auto. apply Skip; auto. intros i [<-|[]] H. tauto.
            -- apply mem_false in E2. apply mem_false in E3. fold (inputs_of h s). destruct (forallb _ (inputs_of h s)) eqn:E4.
               ++ rewrite forallb_forall in E4.
                  assert (Hi : incl (inputs_of h s) seen) by (intros j Hj; apply mem_In, E4, Hj).
                  assert (Hne : inputs_of h s <> []).
                  { intros E. apply Hsrc in E; auto. apply in_app_iff in E. tauto. }
                  rewrite (mmap_get qb (seen ++ fr)); auto; [|intros j Hj; apply in_app_iff; left; auto]. cbn [bind].
                  rewrite select_ok by auto. cbn [bind].
                  destruct (IH (fr ++ [s]) (odict_set qb s (w s))) as (new & qb' & P & Q & R & T).
                  { intros i Hin. rewrite odict_get_set. destruct (Nat.eqb_spec s i) as [->|Hns]; auto. apply Hg.
                    rewrite !in_app_iff in *. destruct Hin as [|[|[|[]]]]; auto. congruence. }
                  { intros i Ha Ei. rewrite app_assoc. apply in_app_iff. left. auto. }
                  exists (s :: new), qb'. rewrite <- app_assoc in P. split; [exact P|]. split.
                  { constructor; auto. apply Forall_forall. intros x Hx. apply R in Hx. destruct Hx as (Hx & _ & _ & Hx2 & _).
                    apply HF in Hx. assert (x <> s) by (intros ->; apply Hx2, in_app_iff; right; left; auto). lia. }
                  split.
                  { intros i. cbn [In]. rewrite R. split.
                    - intros [<-|(A1 & A2 & A3 & A4 & A5)]; auto. split; auto. split; auto. split; auto. split; auto.
                      intros Hf. apply A4, in_app_iff. auto.
                    - intros ([<-|A1] & A2 & A3 & A4 & A5); auto. destruct (Nat.eq_dec s i) as [->|Hne']; auto. right.
                      split; auto. split; auto. split; auto. split; auto. rewrite in_app_iff. cbn. intros [|[|[]]]; auto. }
                  rewrite <- app_assoc in T. exact T.
               ++ cbn [bind]. destruct (IH fr qb Hg Hsrc) as (new & qb' & P & Q & R & T).
                  exists new, qb'. split; auto. split; auto. split; auto. apply Skip; auto. intros i [<-|[]] (_ & _ & _ & Hi).
                  assert (E5 : forallb (fun prev => mem prev seen) (inputs_of h s) = true).
                  { apply forallb_forall. intros j Hj. apply mem_In, Hi, Hj. }
                  congruence.
        + cbn [bind]. destruct (IH fr qb Hg Hsrc) as (new & qb' & P & Q & R & T).
          exists new, qb'. split; auto. split; auto. split; auto. apply Skip; auto. intros i [<-|[]] (Ha & _).
          apply Hgn, mem_In in Ha. congruence.
    Qed.

    Definition order : list nat := filter (fun i => mem i gn) (seq 0 (size h)).
    Lemma order_sorted : StronglySorted lt order.
    Proof. apply filter_SS, seq_sorted. Qed.
    Lemma order_In i : In i order <-> ancestor h args i.
    Proof.
      unfold order. rewrite filter_In, mem_In, Hgn, in_seq. split; [tauto|]. intros Hi. pose proof (anc_size i Hi). split; auto. lia.
    Qed.

    Let T a b := nd_qid (nd h a) = nd_qid (nd h b) -> (a < b)%nat.

    Section Feed.
      Context {A : Type} (feed : A -> nat -> list (list Z) -> st A unit).

      Lemma graph_loop_ok : forall todo done fuel fr seen qb a, done ++ todo = order -> (length todo <= fuel)%nat ->
        NoDup fr -> (forall i, In i fr <-> In i todo /\ incl (inputs_of h i) done) -> ForallOrdPairs T fr ->
        (forall i, In i seen <-> In i done) -> good qb (seen ++ fr) ->
        graph_loop feed h gn fuel fr seen qb a = sfold (fun a i => feed a i (map w (inputs_of h i))) todo a.
      Proof.
        induction todo as [|x todo IH]; intros done fuel fr seen qb a HL Hfuel Hfd Hfr Ht Hseen Hg.
        - assert (fr = []) as -> by (destruct fr as [|i fr]; auto; exfalso; apply (Hfr i); left; auto).
          destruct fuel; reflexivity.
        - assert (Hord : forall i, In i (done ++ x :: todo) <-> ancestor h args i) by (intros i; rewrite HL; apply order_In).
          assert (Hsort : StronglySorted lt (done ++ x :: todo)) by (rewrite HL; apply order_sorted).
          assert (Hxmin : forall i, In i todo -> (x < i)%nat).
          { clear - Hsort. induction done as [|d done IHd]; cbn in Hsort; inversion Hsort as [|? ? H1 H2]; subst; auto.
            rewrite Forall_forall in H2. auto. }
          assert (Hdmin : forall i j, In i done -> In j (x :: todo) -> (i < j)%nat).
          { clear - Hsort. induction done as [|d done IHd]; cbn in Hsort; intros i j Hi Hj; [destruct Hi|].
            inversion Hsort as [|? ? H1 H2]; subst. rewrite Forall_forall in H2. destruct Hi as [<-|Hi]; [apply H2, in_app_iff; auto|].
            apply IHd; auto. }
          assert (Hxa : ancestor h args x) by (apply Hord, in_app_iff; right; left; auto).
          assert (Hxs := anc_size x Hxa).
          assert (Hxin : incl (inputs_of h x) done).
          { intros j Hj. assert (Hja : ancestor h args j) by (eapply anc_input; eauto). pose proof (wf_in h WF0 x j Hxs Hj).
            apply Hord in Hja. apply in_app_iff in Hja. destruct Hja as [|[->|Hj']]; auto; [lia|]. apply Hxmin in Hj'. lia. }
          assert (Hxfr : In x fr) by (apply Hfr; split; auto; left; auto).
          (* the head of the sorted frontier is x *)
          pose proof (sort_perm (qid_of h) fr) as Pm. pose proof (sort_sorted (qid_of h) fr) as Ps.
          pose proof (sort_stable (qid_of h) lt fr Ht) as Pt.
          destruct (sort_by (qid_of h) fr) as [|y fr1] eqn:Es.
          { exfalso. apply Permutation_nil in Pm. subst fr. destruct Hxfr. }
          assert (y = x) as ->.
          { assert (Hy : In y fr) by (eapply Permutation_in; [exact Pm|left; auto]).
            assert (Hx : In x (y :: fr1)) by (eapply Permutation_in; [symmetry; exact Pm|auto]).
            destruct Hx as [|Hx]; auto. exfalso. apply Hfr in Hy. destruct Hy as [Hyt Hyi].
            assert (Hxy : (x <= y)%nat) by (destruct Hyt as [->|Hyt]; [lia|apply Hxmin in Hyt; lia]).
            inversion Ps as [|? ? P1 P2]; inversion Pt as [|? ? P3 P4]; subst. rewrite Forall_forall in *.
            specialize (P2 x Hx). specialize (P3 x Hx). unfold qid_of in *.
            assert (Hya : ancestor h args y) by (apply Hord, in_app_iff; auto).
            pose proof (wf_qid h WF0 x y Hxy (anc_size y Hya)). assert (y < x)%nat by (apply P3; lia). lia. }
          destruct fuel as [|fuel]; [cbn in Hfuel; lia|]. cbn [graph_loop sfold]. rewrite Es.
          rewrite (mmap_get qb (seen ++ fr)); auto; [|intros j Hj; apply in_app_iff; left; apply Hseen, Hxin, Hj].
          fold (inputs_of h x). destruct (feed a x (map w (inputs_of h x))) as [a' [[]|e]]; cbn [sbind]; [|reflexivity].
          assert (Pfr : forall i, In i (x :: fr1) <-> In i fr) by (intros i; split; apply Permutation_in; [|symmetry]; auto).
          assert (Hnd : NoDup (x :: fr1)) by (eapply Permutation_NoDup; [symmetry; exact Pm|auto]).
          assert (Hseen' : forall i, In i (set_add seen x) <-> In i (done ++ [x])).
          { intros i. rewrite set_add_In, Hseen, in_app_iff. cbn. split; intros [|H]; auto. destruct H as [->|[]]; auto. }
          destruct (push_ok (set_add seen x) (nd_sink (nd h x)) (wf_sorted h WF0 x) fr1 qb) as (new & qb' & P1 & P2 & P3 & P4).
          { intros i. rewrite in_app_iff, set_add_In. intros [[Hi| ->]|Hi]; apply Hg; apply in_app_iff; auto. right. apply Pfr. right; auto. }
          { intros i Ha Ei. apply in_app_iff. pose proof (proj2 (Hord i) Ha) as Hi. apply in_app_iff in Hi.
            destruct Hi as [Hi|Hi]; [left; apply set_add_In; left; apply Hseen; auto|].
            assert (Hif : In i fr) by (apply Hfr; split; auto; rewrite Ei; intros j []).
            apply Pfr in Hif. destruct Hif as [<-|Hif]; auto. left. apply set_add_In. auto. }
          fold (inputs_of h) in *. rewrite P1.
          assert (Hxnew : forall i, In i new -> In x (inputs_of h i)).
          { intros i Hi. apply P3 in Hi. destruct Hi as (_ & Hia & His & Hif & Hii).
            destruct (in_dec Nat.eq_dec x (inputs_of h i)) as [|Hn]; auto. exfalso.
            assert (In i (x :: fr1)).
            { apply Pfr, Hfr. split.
              - pose proof (proj2 (Hord i) Hia) as Ho. apply in_app_iff in Ho. destruct Ho as [Ho|]; auto. exfalso. apply His, Hseen', in_app_iff. auto.
              - intros j Hj. specialize (Hii j Hj). apply Hseen', in_app_iff in Hii. destruct Hii as [|[->|[]]]; auto. contradiction. }
            destruct H as [->|]; auto. apply His, Hseen', in_app_iff. right; left; auto. }
          apply (IH (done ++ [x])); auto.
          + rewrite <- app_assoc. exact HL.
          + cbn in Hfuel. lia.
          + inversion Hnd; subst. apply NoDup_app_intro; auto; [apply sorted_lt_NoDup; auto|]. intros i Hi. apply P3 in Hi. tauto.
          + intros i. rewrite in_app_iff. split.
            * intros [Hi|Hi].
              -- assert (Hif : In i fr) by (apply Pfr; right; auto). apply Hfr in Hif. destruct Hif as [[->|Hif] Hii].
                 ++ inversion Hnd; contradiction.
                 ++ split; auto. intros j Hj. apply in_app_iff. auto.
              -- apply P3 in Hi. destruct Hi as (_ & Hia & His & _ & Hii). split.
                 ++ pose proof (proj2 (Hord i) Hia) as Ho. rewrite in_app_iff in Ho. rewrite Hseen', in_app_iff in His. cbn in Ho, His. tauto.
                 ++ intros j Hj. apply Hseen', Hii, Hj.
            * intros [Hi Hii]. destruct (in_dec Nat.eq_dec i fr1) as [|Hn]; auto. right.
              assert (Hia : ancestor h args i) by (apply Hord, in_app_iff; right; right; auto).
              assert (Hix : i <> x) by (apply Hxmin in Hi; lia).
              assert (Hins : ~ In i (set_add seen x)).
              { rewrite Hseen', in_app_iff. cbn. intros [Hd|[->|[]]]; [|congruence]. specialize (Hdmin i i Hd (or_intror Hi)). lia. }
              apply P3. split; [|split; [auto|split; [auto|split; [auto|intros j Hj; apply Hseen', Hii, Hj]]]].
              apply (wf_sink _ _ W); [apply anc_vis; auto|].
              destruct (in_dec Nat.eq_dec x (inputs_of h i)) as [|Hnx]; auto. exfalso.
              assert (Hif : In i (x :: fr1)).
              { apply Pfr, Hfr. split; [right; auto|]. intros j Hj. specialize (Hii j Hj). apply in_app_iff in Hii. destruct Hii as [|[->|[]]]; auto. contradiction. }
              destruct Hif as [->|]; auto.
          + inversion Pt; subst. apply FOP_app; auto.
            * clear - P2. induction P2 as [|b l H1 IH1 HF]; constructor; auto. eapply Forall_impl; [|exact HF]. intros c Hc _. auto.
            * intros b c Hb Hc Eq. destruct (Nat.lt_trichotomy b c) as [|[->|Hcb]]; auto; exfalso.
              -- apply P3 in Hc. tauto.
              -- assert (Hbf : In b fr) by (apply Pfr; right; auto). pose proof (proj1 (Hfr b) Hbf) as [Hbt Hbi].
                 assert (Hba : ancestor h args b) by (apply Hord, in_app_iff; auto).
                 assert (Hca : ancestor h args c) by (apply P3 in Hc; tauto).
                 destruct (wf_tie _ _ W c b (anc_vis _ Hca) (anc_vis _ Hba) Hcb (eq_sym Eq)) as (p & E1 & E2).
                 pose proof (Hxnew c Hc) as Hxc. rewrite E1 in Hxc. destruct Hxc as [->|[]].
                 assert (Hxd : In x done) by (apply Hbi; rewrite E2; left; auto).
                 specialize (Hdmin x x Hxd (or_introl eq_refl)). lia.
      Qed.

      Lemma run_graph_ok fr a : NoDup fr -> (forall i, In i fr <-> In i srcs) ->
        sort_by (qid_of h) fr = srcs ->
        run_graph feed h fr gn a = sfold (fun a i => feed a i (map w (inputs_of h i))) order a.
      Proof.
        intros Hd Hi Es. unfold run_graph. rewrite Es. apply (graph_loop_ok order []); auto.
        - apply NoDup_incl_length; [apply sorted_lt_NoDup, order_sorted|]. intros i Hi'. apply Hgn, order_In, Hi'.
        - intros i. rewrite Hi. rewrite order_In, (proj2 Hsrcs i). split; intros [H1 H2]; split; auto.
          + rewrite H2. intros j [].
          + destruct (inputs_of h i) as [|j l]; auto. destruct (H2 j (or_introl eq_refl)).
        - assert (G : forall i j, In i fr -> In j fr -> T i j \/ i = j).
          { intros i j Hif Hjf. destruct (Nat.eq_dec i j); auto. left. intros Eq. destruct (Nat.lt_ge_cases i j) as [|Hge]; auto. exfalso.
            assert (Hji : (j < i)%nat) by lia. rewrite Hi in *. apply (proj2 Hsrcs) in Hif, Hjf.
            destruct (wf_tie _ _ W j i (anc_vis _ (proj1 Hjf)) (anc_vis _ (proj1 Hif)) Hji (eq_sym Eq)) as (p & E1 & E2).
            destruct Hif. congruence. }
          clear - Hd G. induction fr as [|b fr IH]; constructor.
          + inversion Hd; subst. apply Forall_forall. intros c Hc. destruct (G b c) as [|E]; cbn; auto. subst c. contradiction.
          + inversion Hd; subst. apply IH; auto. intros i j Hif Hjf. apply G; right; auto.
        - tauto.
        - cbn [app]. intros i Hif. unfold w. rewrite wire_eq; [|apply WF0|].
          + apply Hi in Hif. pose proof (proj1 (proj2 Hsrcs i) Hif) as [_ ->]. unfold src_wire.
            destruct (assign_ok h srcs srcs_nodup) as (d & E & Hget). rewrite E. cbn [fst].
            apply in_split in Hif. destruct Hif as (l1 & l2 & El). rewrite (Hget l1 i l2 El). reflexivity.
          + apply anc_size. apply Hi, (proj2 Hsrcs) in Hif. tauto.
      Qed.
    End Feed.

    (** the sources sorted by qid are the sources in creation order *)
    Lemma sort_srcs fr : NoDup fr -> (forall i, In i fr <-> In i srcs) -> sort_by (qid_of h) fr = srcs.
    Proof.
      intros Hd Hi. apply sorted_lt_unique.
      - pose proof (sort_perm (qid_of h) fr) as Pm. pose proof (sort_sorted (qid_of h) fr) as Ps.
        assert (Hin : forall i, In i (sort_by (qid_of h) fr) -> ancestor h args i /\ inputs_of h i = []).
        { intros i H. apply (proj2 Hsrcs), Hi. eapply Permutation_in; eauto. }
        assert (Hnd : NoDup (sort_by (qid_of h) fr)) by (eapply Permutation_NoDup; [symmetry; exact Pm|auto]).
        revert Hin Hnd. clear Pm. induction Ps as [|b l H1 IH HF]; intros Hin Hnd; constructor.
        + inversion Hnd; subst. apply IH; auto. intros i H. apply Hin. right; auto.
        + inversion Hnd; subst. apply Forall_forall. intros c Hc. rewrite Forall_forall in HF. specialize (HF c Hc).
          destruct (Hin b (or_introl eq_refl)) as [Hba Hb0]. destruct (Hin c (or_intror Hc)) as [Hca Hc0].
          destruct (Nat.lt_trichotomy b c) as [|[->|Hcb]]; auto; exfalso; [contradiction|].
          pose proof (wf_qid h WF0 c b ltac:(lia) (anc_size b Hba)). unfold qid_of in HF.
          destruct (wf_tie _ _ W c b (anc_vis _ Hca) (anc_vis _ Hba) Hcb ltac:(lia)) as (p & E1 & E2). congruence.
      - apply Hsrcs.
      - intros i. rewrite <- Hi. split; apply Permutation_in; [|symmetry]; apply sort_perm.
    Qed.
  End Run.
End Trace.
