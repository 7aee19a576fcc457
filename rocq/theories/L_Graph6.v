(** Whole runs. *)
From Coq Require Import Sorted.
From Verif Require Import Base S_Bits L_Bits M_Kron S_Kron M_Ops S_Ops M_Feed S_Feed L_Feed M_Func S_Func
  M_Measure S_Measure L_Alg M_Graph S_Graph L_Graph1 L_Graph2 L_Graph3 L_Graph4 L_Graph5.

Lemma olist_eqb_spec a : forall b, olist_eqb a b = true <-> a = b.
Proof.
  induction a as [|x a IH]; intros [|y b]; cbn; split; intros H; try discriminate; auto.
  - apply andb_true_iff in H. destruct H as [H1 H2]. apply Nat.eqb_eq in H1. apply IH in H2. subst; auto.
  - inversion H; subst. rewrite Nat.eqb_refl. apply IH. auto.
Qed.
Lemma tdict_set_fresh {V} (d : list (list nat * V)) k v : ~ In k (map fst d) -> tdict_set d k v = d ++ [(k, v)].
Proof.
  induction d as [|[k' v'] d IH]; cbn; intros H; auto. destruct (olist_eqb k' k) eqn:E.
  - apply olist_eqb_spec in E. exfalso. apply H. auto.
  - f_equal. apply IH. auto.
Qed.
Lemma odict_set_fresh {V} (d : list (nat * V)) k v : ~ In k (map fst d) -> odict_set d k v = d ++ [(k, v)].
Proof.
  induction d as [|[k' v'] d IH]; cbn; intros H; auto. destruct (Nat.eqb_spec k' k) as [->|E]; [exfalso; auto|].
  f_equal. apply IH. auto.
Qed.

Lemma forallb_ext_in {A} (f g : A -> bool) l : (forall x, In x l -> f x = g x) -> forallb f l = forallb g l.
Proof. induction l as [|a l IH]; cbn; intros H; auto. rewrite (H a), IH; auto. Qed.

Section FeedLemmas.
  Context {K : Type} {OK : OrdRing K}.
  Notation C := (Cx K).

  Lemma normal_feed (feed : list (fkey * feed_t K)) : NoDup (map (fun kv => key_nodes (fst kv)) feed) ->
    fold_left (fun d '(k, v) => tdict_set d (fkey_tuple k) v) feed [] = map (fun kv => (key_nodes (fst kv), snd kv)) feed.
  Proof.
    intros Hd. enough (G : forall d, NoDup (map fst d ++ map (fun kv => key_nodes (fst kv)) feed) ->
      fold_left (fun d '(k, v) => tdict_set d (fkey_tuple k) v) feed d = d ++ map (fun kv => (key_nodes (fst kv), snd kv)) feed).
    { rewrite (G []); auto. }
    clear Hd. induction feed as [|[k v] feed IH]; intros d Hd; cbn [fold_left map]; [rewrite app_nil_r; auto|].
    cbn [map fst] in Hd. change (fkey_tuple k) with (key_nodes k). apply NoDup_remove in Hd as Hd'. destruct Hd' as [Hd1 Hd2].
    rewrite tdict_set_fresh by (intros Hi; apply Hd2, in_app_iff; auto). rewrite IH.
    - rewrite <- app_assoc. reflexivity.
    - rewrite map_app, <- app_assoc. exact Hd.
  Qed.

  Definition dflt (h : heap K) (fed : list nat) (q : nat) : list (list nat * feed_t K) :=
    if mem q fed then [] else match default_amps h q with Some a => [([q], FArr a)] | None => [] end.
  Lemma add_defaults_ok (h : heap K) fed : forall fr d, NoDup fr -> (forall q, In q fr -> ~ In q fed -> ~ In [q] (map fst d)) ->
    add_defaults h fr fed d = d ++ concat (map (dflt h fed) fr).
  Proof.
    unfold add_defaults. induction fr as [|q fr IH]; intros d Hn Hf; cbn [fold_left map concat]; [rewrite app_nil_r; auto|].
    inversion Hn as [|x y Hq Hn']; subst.
    assert (Hcase : forall e, ((e = [] \/ exists a, e = [([q], FArr a)]) /\ (mem q fed = false \/ e = [])) ->
      forall q', In q' fr -> ~ In q' fed -> ~ In [q'] (map fst (d ++ e))).
    { intros e [He _] q' Hi Hni Hx. rewrite map_app, in_app_iff in Hx. destruct Hx as [Hx|Hx].
      - apply (Hf q') in Hx; auto. right; auto.
      - destruct He as [->|[a ->]]; [destruct Hx|]. destruct Hx as [Hx|[]]. inversion Hx; subst. auto. }
    unfold dflt at 1, default_amps. destruct (mem q fed) eqn:E.
    { apply IH; auto. intros. apply Hf; auto. right; auto. }
    assert (Hfq : ~ In [q] (map fst d)) by (apply Hf; [left; auto|apply mem_false; auto]).
    destruct (nd_default (nd h q)) as [[l|l|z]|].
    - rewrite tdict_set_fresh by auto. rewrite IH, <- app_assoc; auto. apply Hcase. split; eauto.
    - rewrite tdict_set_fresh by auto. rewrite IH, <- app_assoc; auto. apply Hcase. split; eauto.
    - unfold width. destruct ((0 <? z) && (z <? 2 ^ nd_n (nd h q))).
      + rewrite tdict_set_fresh by auto. rewrite IH, <- app_assoc; auto. apply Hcase. split; eauto.
      + apply IH; auto. intros. apply Hf; auto. right; auto.
    - apply IH; auto. intros. apply Hf; auto. right; auto.
  Qed.

  Lemma concat_map_perm {A B} (f : A -> list B) l l' : Permutation l l' -> Permutation (concat (map f l)) (concat (map f l')).
  Proof.
    induction 1; cbn; auto.
    - apply Permutation_app; auto.
    - rewrite !app_assoc. apply Permutation_app_tail, Permutation_app_comm.
    - etransitivity; eauto.
  Qed.
  Lemma feeds_ok_perm n (fs fs' : list (list Z * list C)) : Permutation fs fs' -> feeds_ok n fs -> feeds_ok n fs'.
  Proof.
    intros P [[H1 H2] H3]. assert (Pc : Permutation (concat (map fst fs)) (concat (map fst fs'))) by (apply concat_map_perm; auto).
    split; [split|].
    - eapply Permutation_NoDup; eauto.
    - intros q Hq. apply H2. eapply Permutation_in; [symmetry|]; eauto.
    - intros g a Hi. apply H3. eapply Permutation_in; [symmetry|]; eauto.
  Qed.
  Lemma existsb_perm {A} (f : A -> bool) l l' : Permutation l l' -> existsb f l = existsb f l'.
  Proof.
    intros P. destruct (existsb f l) eqn:E, (existsb f l') eqn:E'; auto.
    - apply existsb_exists in E. destruct E as (x & Hx & E). rewrite <- E'. symmetry. apply existsb_exists. exists x.
      split; auto. eapply Permutation_in; eauto.
    - apply existsb_exists in E'. destruct E' as (x & Hx & E'). rewrite <- E. apply existsb_exists. exists x.
      split; auto. eapply Permutation_in; [symmetry|]; eauto.
  Qed.
  Lemma fed_amp_perm n (fs fs' : list (list Z * list C)) x : Permutation fs fs' -> fed_amp n fs x = fed_amp n fs' x.
  Proof.
    intros P. unfold fed_amp. rewrite (prod_perm fs fs') by auto.
    rewrite (forallb_ext_in _ (fun q => existsb (Z.eqb q) (concat (map fst fs')) || negb (qbit n x q))); auto.
    intros q _. rewrite (existsb_perm _ _ _ (concat_map_perm fst _ _ P)). reflexivity.
  Qed.
  Lemma fed_amp_nil n x : 0 <= n -> 0 <= x < 2 ^ n -> fed_amp n (@nil (list Z * list C)) x = if x =? 0 then 1%r else 0%r.
  Proof.
    intros Hn Hx. unfold fed_amp. cbn [map concat existsb orb prod].
    assert (Q0 : forall q, 0 <= q < n -> qbit n 0 q = false) by (intros; unfold qbit; apply Z.testbit_0_l).
    destruct (Z.eqb_spec x 0) as [->|Hne].
    - rewrite (proj2 (forallb_forall _ _)); auto. intros q Hq. apply in_zrange in Hq. rewrite Q0 by lia. auto.
    - destruct (forallb _ _) eqn:E; auto. exfalso. apply Hne.
      apply (qbit_ext n); auto; [split; [lia|apply Z.pow_pos_nonneg; lia]|]. intros q Hq. rewrite Q0 by auto.
      rewrite forallb_forall in E. specialize (E q (proj2 (in_zrange _ _ _) Hq)). apply negb_true_iff in E. auto.
  Qed.
End FeedLemmas.

Section Runs.
  Context {K : Type} {OK : OrdRing K}.
  Notation C := (Cx K).
  Variables (h : heap K) (vis args : list nat) (srcs ord : list nat).
  Hypothesis W : wf h vis.
  Hypothesis Hargs : incl args vis.
  Hypothesis Hsplit : forall i idx k, ancestor h args i -> nd_kind (nd h i) = KSplit idx -> inputs_of h i <> [] ->
    In k idx -> 0 <= k < widths h (inputs_of h i).
  Hypothesis Hsrcs : sources h args srcs.
  Hypothesis Hord : StronglySorted lt ord.
  Hypothesis HordIn : forall i, In i ord <-> ancestor h args i.
  Variable ev : env K.
  Hypothesis Henum : enum_ok ev.
  Notation w := (wire h srcs).
  Notation n := (widths h srcs).
  Add Ring CRing6 : (@rth C _).
  Notation step := (fun a i => node_feed ev h a i (map w (inputs_of h i))).

  Lemma srcs_nd : NoDup srcs.
  Proof. apply sorted_lt_NoDup, Hsrcs. Qed.
  Lemma src_anc i : In i srcs -> ancestor h args i.
  Proof. intros H. apply (proj2 Hsrcs) in H. tauto. Qed.

  Lemma graph_trace : exists fr gn, get_deps ev h args = Ok (fr, gn) /\ Permutation fr srcs /\ sort_by (qid_of h) fr = srcs /\
    forall A (feed : A -> nat -> list (list Z) -> st A unit) fr' a, Permutation fr' srcs ->
      run_graph feed h fr' gn a = sfold (fun a i => feed a i (map w (inputs_of h i))) ord a.
  Proof.
    destruct (get_deps_ok ev h vis args W Hargs Henum) as (fr & gn & E & Hnf & Hng & Hgn & Hfr). exists fr, gn. split; auto.
    assert (Hsf : forall i, In i fr <-> In i srcs) by (intros i; rewrite Hfr, (proj2 Hsrcs i); tauto).
    split; [apply NoDup_Permutation; auto; apply srcs_nd|].
    split; [eapply sort_srcs; eauto|]. intros A feed fr' a Pf.
    assert (Eo : order h gn = ord).
    { apply sorted_lt_unique; auto; [apply order_sorted|]. intros i. rewrite HordIn. eapply order_In; eauto. }
    assert (Hnf' : NoDup fr') by (eapply Permutation_NoDup; [symmetry; exact Pf|apply srcs_nd]).
    assert (Hsf' : forall i, In i fr' <-> In i srcs).
    { intros i; split; apply Permutation_in; auto. symmetry; auto. }
    rewrite <- Eo. eapply run_graph_ok; eauto. eapply sort_srcs; eauto.
  Qed.

  (** the part of run before the nodes are executed *)
  Definition fgroups (dict : list (list nat * feed_t K)) : list (list Z) := map (fun kv => concat (map w (fst kv))) dict.
  Definition start (feed : list (fkey * feed_t K)) (fr : list nat) (state : state_kw K) : res (backend K) :=
    let dict := map (fun kv => (key_nodes (fst kv), snd kv)) feed ++ concat (map (dflt h (fed_nodes feed)) fr) in
    do use_state <- truthy state;
    let '(groups, states) := if use_state then ([zrange 0 n], [state_feed state]) else (fgroups dict, map snd dict) in
    make_state (e_junk ev) n groups states None None None None.
  Definition not_fed (feed : list (fkey * feed_t K)) : bool := negb (forallb (fun q => mem q (fed_nodes feed)) srcs).

  Lemma run_start_n c feed strict state : NoDup (map (fun kv => key_nodes (fst kv)) feed) -> incl (fed_nodes feed) srcs ->
    exists fr, Permutation fr srcs /\
    run ev c h args feed strict state =
      if strict && not_fed feed then (c, Raise ValueError) else
      match start feed fr state with
      | Raise e => (c, Raise e)
      | Ok b => match sfold step ord (mkAcc b (fold_left (fun s f => s + nd_n (nd h f)) srcs 0) [] c) with
                | (a, Raise e) => (a_cache a, Raise e)
                | (a, Ok _) => (a_cache a, Ok (bk_state (a_back a), a_cm a))
                end
      end.
  Proof.
    intros Hkd Hfi. destruct graph_trace as (fr & gn & Ed & Pf & Es & Hrun). exists fr.
    unfold run. rewrite normal_feed by auto. rewrite map_map. cbn [fst].
    change (concat (map (fun x => key_nodes (fst x)) feed)) with (fed_nodes feed).
    rewrite Ed, Es. split; auto. unfold not_fed.
    destruct (strict && negb (forallb (fun q => mem q (fed_nodes feed)) srcs)) eqn:Est; auto.
    rewrite add_defaults_ok.
    2:{ eapply Permutation_NoDup; [symmetry; exact Pf|apply srcs_nd]. }
    2:{ intros q Hq Hnf Hx. apply Hnf. unfold fed_nodes. rewrite map_map in Hx. cbn [fst] in Hx. apply in_concat. exists [q]. split; auto. left; auto. }
    destruct (assign_ok h srcs srcs_nd) as (qb & Ea & Hqb). rewrite Ea.
    assert (Hget : forall q, In q srcs -> odict_get qb q = Ok (w q)).
    { intros q Hq. rewrite wire_eq; [|apply (wf_base _ _ W)|eapply anc_size; eauto; apply src_anc; auto].
      destruct (proj1 (proj2 Hsrcs q) Hq) as [_ ->]. apply in_split in Hq. destruct Hq as (l1 & l2 & E2).
      rewrite (Hqb _ _ _ E2). f_equal. symmetry. eapply src_wire_eq; eauto. apply srcs_nd. }
    set (dict := map (fun kv => (key_nodes (fst kv), snd kv)) feed ++ concat (map (dflt h (fed_nodes feed)) fr)).
    assert (Hkeys : forall k v q, In (k, v) dict -> In q k -> In q srcs).
    { intros k v q Hi Hq. apply in_app_iff in Hi. destruct Hi as [Hi|Hi].
      - apply in_map_iff in Hi. destruct Hi as (kv & E & Hi). inversion E; subst. apply Hfi. unfold fed_nodes. apply in_concat.
        exists (key_nodes (fst kv)). split; auto. apply in_map_iff. eauto.
      - apply in_concat in Hi. destruct Hi as (l & Hl & Hi). apply in_map_iff in Hl. destruct Hl as (q' & <- & Hq').
        unfold dflt in Hi. destruct (mem q' (fed_nodes feed)); [destruct Hi|]. destruct (default_amps h q'); [|destruct Hi].
        destruct Hi as [E|[]]. inversion E; subst. destruct Hq as [->|[]]. eapply Permutation_in; eauto. }
    rewrite (mmap_ok _ (fun kv => concat (map w (fst kv))) dict).
    2:{ intros [k v] Hi. rewrite (mmap_ok _ w k); auto. intros q Hq. apply Hget. eapply Hkeys; eauto. }
    cbn [bind]. unfold start. fold dict. fold (fgroups dict).
    match goal with |- match ?x with _ => _ end = match ?y with _ => _ end => change y with x end.
    match goal with |- match ?x with _ => _ end = _ => destruct x as [b|e] end; auto.
    rewrite Hrun by auto. reflexivity.
  Qed.
  Lemma run_start c feed strict state : NoDup (map (fun kv => key_nodes (fst kv)) feed) -> incl (fed_nodes feed) srcs ->
    exists fr nn, Permutation fr srcs /\
    run ev c h args feed strict state =
      if strict && not_fed feed then (c, Raise ValueError) else
      match start feed fr state with
      | Raise e => (c, Raise e)
      | Ok b => match sfold step ord (mkAcc b nn [] c) with
                | (a, Raise e) => (a_cache a, Raise e)
                | (a, Ok _) => (a_cache a, Ok (bk_state (a_back a), a_cm a))
                end
      end.
  Proof. intros Hkd Hfi. destruct (run_start_n c feed strict state Hkd Hfi) as (fr & H). exists fr. eexists. exact H. Qed.

  Lemma fed_regs_eq feed fs : incl (fed_nodes feed) srcs -> fed_registers h srcs feed fs ->
    map (fun kv => (key_nodes (fst kv), snd kv)) feed = combine (map (fun kv => key_nodes (fst kv)) feed) (fed_list fs) /\
    fgroups (map (fun kv => (key_nodes (fst kv), snd kv)) feed) = fed_groups fs /\
    map snd (map (fun kv => (key_nodes (fst kv), snd kv)) feed) = fed_list fs.
  Proof.
    intros Hi HF. induction HF as [|[k v] [g a] feed fs (Ev & gs & Hgs & Eg) HF IH]; cbn; auto.
    cbn [fst snd] in *. destruct IH as (I1 & I2 & I3).
    { intros q Hq. apply Hi. unfold fed_nodes. cbn [map concat]. apply in_app_iff. auto. }
    assert (gs = map w (key_nodes k)).
    { assert (Hk : incl (key_nodes k) srcs) by (intros q Hq; apply Hi; unfold fed_nodes; cbn [map concat fst]; apply in_app_iff; auto).
      clear - Hgs Hk W Hargs Hsplit Hsrcs. induction Hgs as [|q g l gs Hq HF IH]; auto. cbn [map]. f_equal.
      - eapply wires_fun; eauto. apply src_anc, Hk. left; auto.
      - apply IH. intros x Hx. apply Hk. right; auto. }
    subst. split; [f_equal; auto|]. split; [f_equal; auto|f_equal; auto].
  Qed.
  Definition dreg (fed : list nat) (q : nat) : list (list Z * list C) :=
    if mem q fed then [] else match default_amps h q with Some a => [(w q, a)] | None => [] end.
  Lemma default_regs_eq fed l ds : default_registers h srcs fed l ds -> incl l srcs -> ds = concat (map (dreg fed) l).
  Proof.
    induction 1 as [|i l ds Hi HD IH|i l ds g a Hi Ha Hg HD IH]; intros Hl; auto; cbn [map concat].
    - rewrite <- IH by (intros x Hx; apply Hl; right; auto). unfold dreg. destruct (mem i fed) eqn:E; auto.
      destruct Hi as [Hi| ->]; auto. apply mem_In in Hi. congruence.
    - rewrite <- IH by (intros x Hx; apply Hl; right; auto). unfold dreg.
      apply mem_false in Hi. rewrite Hi, Ha. cbn [app]. f_equal. f_equal. eapply wires_fun; eauto. apply src_anc, Hl. left; auto.
  Qed.
  Lemma dflt_groups fed l : fgroups (concat (map (dflt h fed) l)) = fed_groups (concat (map (dreg fed) l)) /\
    map snd (concat (map (dflt h fed) l)) = fed_list (concat (map (dreg fed) l)).
  Proof.
    induction l as [|q l [I1 I2]]; cbn [map concat]; auto. unfold fgroups, fed_groups, fed_list in *. rewrite !map_app, I1, I2.
    unfold dflt, dreg. destruct (mem q fed); auto. destruct (default_amps h q); auto. cbn [map fst snd concat]. rewrite app_nil_r. auto.
  Qed.

  Lemma zrange_vec_amp (l : list C) x : 0 <= n -> zlen l = 2 ^ n -> 0 <= x < 2 ^ n -> fed_amp n [(zrange 0 n, l)] x = amp l x.
  Proof.
    intros Hn Hl Hx. unfold fed_amp. cbn [map concat fst snd prod]. rewrite app_nil_r.
    rewrite (proj2 (forallb_forall _ _)).
    2:{ intros q Hq. apply orb_true_iff. left. apply existsb_exists. exists q. split; auto. apply Z.eqb_refl. }
    fold (mkstate n (qbit n x)). unfold reg. fold (mkstate n (qbit n x)). rewrite mkstate_qbit by auto. unfold amp. ring.
  Qed.

  Lemma start_ok feed fr state init : Permutation fr srcs -> initial h srcs n feed state init ->
    start feed fr state = Ok (mkBackend n (map (fed_amp n init) (zrange 0 (2 ^ n))) (map (e_junk ev) (zrange 0 (2 ^ n)))).
  Proof.
    intros Pf HI. pose proof (n_nonneg h vis args srcs W Hargs Hsrcs) as Hn. unfold start.
    destruct HI as [init (Hkd & Hfi & fs & ds & Hfs & Hds & -> & Hfo)|l Hkd Hfi Hl].
    - cbn [truthy bind]. destruct (fed_regs_eq feed fs Hfi Hfs) as (_ & E1 & E2).
      apply default_regs_eq in Hds; [|apply incl_refl]. subst ds.
      destruct (dflt_groups (fed_nodes feed) fr) as [E3 E4].
      unfold fgroups in *. rewrite !map_app, E1, E2, E3, E4.
      set (fs' := fs ++ concat (map (dreg (fed_nodes feed)) fr)).
      assert (Pm : Permutation fs' (fs ++ concat (map (dreg (fed_nodes feed)) srcs))).
      { apply Permutation_app_head, concat_map_perm. auto. }
      replace (fed_groups fs ++ _) with (fed_groups fs') by (unfold fed_groups, fs'; apply map_app).
      replace (fed_list fs ++ _) with (fed_list fs') by (unfold fed_list, fs'; apply map_app).
      assert (Hfo' : feeds_ok n fs') by (eapply feeds_ok_perm; [symmetry; exact Pm|auto]).
      rewrite (map_ext _ (fed_amp n fs')) by (intros x; apply fed_amp_perm; symmetry; auto).
      assert (Hc : fs' = [] \/ fs' <> []) by (destruct fs'; [left|right]; [auto|discriminate]).
      clearbody fs'. destruct Hc as [->|Hne].
      + cbn [fed_groups fed_list map]. rewrite make_state_empty_full by auto. f_equal. f_equal.
        apply map_ext_in. intros x Hx. apply in_zrange in Hx. symmetry. apply fed_amp_nil; auto.
      + apply make_state_fed_full; auto.
    - assert (Hlne : exists x l', l = x :: l').
      { destruct l; [|eauto]. change (zlen []) with 0 in Hl. pose proof (Z.pow_pos_nonneg 2 n ltac:(lia) Hn). lia. }
      destruct Hlne as (x & l' & ->). cbn [truthy bind state_feed].
      apply (make_state_fed_full (e_junk ev) n [(zrange 0 n, x :: l')]); auto; [discriminate|].
      split.
      + cbn [map concat fst]. rewrite app_nil_r. split; [apply zrange_nodup|]. intros q Hq. apply in_zrange in Hq. auto.
      + intros g a [E|[]]. inversion E; subst. rewrite zlen_zrange by lia. rewrite Z.sub_0_r. auto.
  Qed.

  (** ** executing the nodes *)
  Hypothesis Hok : circuit_ok h args srcs n.
  Hypothesis Hsched : scheds_ok ev h n.
  Notation acc_ok := (acc_ok h args srcs).

  Lemma fold_sem (P : acc K -> nat -> Prop) : forall todo a a', NoDup todo -> incl todo ord -> acc_ok a ->
    (forall i, In i todo -> ~ In i (map fst (a_cm a))) -> sfold step todo a = (a', Ok tt) ->
    acc_ok a' /\ exists l, a_cm a' = a_cm a ++ l /\ map fst l = todo /\
      evolves (e_rsqrt ev) h srcs n l (amps a) (amps a').
  Proof.
    induction todo as [|i todo IH]; intros a a' Hd Hi Ha Hf E; cbn [sfold] in E.
    - inversion E; subst. split; auto. exists []. rewrite app_nil_r. split; auto. split; auto. constructor. auto.
    - assert (Hai : ancestor h args i) by (apply HordIn, Hi; left; auto).
      destruct (node_feed ev h a i (map w (inputs_of h i))) as [a1 [[]|e]] eqn:E1; [|discriminate]. cbn [sbind] in E.
      destruct (node_partial h vis args srcs W Hargs Hsplit Hsrcs Hok ev Hsched i a a1 Hai Ha E1) as (Ha1 & cv & Ecm & Hsem).
      rewrite odict_set_fresh in Ecm by (apply Hf; left; auto). inversion Hd as [|x y Hni Hd']; subst.
      destruct (IH a1 a') as (Ha' & l & El & Em & He); auto.
      { intros x Hx. apply Hi. right; auto. }
      { intros x Hx Hc. rewrite Ecm, map_app, in_app_iff in Hc. destruct Hc as [Hc|[<-|[]]]; auto. apply (Hf x); auto. right; auto. }
      split; auto. exists ((i, cv) :: l). split; [rewrite El, Ecm, <- app_assoc; auto|]. split; [cbn; f_equal; auto|].
      econstructor; [|exact Hsem|exact He]. eapply a_inputs; eauto.
  Qed.
  Lemma fold_total : no_measure h args -> forall todo a, incl todo ord -> acc_ok a -> exists a', sfold step todo a = (a', Ok tt).
  Proof.
    intros Hnm. induction todo as [|i todo IH]; intros a Hi Ha; cbn [sfold]; eauto.
    assert (Hai : ancestor h args i) by (apply HordIn, Hi; left; auto).
    destruct (node_total h vis args srcs W Hargs Hsplit Hsrcs Hok ev Hsched i a Hai (Hnm i Hai) Ha) as (a1 & E1 & Ha1 & _).
    rewrite E1. cbn [sbind]. apply IH; auto. intros x Hx. apply Hi. right; auto.
  Qed.

  Lemma initial_keys feed state init : initial h srcs n feed state init ->
    NoDup (map (fun kv => key_nodes (fst kv)) feed) /\ incl (fed_nodes feed) srcs.
  Proof. intros [init' (H1 & H2 & _)|l H1 H2 _]; auto. Qed.

  Definition start_acc (init : list (list Z * list C)) nn c : acc K :=
    mkAcc (mkBackend n (map (fed_amp n init) (zrange 0 (2 ^ n))) (map (e_junk ev) (zrange 0 (2 ^ n)))) nn [] c.
  Lemma start_acc_ok init nn c : cache_valid h args srcs c -> acc_ok (start_acc init nn c).
  Proof.
    intros Hc. pose proof (n_nonneg h vis args srcs W Hargs Hsrcs) as Hn. pose proof (Z.pow_nonneg 2 n ltac:(lia)).
    split; [|split; auto]. split; [auto|]. cbn. rewrite !zlen_map, !zlen_zrange by lia. rewrite Z.sub_0_r. auto.
  Qed.
  Lemma run_sem c c' feed strict state init st_ cm : cache_valid h args srcs c -> initial h srcs n feed state init ->
    run ev c h args feed strict state = (c', Ok (st_, cm)) ->
    zlen st_ = 2 ^ n /\ map fst cm = ord /\ evolves (e_rsqrt ev) h srcs n cm (amp (map (fed_amp n init) (zrange 0 (2 ^ n)))) (amp st_) /\ cache_valid h args srcs c'.
  Proof.
    intros Hc HI E. destruct (initial_keys _ _ _ HI) as [Hkd Hfi].
    destruct (run_start c feed strict state Hkd Hfi) as (fr & nn & Pf & Er). rewrite Er in E.
    destruct (strict && not_fed feed); [discriminate|]. rewrite (start_ok feed fr state init Pf HI) in E.
    change (mkAcc _ nn [] c) with (start_acc init nn c) in E.
    destruct (sfold step ord (start_acc init nn c)) as [a [[]|e]] eqn:Ef; [|discriminate]. inversion E; subst.
    destruct (fold_sem (fun _ _ => True) ord (start_acc init nn c) a) as (Ha & l & El & Em & He); auto.
    { apply sorted_lt_NoDup; auto. } { apply incl_refl. } { apply start_acc_ok; auto. }
    cbn in El. subst l. destruct Ha as ((_ & Hz & _) & Hn & Hc'). rewrite Hn in Hz. split; auto.
  Qed.
  Lemma run_total c feed strict state init : cache_valid h args srcs c -> initial h srcs n feed state init -> no_measure h args ->
    (strict = true -> incl srcs (fed_nodes feed)) -> exists c' st_ cm, run ev c h args feed strict state = (c', Ok (st_, cm)).
  Proof.
    intros Hc HI Hnm Hst. destruct (initial_keys _ _ _ HI) as [Hkd Hfi].
    destruct (run_start c feed strict state Hkd Hfi) as (fr & nn & Pf & ->).
    assert (strict && not_fed feed = false) as ->.
    { destruct strict; auto. cbn. unfold not_fed. apply negb_false_iff, forallb_forall. intros q Hq. apply mem_In, Hst; auto. }
    rewrite (start_ok feed fr state init Pf HI). change (mkAcc _ nn [] c) with (start_acc init nn c).
    destruct (fold_total Hnm ord (start_acc init nn c)) as (a & ->); [apply incl_refl|apply start_acc_ok; auto|]. eauto.
  Qed.
  Lemma run_strict c feed state : NoDup (map (fun kv => key_nodes (fst kv)) feed) -> incl (fed_nodes feed) srcs ->
    ~ incl srcs (fed_nodes feed) -> run ev c h args feed true state = (c, Raise ValueError).
  Proof.
    intros H1 H2 H3. destruct (run_start c feed true state H1 H2) as (fr & nn & Pf & ->). unfold not_fed. cbn [andb].
    destruct (forallb _ _) eqn:E; auto. exfalso. apply H3. intros q Hq. rewrite forallb_forall in E. apply mem_In, E, Hq.
  Qed.
End Runs.
