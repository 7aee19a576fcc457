(** Runs with other types of amplitudes. *)
From Coq Require Import Sorted.
From Verif Require Import Base S_Bits L_Bits M_Kron S_Kron M_Ops S_Ops M_Feed S_Feed L_Feed M_Func S_Func
  M_Measure S_Measure L_Alg M_Graph S_Graph L_Graph1 L_Graph2 L_Graph3 L_Graph4 L_Graph5 L_Graph6 L_Graph7 L_Graph8 L_Graph9 L_Graph10 L_Graph11.
From Verif Require Import M_StateType S_StateType.

Lemma mfold_rel {A B I} (R : A -> B -> Prop) (f : A -> I -> res A) (g : B -> I -> res B) : forall l,
  (forall a b x a', In x l -> R a b -> f a x = Ok a' -> exists b', g b x = Ok b' /\ R a' b') ->
  forall a b a', R a b -> mfold f l a = Ok a' -> exists b', mfold g l b = Ok b' /\ R a' b'.
Proof.
  induction l as [|x l IH]; intros H a b a' Hr E; cbn [mfold] in *.
  - inversion E; subst. eauto.
  - destruct (f a x) as [a1|] eqn:E1; [|discriminate]. cbn [bind] in E.
    destruct (H a b x a1 (or_introl eq_refl) Hr E1) as (b1 & E2 & R2). rewrite E2. cbn [bind].
    apply (IH (fun a b x a' Hx => H a b x a' (or_intror Hx)) a1); auto.
Qed.
Lemma pyset_rel {A B} (l : list A) (m : list B) i v v' l' : zlen m = zlen l -> pyset l i v = Ok l' ->
  exists m', pyset m i v' = Ok m' /\ zlen m' = zlen l'.
Proof.
  intros E H. unfold pyset in *. rewrite E. destruct ((_ <? 0) || _); [discriminate|]. inversion H; subst.
  eexists. split; [reflexivity|]. rewrite !zlen_upd. auto.
Qed.
Lemma pyget_rel {A B} (l : list A) (m : list B) i v : zlen m = zlen l -> pyget l i = Ok v -> exists v', pyget m i = Ok v'.
Proof.
  intros E H. unfold pyget in *. rewrite E. destruct (_ <? 0) eqn:E1; [discriminate|].
  destruct (nth_error l _) eqn:E2; [|discriminate]. destruct (nth_error m _) eqn:E3; eauto. exfalso.
  apply nth_error_None in E3. assert (nth_error l (Z.to_nat (if i <? 0 then i + zlen l else i)) <> None) as Hn by congruence.
  apply nth_error_Some in Hn. unfold zlen in *. lia.
Qed.
Lemma upd_Forall {A} (P : A -> Prop) v : P v -> forall l i, Forall P l -> Forall P (upd l i v).
Proof. intros Hv. induction l as [|x l IH]; intros [|i] H; cbn; inversion H; subst; auto. Qed.
Lemma pyset_Forall {A} (P : A -> Prop) l i v l' : P v -> Forall P l -> pyset l i v = Ok l' -> Forall P l'.
Proof. intros Hv Hl. unfold pyset. destruct (_ || _); [discriminate|]. intros E; inversion E; subst. apply upd_Forall; auto. Qed.
Lemma pyget_In {A} (l : list A) i v : pyget l i = Ok v -> In v l.
Proof.
  unfold pyget. destruct (_ <? 0); [discriminate|]. destruct (nth_error l _) eqn:E; [|discriminate].
  intros H; inversion H; subst. eapply nth_error_In; eauto.
Qed.

Section StateType.
  Context {K : Type} {OK : OrdRing K}.
  Notation C := (Cx K).

  (** ** the initial state *)
  Lemma make_state_t_ok (t : statetype K) junk n gs fs b : make_state junk n gs fs None None None None = Ok b ->
    exists b', make_state_t t junk n gs fs = Ok b' /\ bk_n b' = bk_n b /\ zlen (bk_state b') = zlen (bk_state b) /\
      zlen (bk_arena b') = zlen (bk_arena b).
  Proof.
    unfold make_state, make_state_t. cbn [default]. rewrite Z.sub_0_r. destruct (2 ^ n <? 0); [discriminate|].
    intros E.
    set (s0 := map (fun _ : Z => @rO C _) (zrange 0 (2 ^ n))) in *.
    destruct (if zlen fs =? 0 then pyset s0 0 1%r else Ok s0) as [s1|] eqn:E1; [|discriminate]. cbn [bind] in E.
    assert (H1 : exists s1', (if zlen fs =? 0 then pyset s0 0 (stored t 1%r) else Ok s0) = Ok s1' /\ zlen s1' = zlen s1).
    { destruct (zlen fs =? 0); [eapply pyset_rel; eauto|]. inversion E1; subst. eauto. }
    destruct H1 as (s1' & -> & L1). cbn [bind]. destruct (gen_edit_indices gs (n - 1)) as [ed|]; [|discriminate]. cbn [bind] in *.
    match type of E with (do _ <- ?x; _) = _ => destruct x as [s2|] eqn:E2 end; [|discriminate]. cbn [bind] in E. inversion E; subst b. clear E.
    cbn [bk_n bk_state bk_arena].
    eapply (mfold_rel (fun (x y : list C) => zlen y = zlen x)) in E2; [| |exact L1].
    - destruct E2 as (s2' & E2 & L2). rewrite E2. cbn [bind]. eexists. split; [reflexivity|]. cbn. auto.
    - intros a a1 [index flips] a' _ L E. cbn beta iota in *. destruct ((index <? 0) || (2 ^ n <=? index)).
      + inversion E; subst. eauto.
      + destruct (pyset a (index - 0) 1%r) as [b|] eqn:Eb; [|discriminate]. cbn [bind] in E.
        destruct (pyset_rel a a1 _ _ (stored t 1%r) _ L Eb) as (b1 & -> & Lb). cbn [bind].
        eapply (mfold_rel (fun (x y : list C) => zlen y = zlen x)); [|exact Lb|exact E].
        intros d d1 [q f] d' _ Ld Ed. cbn beta iota in *. destruct (pyget d (index - 0)) as [s|] eqn:Es; [|discriminate]. cbn [bind] in Ed.
        destruct (pyget_rel d d1 _ _ Ld Es) as (s' & ->). cbn [bind]. destruct (pyget fs q) as [ff|]; [|discriminate]. cbn [bind] in *.
        destruct (feed_get ff f) as [x|]; [|discriminate]. cbn [bind] in *. eapply pyset_rel; eauto.
  Qed.
  Lemma make_state_t_exact (t : statetype K) (P : C -> Prop) junk n gs fs :
    (forall x, P x -> stored t x = x) -> P 0%r -> P 1%r -> (forall x y, P x -> P y -> P (x * y)%r) ->
    (forall l x, In (FArr l) fs -> In x l -> P x) ->
    make_state_t t junk n gs fs = make_state junk n gs fs None None None None.
  Proof.
    intros Hs P0 P1 Pm Pf. unfold make_state, make_state_t. cbn [default]. rewrite Z.sub_0_r.
    pose proof (Z.pow_nonneg 2 n ltac:(lia)). rewrite (proj2 (Z.ltb_ge (2 ^ n) 0)) by lia.
    rewrite (Hs _ P1).
    set (s0 := map (fun _ : Z => @rO C _) (zrange 0 (2 ^ n))).
    assert (H0 : Forall P s0) by (apply Forall_forall; intros x Hx; apply in_map_iff in Hx; destruct Hx as (? & <- & _); auto).
    destruct (if zlen fs =? 0 then pyset s0 0 1%r else Ok s0) as [s1|] eqn:E1; [|reflexivity]. cbn [bind].
    assert (H1 : Forall P s1).
    { destruct (zlen fs =? 0); [eapply pyset_Forall; eauto|]. inversion E1; subst. auto. }
    destruct (gen_edit_indices gs (n - 1)) as [ed|]; [|reflexivity]. cbn [bind].
    match goal with |- bind ?x _ = bind ?y _ => enough (x = y) as -> by reflexivity end.
    assert (G : forall (I : Type) (f g : list C -> I -> res (list C)) l s, (forall s x, Forall P s -> f s x = g s x) ->
      (forall s x s', Forall P s -> g s x = Ok s' -> Forall P s') -> Forall P s ->
      mfold f l s = mfold g l s /\ (forall s', mfold g l s = Ok s' -> Forall P s')).
    { intros I f g l. induction l as [|x l IH]; intros s Hf Hg Hp; cbn [mfold].
      - split; auto. intros s' E. inversion E; subst; auto.
      - rewrite Hf by auto. destruct (g s x) as [s2|] eqn:E; cbn [bind]; [|split; [auto|discriminate]]. apply IH; auto. eapply Hg; eauto. }
    assert (Gin : forall index s, Forall P s -> forall flips,
      mfold (fun state '(qindex, flip) => do s <- pyget state (index - 0); do f <- pyget fs qindex; do a <- feed_get f flip;
        pyset state (index - 0) (stored t (s * a)%r)) (enumerate flips) s =
      mfold (fun state '(qindex, flip) => do s <- pyget state (index - 0); do f <- pyget fs qindex; do a <- feed_get f flip;
        pyset state (index - 0) (s * a)%r) (enumerate flips) s /\
      forall s', mfold (fun state '(qindex, flip) => do s <- pyget state (index - 0); do f <- pyget fs qindex; do a <- feed_get f flip;
        pyset state (index - 0) (s * a)%r) (enumerate flips) s = Ok s' -> Forall P s').
    { intros index s Hp flips. apply G; auto.
      - intros st_ [q f] Hst. destruct (pyget st_ (index - 0)) as [v|] eqn:Ev; [|reflexivity]. cbn [bind].
        destruct (pyget fs q) as [ff|] eqn:Ef; [|reflexivity]. cbn [bind]. destruct (feed_get ff f) as [x|] eqn:Ex; [|reflexivity]. cbn [bind].
        rewrite Hs; auto. apply Pm.
        + eapply Forall_forall; [exact Hst|]. eapply pyget_In; eauto.
        + destruct ff as [l|]; [|discriminate]. cbn in Ex. eapply Pf; [eapply pyget_In; eauto|eapply pyget_In; eauto].
      - intros st_ [q f] s' Hst. destruct (pyget st_ (index - 0)) as [v|] eqn:Ev; [|discriminate]. cbn [bind].
        destruct (pyget fs q) as [ff|] eqn:Ef; [|discriminate]. cbn [bind]. destruct (feed_get ff f) as [x|] eqn:Ex; [|discriminate]. cbn [bind].
        apply pyset_Forall; auto. apply Pm.
        + eapply Forall_forall; [exact Hst|]. eapply pyget_In; eauto.
        + destruct ff as [l|]; [|discriminate]. cbn in Ex. eapply Pf; [eapply pyget_In; eauto|eapply pyget_In; eauto]. }
    apply G; auto.
    - intros s [index flips] Hp. destruct ((index <? 0) || (2 ^ n <=? index)); auto.
      destruct (pyset s (index - 0) 1%r) as [s'|] eqn:E; cbn [bind]; auto. apply Gin. eapply pyset_Forall; eauto.
    - intros s [index flips] s' Hp. destruct ((index <? 0) || (2 ^ n <=? index)); [intros E; inversion E; subst; auto|].
      destruct (pyset s (index - 0) 1%r) as [s2|] eqn:E; cbn [bind]; [|discriminate]. apply Gin. eapply pyset_Forall; eauto.
  Qed.

  Lemma run_t_default ev c (h : heap K) args feed strict state :
    run_t complex128 ev c h args feed strict state = run ev c h args feed strict state.
  Proof.
    assert (E : forall junk n gs fs, make_state_t complex128 junk n gs fs = make_state (K := K) junk n gs fs None None None None).
    { intros. apply (make_state_t_exact complex128 (fun _ => True)); auto. }
    unfold run_t, run. destruct (get_deps ev h args) as [[fr gn]|e]; [|reflexivity]. destruct (strict && _); [reflexivity|].
    destruct (assign_indices h (sort_by (qid_of h) fr)) as [qb n]. destruct (mmap _ _) as [gs|e]; [|reflexivity]. cbn [bind].
    destruct (truthy state) as [u|e]; [|reflexivity]. cbn [bind]. destruct (if u then _ else _) as [groups states]. rewrite E. reflexivity.
  Qed.

  Section Circuit.
  Variables (h : heap K) (vis args srcs ord : list nat).
  Hypothesis W : wf h vis.
  Hypothesis Hargs : incl args vis.
  Hypothesis Hsplit : forall i idx k, ancestor h args i -> nd_kind (nd h i) = KSplit idx -> inputs_of h i <> [] ->
    In k idx -> 0 <= k < widths h (inputs_of h i).
  Hypothesis Hsrcs : sources h args srcs.
  Hypothesis Hord : StronglySorted lt ord.
  Hypothesis HordIn : forall i, In i ord <-> ancestor h args i.
  Notation w := (wire h srcs).
  Notation n := (widths h srcs).
  Hypothesis Hok : circuit_ok h args srcs n.
  Variable ev : env K.
  Hypothesis Henum : enum_ok ev.
  Hypothesis Hsched : scheds_ok ev h n.
  Variable t : statetype K.
  Hypothesis Ht : is_complex128 t = false.
  Notation step_t := (fun a i => node_feed_t t ev h a i (map w (inputs_of h i))).
  Notation step := (fun a i => node_feed ev h a i (map w (inputs_of h i))).
  Notation acc_ok := (acc_ok h args srcs).

  Lemma node_plain i a : ~ computes h i -> node_feed_t t ev h a i (map w (inputs_of h i)) = node_feed ev h a i (map w (inputs_of h i)).
  Proof. unfold computes, node_feed_t, node_feed. destruct (nd_kind (nd h i)); tauto. Qed.
  Lemma node_refused i a : ancestor h args i -> acc_ok a -> computes h i ->
    exists a', node_feed_t t ev h a i (map w (inputs_of h i)) = (a', Raise ValueError) /\ cache_valid h args srcs (a_cache a').
  Proof.
    intros Hi Ha Hc. pose proof Ha as (Hb & Hbn & Hv).
    assert (Tot := fun H => node_total h vis args srcs W Hargs Hsplit Hsrcs Hok ev Hsched i a Hi H Ha).
    unfold computes in Hc. unfold node_feed_t. unfold node_feed in Tot.
    destruct (nd_kind (nd h i)) as [|ix|o d|f| |k] eqn:Ek; try destruct Hc.
    - destruct (Tot ltac:(discriminate)) as (a' & E & Ha' & _).
      destruct (op_mats (a_cache a) i o d (map w (inputs_of h i))) as [c [ms|e]]; [|discriminate].
      unfold bk_kron, kronselect_dot in E. unfold bk_kron_t, as_buffers. rewrite Ht.
      destruct (2 ^ bk_n (a_back a) <? zlen (bk_state (a_back a)) + 0); [discriminate|].
      destruct (2 ^ bk_n (a_back a) <? zlen (bk_arena (a_back a)) + 0); [discriminate|].
      destruct (norm_mats ms) as [nm|]; [|discriminate]. cbn [bind] in *.
      match type of E with match ?x with _ => _ end = _ => destruct x; [|discriminate] end.
      injection E as E. subst a'. destruct Ha' as (_ & _ & Hv'). eexists. split; [reflexivity|]. exact Hv'.
    - destruct (Tot ltac:(discriminate)) as (a' & E & Ha' & _).
      unfold fop_feed in E. unfold fop_feed_t, as_buffers. rewrite Ht.
      destruct (pyget _ 0); [|discriminate]. cbn [bind] in *. destruct (pyget _ 1); [|discriminate]. cbn [bind] in *. eauto.
    - unfold as_buffers. rewrite Ht. eauto.
    - unfold as_buffers. rewrite Ht. eauto.
  Qed.
  Lemma fold_refused : forall todo a, incl todo ord -> acc_ok a -> (exists i, In i todo /\ computes h i) ->
    exists a', sfold step_t todo a = (a', Raise ValueError) /\ cache_valid h args srcs (a_cache a').
  Proof.
    induction todo as [|i todo IH]; intros a Hi Ha (x & Hx & Hc); [destruct Hx|]. cbn [sfold].
    assert (Hai : ancestor h args i) by (apply HordIn, Hi; left; auto).
    assert (D : computes h i \/ ~ computes h i) by (unfold computes; destruct (nd_kind (nd h i)); auto).
    destruct D as [D|D].
    - destruct (node_refused i a Hai Ha D) as (a' & -> & V). cbn [sbind]. eauto.
    - rewrite (node_plain i a D).
      destruct (node_total h vis args srcs W Hargs Hsplit Hsrcs Hok ev Hsched i a Hai) as (a1 & -> & Ha1 & _); auto.
      { intros E. apply D. unfold computes. rewrite E. exact I. }
      cbn [sbind]. apply IH; auto; [intros y Hy; apply Hi; right; auto|]. destruct Hx as [->|Hx]; [contradiction|eauto].
  Qed.
  Lemma fold_plain : forall todo a, (forall i, In i todo -> ~ computes h i) -> sfold step_t todo a = sfold step todo a.
  Proof.
    induction todo as [|i todo IH]; intros a H; [reflexivity|]. cbn [sfold]. rewrite (node_plain i a (H i (or_introl eq_refl))).
    destruct (node_feed ev h a i (map w (inputs_of h i))) as [a1 [[]|e]]; cbn [sbind]; auto. apply IH. intros j Hj. apply H. right; auto.
  Qed.

  Definition start_t (feed : list (fkey * feed_t K)) (fr : list nat) (state : state_kw K) : res (backend K) :=
    let dict := map (fun kv => (key_nodes (fst kv), snd kv)) feed ++ concat (map (dflt h (fed_nodes feed)) fr) in
    do use_state <- truthy state;
    let '(groups, states) := if use_state then ([zrange 0 n], [state_feed state]) else (fgroups h srcs dict, map snd dict) in
    make_state_t t (e_junk ev) n groups states.
  Notation not_fed := (not_fed srcs).

  Lemma run_start_t c feed strict state : NoDup (map (fun kv => key_nodes (fst kv)) feed) -> incl (fed_nodes feed) srcs ->
    exists fr, Permutation fr srcs /\
    run_t t ev c h args feed strict state =
      if strict && not_fed feed then (c, Raise ValueError) else
      match start_t feed fr state with
      | Raise e => (c, Raise e)
      | Ok b => match sfold step_t ord (mkAcc b (fold_left (fun s f => s + nd_n (nd h f)) srcs 0) [] c) with
                | (a, Raise e) => (a_cache a, Raise e)
                | (a, Ok _) => (a_cache a, Ok (bk_state (a_back a), a_cm a))
                end
      end.
  Proof.
    intros Hkd Hfi. destruct (graph_trace h vis args srcs ord W Hargs Hsplit Hsrcs Hord HordIn ev Henum) as (fr & gn & Ed & Pf & Es & Hrun).
    exists fr.
    unfold run_t. rewrite normal_feed by auto. rewrite map_map. cbn [fst].
    change (concat (map (fun x => key_nodes (fst x)) feed)) with (fed_nodes feed).
    rewrite Ed, Es. split; auto. unfold L_Graph6.not_fed.
    destruct (strict && negb (forallb (fun q => mem q (fed_nodes feed)) srcs)) eqn:Est; auto.
    pose proof (sorted_lt_NoDup _ (proj1 Hsrcs)) as Hnd.
    rewrite add_defaults_ok.
    2:{ eapply Permutation_NoDup; [symmetry; exact Pf|exact Hnd]. }
    2:{ intros q Hq Hnf Hx. apply Hnf. unfold fed_nodes. rewrite map_map in Hx. cbn [fst] in Hx. apply in_concat. exists [q]. split; auto. left; auto. }
    destruct (assign_ok h srcs Hnd) as (qb & Ea & Hqb). rewrite Ea.
    assert (Hget : forall q, In q srcs -> odict_get qb q = Ok (w q)).
    { intros q Hq. rewrite wire_eq; [|apply (wf_base _ _ W)|eapply anc_size; eauto; apply (src_anc h args srcs Hsrcs); auto].
      destruct (proj1 (proj2 Hsrcs q) Hq) as [_ ->]. apply in_split in Hq. destruct Hq as (l1 & l2 & E2).
      rewrite (Hqb _ _ _ E2). f_equal. symmetry. eapply src_wire_eq; eauto. }
    set (dict := map (fun kv => (key_nodes (fst kv), snd kv)) feed ++ concat (map (dflt h (fed_nodes feed)) fr)).
    assert (Hkeys : forall k v q, In (k, v) dict -> In q k -> In q srcs).
    { intros k v q Hi Hq. apply in_app_iff in Hi. destruct Hi as [Hi|Hi].
      - apply in_map_iff in Hi. destruct Hi as (kv & E & Hi). inversion E; subst. apply Hfi. unfold fed_nodes. apply in_concat.
        exists (key_nodes (fst kv)). split; auto. apply in_map_iff. eauto.
      - apply in_concat in Hi. destruct Hi as (l & Hl & Hi). apply in_map_iff in Hl. destruct Hl as (q' & <- & Hq').
        unfold dflt in Hi. destruct (mem q' (fed_nodes feed)); [destruct Hi|]. destruct (default_amps h q'); [|destruct Hi].
        destruct Hi as [E|[]]. inversion E; subst. destruct Hq as [->|[]]. eapply Permutation_in; eauto. }
    rewrite (mmap_ok _ (fun kv => concat (map w (fst kv))) dict).
    2:{ intros [k v] Hi. rewrite (mmap_ok _ w k); auto. intros q Hq. apply Hget. eapply Hkeys; eauto. }
    cbn [bind]. unfold start_t. fold dict. fold (fgroups h srcs dict).
    match goal with |- match ?x with _ => _ end = match ?y with _ => _ end => change y with x end.
    match goal with |- match ?x with _ => _ end = _ => destruct x as [b|e] end; auto.
    rewrite Hrun by auto. reflexivity.
  Qed.

  Lemma start_t_ok feed fr state b : start h srcs ev feed fr state = Ok b ->
    exists b', start_t feed fr state = Ok b' /\ bk_n b' = bk_n b /\ zlen (bk_state b') = zlen (bk_state b) /\
      zlen (bk_arena b') = zlen (bk_arena b).
  Proof.
    unfold start, start_t. destruct (truthy state) as [u|]; [|discriminate]. cbn [bind]. destruct (if u then _ else _) as [gs fs].
    apply make_state_t_ok.
  Qed.
  Lemma start_t_exact feed fr state init : Permutation fr srcs -> initial h srcs n feed state init -> keeps (stored t) init ->
    start_t feed fr state = start h srcs ev feed fr state.
  Proof.
    clear Ht. intros Pf HI (P & Hs & P0 & P1 & Pm & Pi). unfold start, start_t.
    destruct HI as [init (Hkd & Hfi & fs & ds & Hfs & Hds & -> & Hfo)|l Hkd Hfi Hl].
    - cbn [truthy bind]. apply (make_state_t_exact t P); auto.
      destruct (fed_regs_eq h vis args srcs W Hargs Hsplit Hsrcs feed fs Hfi Hfs) as (_ & E1 & E2).
      apply (default_regs_eq h vis args srcs W Hargs Hsplit Hsrcs) in Hds; [|apply incl_refl]. subst ds.
      destruct (dflt_groups h srcs (fed_nodes feed) fr) as [E3 E4].
      rewrite map_app, E2, E4. intros l x Hl Hx. unfold fed_list in Hl. rewrite <- map_app in Hl. apply in_map_iff in Hl.
      destruct Hl as ([g l'] & E & Hl). cbn in E. inversion E; subst. apply (Pi g l x); auto.
      apply in_app_iff in Hl. apply in_app_iff. destruct Hl as [Hl|Hl]; auto. right.
      eapply Permutation_in; [|exact Hl]. apply concat_map_perm. auto.
    - assert (G : forall l' x, In (FArr l') [state_feed (SList l)] -> In x l' -> P x).
      { intros l' x [E|[]] Hx. cbn in E. inversion E; subst. eapply Pi; [left; reflexivity|auto]. }
      assert (Hlne : exists x l', l = x :: l').
      { pose proof (n_nonneg h vis args srcs W Hargs Hsrcs) as Hn.
        destruct l; [|eauto]. change (zlen []) with 0 in Hl. pose proof (Z.pow_pos_nonneg 2 n ltac:(lia) Hn). lia. }
      destruct Hlne as (x & l' & ->). cbn [truthy bind]. apply (make_state_t_exact t P); auto.
  Qed.

  Lemma other_type c feed strict state init : cache_valid h args srcs c -> initial h srcs n feed state init ->
    (exists i, ancestor h args i /\ computes h i) ->
    exists c', run_t t ev c h args feed strict state = (c', Raise ValueError) /\ cache_valid h args srcs c'.
  Proof.
    intros Hc HI (i & Hi & Hci). destruct (initial_keys _ _ _ _ _ HI) as [Hkd Hfi].
    destruct (run_start_t c feed strict state Hkd Hfi) as (fr & Pf & ->). set (nn := fold_left _ srcs 0).
    destruct (strict && not_fed feed); [eauto|].
    destruct (start_t_ok feed fr state _ (start_ok h vis args srcs W Hargs Hsplit Hsrcs ev feed fr state init Pf HI)) as (b & -> & B1 & B2 & B3).
    destruct (fold_refused ord (mkAcc b nn [] c)) as (a' & -> & V); [apply incl_refl| |exists i; split; auto; apply HordIn; auto|eauto].
    pose proof (start_acc_ok h vis args srcs W Hargs Hsrcs ev init nn c Hc) as ((S1 & S2 & S3) & S4 & S5).
    cbn in S1, S2, S3. unfold L_Graph5.acc_ok. cbn [a_back a_cache]. split; [|split; auto].
    unfold full_backend. cbn [bk_n bk_state bk_arena] in B1, B2, B3. rewrite B1, B2, B3. auto.
  Qed.
  Lemma plain_type c feed strict state init : initial h srcs n feed state init -> keeps (stored t) init ->
    (forall i, ancestor h args i -> ~ computes h i) ->
    run_t t ev c h args feed strict state = run ev c h args feed strict state.
  Proof.
    clear Ht. intros HI Hk Hp. destruct (initial_keys _ _ _ _ _ HI) as [Hkd Hfi].
    destruct (run_start_t c feed strict state Hkd Hfi) as (fr & Pf & ->). set (nn := fold_left _ srcs 0).
    destruct (run_start_n h vis args srcs ord W Hargs Hsplit Hsrcs Hord HordIn ev Henum c feed strict state Hkd Hfi) as (fr' & Pf' & ->). fold nn.
    destruct (strict && not_fed feed); auto.
    rewrite (start_t_exact feed fr state init), (start_ok h vis args srcs W Hargs Hsplit Hsrcs ev feed fr state init),
      (start_ok h vis args srcs W Hargs Hsplit Hsrcs ev feed fr' state init) by auto.
    rewrite fold_plain by (intros i Hi; apply Hp, HordIn; auto).
    reflexivity.
  Qed.
  Lemma plain_returns c feed strict state init : cache_valid h args srcs c -> initial h srcs n feed state init ->
    (forall i, ancestor h args i -> ~ computes h i) -> (strict = true -> incl srcs (fed_nodes feed)) ->
    exists c' st_ cm, run_t t ev c h args feed strict state = (c', Ok (st_, cm)) /\ zlen st_ = 2 ^ n.
  Proof.
    intros Hc HI Hp Hst. destruct (initial_keys _ _ _ _ _ HI) as [Hkd Hfi].
    destruct (run_start_t c feed strict state Hkd Hfi) as (fr & Pf & ->). set (nn := fold_left _ srcs 0).
    replace (strict && not_fed feed) with false.
    2:{ destruct strict; auto. cbn. symmetry. unfold L_Graph6.not_fed. apply negb_false_iff. apply forallb_forall. intros q Hq. apply mem_In.
        apply (Hst eq_refl), Hq. }
    destruct (start_t_ok feed fr state _ (start_ok h vis args srcs W Hargs Hsplit Hsrcs ev feed fr state init Pf HI)) as (b & -> & B1 & B2 & B3).
    rewrite fold_plain by (intros i Hi; apply Hp, HordIn; auto).
    pose proof (start_acc_ok h vis args srcs W Hargs Hsrcs ev init nn c Hc) as ((S1 & S2 & S3) & S4 & S5).
    assert (Ha : acc_ok (mkAcc b nn [] c)).
    { unfold L_Graph5.acc_ok. cbn [a_back a_cache]. split; [|split; auto].
      unfold full_backend. cbn in S1, S2, S3. cbn [bk_n bk_state bk_arena] in B1, B2, B3. rewrite B1, B2, B3. auto. }
    assert (Hnm : no_measure h args). { intros i Hi E. apply (Hp i Hi). unfold computes. rewrite E. exact I. }
    destruct (fold_total h vis args srcs ord W Hargs Hsplit Hsrcs HordIn ev Hok Hsched Hnm ord (mkAcc b nn [] c) (incl_refl _) Ha) as (a' & E). rewrite E.
    destruct (fold_sem h vis args srcs ord W Hargs Hsplit Hsrcs HordIn ev Hok Hsched (fun _ _ => True) ord (mkAcc b nn [] c) a') as (((A1 & A2 & A3) & A4 & _) & _); auto.
    { apply sorted_lt_NoDup. auto. }
    { apply incl_refl. }
    do 3 eexists. split; [reflexivity|]. rewrite A2. f_equal. auto.
  Qed.
  End Circuit.

  Lemma other_type_top (h : heap K) vis c l args srcs : session h vis c l -> splits_in_range h vis -> no_swap_dagger h vis ->
    incl args vis -> (forall args', In args' l -> same_qubits h args args') -> sources h args srcs ->
    let n := widths h srcs in circuit_ok h args srcs n ->
    forall t ev feed strict state init, is_complex128 t = false -> enum_ok ev -> scheds_ok ev h n -> initial h srcs n feed state init ->
    (exists i, ancestor h args i /\ computes h i) ->
    exists c', run_t t ev c h args feed strict state = (c', Raise ValueError) /\
      forall ev' feed' strict' state', enum_ok ev' ->
        snd (run ev' c' h args feed' strict' state') = snd (run ev' c h args feed' strict' state').
  Proof.
    intros S Hs Hd Ha Hsame Hsrc n Hok t ev feed strict state init Ht He Hsc HI Hex. pose proof (session_wf _ _ _ _ S) as W.
    pose proof (splits_anc h vis args W Ha Hs) as Hsp.
    destruct (ord_exists h vis args W Ha) as (ord & Ho & Hoi).
    pose proof (session_cache_valid h vis c l args srcs S Hs Hd Ha Hsrc Hsame) as Hc.
    destruct (other_type h vis args srcs ord W Ha Hsp Hsrc Ho Hoi Hok ev He Hsc t Ht c feed strict state init Hc HI Hex) as (c' & E & Hc').
    exists c'. split; auto. intros. eapply (run_sim h vis args srcs); eauto.
  Qed.
  Lemma plain_type_top (h : heap K) vis c l args srcs : session h vis c l -> splits_in_range h vis -> no_swap_dagger h vis ->
    incl args vis -> (forall args', In args' l -> same_qubits h args args') -> sources h args srcs ->
    let n := widths h srcs in circuit_ok h args srcs n ->
    forall t ev feed strict state init, enum_ok ev -> scheds_ok ev h n -> initial h srcs n feed state init ->
    (forall i, ancestor h args i -> ~ computes h i) ->
    ((strict = true -> incl srcs (fed_nodes feed)) ->
       exists c' st_ cm, run_t t ev c h args feed strict state = (c', Ok (st_, cm)) /\ zlen st_ = 2 ^ n) /\
    (keeps (stored t) init -> run_t t ev c h args feed strict state = run ev c h args feed strict state).
  Proof.
    intros S Hs Hd Ha Hsame Hsrc n Hok t ev feed strict state init He Hsc HI Hp. pose proof (session_wf _ _ _ _ S) as W.
    pose proof (splits_anc h vis args W Ha Hs) as Hsp.
    destruct (ord_exists h vis args W Ha) as (ord & Ho & Hoi).
    pose proof (session_cache_valid h vis c l args srcs S Hs Hd Ha Hsrc Hsame) as Hc. split; intros.
    - eapply (plain_returns h vis args srcs ord); eauto.
    - eapply (plain_type h vis args srcs ord); eauto.
  Qed.
End StateType.
