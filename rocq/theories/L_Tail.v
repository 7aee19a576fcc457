(** Circuits that end in measurements. *)
From Coq Require Import Sorted.
From Verif Require Import Base S_Bits L_Bits M_Kron S_Kron M_Ops S_Ops M_Feed S_Feed M_Func S_Func
  M_Measure S_Measure L_Alg M_Graph S_Graph L_Graph1 L_Graph2 L_Graph3 L_Graph5 L_Graph6 L_Graph7 L_Graph8 L_Graph9 L_Graph10 L_Graph11 L_Grow1 L_Grow2
  M_Context S_Context L_Context4 L_Resume L_Example1.

Section Tail.
  Context {K : Type} {OK : OrdRing K}.
  Notation C := (Cx K).
  Implicit Types h : heap K.
  Variable srcs : list nat.

  (** [tail] are measurements added to the circuit [lg] of [h] *)
  Definition tailed h (vis : list nat) (lg : list (nat * list Z)) h' (vis' : list nat) (lg' : list (nat * list Z)) (tail : list nat) : Prop :=
    circ srcs h' vis' lg' /\ ext h h' /\ incl vis vis' /\ (forall c l, session h vis c l -> session h' vis' c l) /\
    StronglySorted lt tail /\ (forall i, In i tail -> (size h <= i < size h')%nat) /\
    (forall i, ancestor h' (map fst lg') i <-> ancestor h (map fst lg) i \/ In i tail) /\
    forall i, In i tail -> inputs_of h' i <> [] /\ forall idx, nd_kind (nd h' i) <> KSplit idx.

  Lemma tailed_refl h vis lg : circ srcs h vis lg -> tailed h vis lg h vis lg [].
  Proof.
    intros Ci. split; auto. split; [apply ext_refl|]. split; [apply incl_refl|]. split; auto. split; [constructor|].
    split; [intros i []|]. split; [cbn; tauto|]. intros i [].
  Qed.
  Lemma tailed_trans h1 vis1 lg1 h2 vis2 lg2 h3 vis3 lg3 t1 t2 :
    tailed h1 vis1 lg1 h2 vis2 lg2 t1 -> tailed h2 vis2 lg2 h3 vis3 lg3 t2 -> tailed h1 vis1 lg1 h3 vis3 lg3 (t1 ++ t2).
  Proof.
    intros (C2 & X1 & I1 & S1 & N1 & N2 & N3 & N4) (C3 & X2 & I2 & S2 & M1 & M2 & M3 & M4).
    split; auto. split; [eapply ext_trans; eauto|]. split; [eapply incl_tran; eauto|]. split; auto. split.
    { apply sorted_app_lt; auto. intros a b Ha Hb. apply N2 in Ha. apply M2 in Hb. lia. }
    split. { intros i Hi. apply in_app_iff in Hi. destruct X1, X2. destruct Hi as [Hi|Hi]; [apply N2 in Hi|apply M2 in Hi]; lia. }
    split. { intros i. rewrite M3, N3, in_app_iff. tauto. }
    intros i Hi. apply in_app_iff in Hi. destruct Hi as [Hi|Hi]; auto. destruct (N4 i Hi). apply N2 in Hi.
    rewrite (ext_inputs h2 h3), (ext_kind h2 h3); auto; lia.
  Qed.
  Lemma tailed_perm h vis lg h' vis' lg' t lg1 lg1' : Permutation lg lg1 -> Permutation lg' lg1' ->
    tailed h vis lg h' vis' lg' t -> tailed h vis lg1 h' vis' lg1' t.
  Proof.
    intros P P' (Ci & X & I & S & N1 & N2 & N3 & N4). split; [eapply circ_perm; eauto|]. repeat (split; [assumption|]). split; [|auto].
    intros i. rewrite <- (anc_same h' (map fst lg') (map fst lg1')), <- (anc_same h (map fst lg) (map fst lg1)); auto;
      intros x Hx; eapply Permutation_in; try exact Hx; apply Permutation_map; auto; symmetry; auto.
  Qed.

  Lemma measure_tail h vis q g rest k : (k = KMeasure \/ k = KStoch 0) -> circ srcs h vis ((q, g) :: rest) -> NoDup g -> g <> [] ->
    exists h' m, new_measure h k [q] = (h', Ok m) /\ nd_kind (nd h' m) = k /\ inputs_of h' m = [q] /\
      tailed h vis ((q, g) :: rest) h' (vis ++ [m]) ((m, g) :: rest) [m].
  Proof.
    intros Hk Ci Hnd Hg. pose proof (built_wf _ _ (c_built _ _ _ _ Ci)) as W.
    assert (Hq : In q vis) by (apply (c_incl _ _ _ _ Ci); left; auto). pose proof (wf_vis _ _ W q Hq) as Hqs.
    assert (Hw : wires h srcs q g) by (apply (c_wires _ _ _ _ Ci); left; auto).
    assert (Hwid : 0 < width h q).
    { rewrite <- (circ_len _ _ _ _ Ci q g) by (left; auto). destruct g; [congruence|]. rewrite zlen_cons. pose proof (zlen_nonneg g). lia. }
    set (cl := match k with KMeasure => Meas [q] | _ => Stoch [q] 0 end : call K).
    assert (Hcl : call_refs cl = [q]) by (destruct Hk as [-> | ->]; reflexivity).
    assert (Hec : exec h cl = one (new_measure h k [q])) by (destruct Hk as [-> | ->]; reflexivity).
    destruct (new_node_total h k [q] None None false) as (h1 & E1).
    { destruct Hk as [-> | ->]; reflexivity. } { cbn. unfold width in Hwid. lia. }
    assert (Hkq : is_qubit k = false) by (destruct Hk as [-> | ->]; reflexivity).
    assert (E : exists h', new_measure h k [q] = (h', Ok (size h))).
    { unfold new_measure. rewrite E1. cbn [sbind].
      assert (Hk1 : nd_kind (nd h1 (size h)) = k).
      { destruct (new_node_ok h k [q] None None false None h1 (Ok (size h)) (wf_base _ _ W)) as (_ & _ & _ & _ & _ & F); auto.
        - intros x [<-|[]]; auto. - exact I. - destruct Hk as [-> | ->]; exact (fun _ => eq_refl) || exact I || (cbn; auto).
        - destruct (F _ eq_refl) as (_ & _ & A & B & _). auto. }
      set (h2 := match k with KMeasure => set_n h1 (size h) (sum_n h1 [q]) | _ => h1 end).
      destruct (sinks_total (size h) [q] h2) as (h' & Es); [|exists h'; rewrite Es; reflexivity].
      unfold h2. destruct k; try (rewrite Hk1; auto; fail). rewrite nd_set_n. destruct (_ && _)%bool; cbn [nd_kind]; rewrite Hk1; auto. }
    destruct E as (h' & E). exists h', (size h). split; auto.
    assert (Hr : incl [q] vis) by (intros x [<-|[]]; auto).
    assert (Hk' : k = KMeasure \/ exists t, k = KStoch t) by (destruct Hk; eauto).
    destruct (new_measure_ok h vis k [q] h' (Ok (size h)) W Hr Hk' E) as (W0 & X & F). destruct (F _ eq_refl) as (W' & Hs & Ek & Ei).
    assert (Hs' : (size h < size h')%nat) by (apply (wf_vis _ _ W'), in_app_iff; right; left; auto).
    split; auto. split; auto.
    assert (EW : widths h' srcs = widths h srcs) by (apply ext_widths; auto; intros i; apply (circ_srcs _ _ _ _ Ci)).
    assert (Hw' : forall x y, (x < size h)%nat -> wires h srcs x y <-> wires h' srcs x y).
    { intros x y Hx. apply (wires_ext srcs h h' (wf_base _ _ W) X (fun s => circ_srcs _ _ _ _ Ci s)); auto. }
    assert (Hg1 : forall gs, Forall2 (wires h' srcs) [q] gs -> gs = [g]).
    { intros gs Hgs. apply (circ_F2fun _ _ _ _ Ci [(q, g)]); [intros x [<-|[]]; left; auto|].
      apply (Forall2_iff_in (wires h srcs) (wires h' srcs)); auto. intros a b [<-|[]]. apply Hw'; auto. }
    assert (HA : forall i, ancestor h' (map fst ((size h, g) :: rest)) i <-> ancestor h (map fst ((q, g) :: rest)) i \/ In i [size h]).
    { apply (anc_grow h h' vis); auto; [apply Ci|..].
      + intros i [<-|[]]. rewrite Ei. intros x [<-|[]]. left; auto.
      + cbn [map fst]. intros x [<-|Ha]; [right; left; auto|left; right; auto].
      + intros i [<-|[]]. left; auto.
      + intros x [<-|Ha]; [right|left; right; auto]. exists (size h). split; [left; auto|]. rewrite Ei. left; auto. }
    split; [|split; [auto|]]; [|split; [apply incl_appl, incl_refl|split]].
    - split.
      + eapply (built_ok h vis cl); [apply Ci|rewrite Hcl; auto|]. rewrite Hec. unfold one. rewrite E. reflexivity.
      + cbn [map fst]. intros x [<-|Ha]; apply in_app_iff; [right; left; auto|left]. apply (c_incl _ _ _ _ Ci). right; auto.
      + intros i idx j Hi Hki Hin. apply in_app_iff in Hi. destruct Hi as [Hi|[<-|[]]]; [|rewrite Ek in Hki; destruct Hk as [-> | ->]; discriminate].
        pose proof (wf_vis _ _ W i Hi) as Hl. rewrite (ext_kind h h') in Hki by auto. rewrite (ext_inputs h h') by auto.
        rewrite (ext_widths h h'); auto; [eapply (c_split _ _ _ _ Ci); eauto|].
        intros j' Hj. apply (wf_vis _ _ W), (wf_closed _ _ W i); auto.
      + intros i o Hi Hki. apply in_app_iff in Hi. destruct Hi as [Hi|[<-|[]]]; [|rewrite Ek in Hki; destruct Hk as [-> | ->]; discriminate].
        pose proof (wf_vis _ _ W i Hi) as Hl. rewrite (ext_kind h h') in Hki by auto. eapply (c_swap _ _ _ _ Ci); eauto.
      + destruct (c_src _ _ _ _ Ci) as [S1 S2]. split; auto. intros i. rewrite S2, HA. split.
        * intros [A B]. split; auto. rewrite (ext_inputs h h'); auto. eapply circ_size; eauto.
        * intros [[A|[<-|[]]] B].
          -- split; auto. rewrite (ext_inputs h h') in B; auto. eapply circ_size; eauto.
          -- rewrite Ei in B. discriminate.
      + intros i Hi. apply HA in Hi. rewrite EW. destruct Hi as [Hi|[<-|[]]].
        * apply (node_ok_ext srcs h h' (wf_base _ _ W) X (fun s => circ_srcs _ _ _ _ Ci s)); [eapply circ_size; eauto|].
          apply (c_ok _ _ _ _ Ci). auto.
        * unfold node_ok. rewrite Ek, Ei. assert (Hgs : forall gs, Forall2 (wires h' srcs) [q] gs -> NoDup (concat gs)).
          { intros gs Hgs. rewrite (Hg1 gs Hgs). cbn. rewrite app_nil_r. auto. }
          destruct Hk as [-> | ->]; split; try discriminate; auto.
      + intros x y [Hx|Hx].
        * inversion Hx; subst x y. replace g with (concat [g]) by (cbn; apply app_nil_r). apply wires_keep; [rewrite Ek; destruct Hk as [-> | ->]; discriminate|rewrite Ei; discriminate|].
          rewrite Ei. constructor; auto. apply Hw'; auto.
        * apply Hw'; [|apply (c_wires _ _ _ _ Ci); right; auto].
          apply (wf_vis _ _ W), (c_incl _ _ _ _ Ci). right. apply in_map_iff. exists (x, y); auto.
    - intros c l Hses. eapply (session_call h vis c l cl); eauto; [rewrite Hcl; auto|]. rewrite Hec. unfold one. rewrite E. reflexivity.
    - split; [constructor; constructor|]. split; [intros i [<-|[]]; lia|]. split; auto.
      intros i [<-|[]]. rewrite Ei, Ek. split; [discriminate|]. destruct Hk as [-> | ->]; discriminate.
  Qed.

  (** ** running *)
  Lemma insert_nodes rs h n (p : nat -> bool) keys : (forall i, In i keys -> p i = false ->
      (exists idx, nd_kind (nd h i) = KSplit idx) /\ exists gs, Forall2 (wires h srcs) (inputs_of h i) gs) ->
    forall l v v', map fst l = filter p keys -> evolves rs h srcs n l v v' ->
    exists l', map fst l' = keys /\ evolves rs h srcs n l' v v' /\ (forall i cv, In (i, cv) l' -> p i = true -> In (i, cv) l).
  Proof.
    induction keys as [|i keys IH]; intros Hp l v v' E H.
    - exists l. auto.
    - assert (IH' := IH (fun j Hj => Hp j (or_intror Hj))). cbn [filter] in E. destruct (p i) eqn:Ep.
      + destruct l as [|[j cv] l]; [discriminate|]. cbn [map fst] in E. injection E as -> E. inversion H; subst.
        match goal with HE : evolves _ _ _ _ l _ _ |- _ => destruct (IH' _ _ _ E HE) as (l' & <- & H' & Hin) end.
        exists ((i, cv) :: l'). split; auto. split; [econstructor; eauto|]. intros j cv' [Hj|Hj] Hpj; [left; auto|right; auto].
      + destruct (Hp i (or_introl eq_refl) Ep) as ((idx & Ek) & gs & Hg). destruct (IH' _ _ _ E H) as (l' & <- & H' & Hin).
        exists ((i, CZero) :: l'). split; auto. split; [econstructor; eauto; rewrite Ek; constructor; auto|].
        intros j cv' [Hj|Hj] Hpj; [inversion Hj; subst; congruence|auto].
  Qed.
  Lemma tail_runs h h1 vis1 lg1 U h2 vis2 lg2 tail args : fresh h srcs -> grow srcs h srcs (layout h srcs) h1 vis1 lg1 U ->
    tailed h1 vis1 lg1 h2 vis2 lg2 tail -> slim h2 (map fst lg2) args ->
    let n := widths h srcs in
    forall c l ev feed strict state init, session h2 vis2 c l -> (forall a, In a l -> same_qubits h2 args a) ->
    enum_ok ev -> scheds_ok ev h2 n -> initial h2 srcs n feed state init ->
    (forall c' st_ cm, run ev c h2 args feed strict state = (c', Ok (st_, cm)) -> zlen st_ = 2 ^ n /\ StronglySorted lt (map fst cm) /\
       exists v1 cmt, (forall r, 0 <= r < 2 ^ n -> v1 r = U (fed_amp n init) r) /\ map fst cmt = tail /\ incl cmt cm /\
         evolves (e_rsqrt ev) h2 srcs n cmt v1 (amp st_)) /\
    ((forall i, In i tail -> nd_kind (nd h2 i) <> KMeasure) -> (strict = true -> incl srcs (fed_nodes feed)) ->
       exists c' r, run ev c h2 args feed strict state = (c', Ok r)).
  Proof.
    intros F G T Sl n c l ev feed strict state init S Q He Hsc HI.
    pose proof (fresh_circ h srcs F) as Ci. pose proof (grow_widths _ _ _ _ _ _ _ _ Ci G) as EW. pose proof (grow_circ _ _ _ _ _ _ _ _ G) as Ci1.
    destruct G as (_ & X & Hvi & _ & HU & new & N1 & N2 & N3 & N4 & N5). rewrite layout_fst in N3.
    destruct T as (Ci2 & X2 & _ & _ & T1 & T2 & T3 & T4).
    pose proof (circ_circuit _ _ _ _ Ci2) as CC. pose proof (slim_circuit _ _ _ _ _ Sl CC) as CC'.
    pose proof (slim_anc _ _ _ Sl) as An.
    destruct CC as (B & In_ & Sp & Sw & Sr & Ok_). destruct CC' as (_ & In' & _ & _ & Sr' & Ok').
    pose proof (built_wf _ _ B) as W. fold n in EW, HU. pose proof (built_wf _ _ (c_built _ _ _ _ Ci1)) as W1.
    assert (EW2 : widths h2 srcs = n) by (rewrite <- EW; apply ext_widths; auto; intros i; apply (circ_srcs _ _ _ _ Ci1)).
    assert (Hn : 0 <= n) by exact (circ_n _ _ _ _ Ci).
    pose proof (splits_anc h2 vis2 (map fst lg2) W In_ Sp) as Hsp.
    assert (Xh : ext h h2) by (eapply ext_trans; eauto).
    assert (Hnode : forall i, In i srcs -> nd_kind (nd h2 i) = KQubit /\ inputs_of h2 i = []).
    { intros i Hi. pose proof (f_size _ _ F i Hi). rewrite (ext_kind h h2), (ext_inputs h h2); auto. apply (f_node _ _ F); auto. }
    assert (Hkeys : forall i, ancestor h2 (map fst lg2) i <-> In i ((srcs ++ new) ++ tail)).
    { intros i. rewrite T3, N3, !in_app_iff, (fresh_anc h srcs i F). tauto. }
    assert (Hk : forall i, In i (srcs ++ new) -> nd_kind (nd h2 i) <> KMeasure).
    { intros i Hi. apply in_app_iff in Hi. destruct Hi as [Hi|Hi]; [destruct (Hnode i Hi) as [-> _]; discriminate|].
      rewrite (ext_kind h1 h2) by (auto; apply N2; auto). apply N4; auto. }
    destruct (run_top h2 vis2 c l args srcs S Sp Sw In' Q Sr' Ok' ev feed strict state init He) as (R & T & _); try (rewrite EW2; auto).
    split.
    2:{ intros Ht Hst. apply T; auto. intros i Hi. assert (Hi' : ancestor h2 (map fst lg2) i) by (eapply anc_incl; [|exact Hi]; apply Sl).
        apply Hkeys, in_app_iff in Hi'. destruct Hi'; auto. }
    intros c' st_ cm E. destruct (R _ _ _ E) as (Hz & So & Ha & Ev). rewrite EW2 in Hz, Ev. split; auto. split; auto.
    assert (Hsorted : StronglySorted lt ((srcs ++ new) ++ tail)).
    { apply sorted_app_lt; auto; [apply sorted_app_lt; auto; [apply F|]|].
      - intros a b Hx Hy. apply (f_size _ _ F) in Hx. apply N2 in Hy. lia.
      - intros a b Hx Hy. apply in_app_iff in Hx. apply T2 in Hy. destruct Hx as [Hx|Hx]; [apply (f_size _ _ F) in Hx; destruct X; lia|apply N2 in Hx; lia]. }
    destruct (insert_nodes (e_rsqrt ev) h2 n (fun i => mem i (map fst cm)) ((srcs ++ new) ++ tail)) with (l := cm) (v := amp (map (fed_amp n init) (zrange 0 (2 ^ n)))) (v' := amp st_)
      as (lf & El & Ev' & Hin); auto.
    { intros i Hi Hm. apply Hkeys in Hi. destruct (An i Hi) as [A|A].
      - apply Ha, mem_In in A. congruence.
      - split; [apply A|]. exists (map (wire h2 srcs) (inputs_of h2 i)). apply (a_inputs h2 vis2 (map fst lg2) srcs); auto. }
    { apply sorted_lt_unique; auto.
      - clear - Hsorted. induction Hsorted as [|a l H IH HF]; cbn [filter]; [constructor|]. destruct (mem a (map fst cm)); auto. constructor; auto.
        apply Forall_forall. intros x Hx. apply filter_In in Hx. rewrite Forall_forall in HF. apply HF, Hx.
      - intros i. rewrite filter_In, mem_In. split; [|tauto]. intros Hi. split; auto. apply Hkeys. apply Ha in Hi. eapply anc_incl; [|exact Hi]. apply Sl. }
    apply map_eq_app in El. destruct El as (la & lb & -> & Ela & Elb). apply evolves_app_inv in Ev'. destruct Ev' as (v1 & Eva & Evb).
    exists v1, lb. split; [|split; [auto|split]]; auto.
    2:{ intros [i cv] Hi. apply Hin; [apply in_app_iff; auto|]. apply mem_In, Ha.
        assert (Hit : In i tail) by (rewrite <- Elb; apply in_map_iff; exists (i, cv); auto).
        destruct (An i) as [A|((idx & A) & _)]; auto; [apply Hkeys, in_app_iff; auto|]. destruct (T4 i Hit) as [_ Hx]. exfalso. eapply Hx; eauto. }
    intros r Hr.
    assert (Hz0 : forall v, evolves (e_rsqrt ev) h2 srcs n (zeros srcs ++ zeros new) v (U v)).
    { intros v. apply (evolves_app srcs (e_rsqrt ev) h2 n _ _ v v).
      - assert (Hsub : forall l0, incl l0 srcs -> evolves (e_rsqrt ev) h2 srcs n (zeros l0) v v).
        { induction l0 as [|i l0 IH]; intros Hl0; [constructor; auto|]. cbn [zeros map]. destruct (Hnode i (Hl0 i (or_introl eq_refl))) as [E1 E2].
          econstructor; [rewrite E2; constructor|rewrite E1; constructor; auto|]. apply IH. intros x Hx. apply Hl0. right; auto. }
        apply Hsub, incl_refl.
      - intros u Hu. eapply evolves_final; [|apply HU; exact Hu].
        apply (evolves_ext srcs h1 h2 (wf_base _ _ W1) X2 (fun s => circ_srcs _ _ _ _ Ci1 s)); [|apply N5].
        intros i Hi. unfold zeros in Hi. rewrite map_map, map_id in Hi. apply N2 in Hi. lia. }
    assert (Hfst : map fst (zeros (K := K) srcs ++ zeros new) = srcs ++ new).
    { intros. unfold zeros. rewrite map_app, !map_map, !map_id. auto. }
    pose proof (evolves_fun h2 vis2 (map fst lg2) srcs W In_ Hsp Sr (e_rsqrt ev) Ok_) as EF. rewrite EW2 in EF.
    destruct (EF _ _ _ (Hz0 (amp (map (fed_amp n init) (zrange 0 (2 ^ n))))) la _ _ Eva) as [EA _]; auto.
    { intros i Hi. rewrite Hfst in Hi. apply Hkeys, in_app_iff; auto. }
    { unfold same_outcomes. assert (El' : map fst (zeros (K := K) srcs ++ zeros new) = map fst la) by congruence.
      assert (Hk' : forall i, In i (map fst la) -> nd_kind (nd h2 i) <> KMeasure) by (rewrite Ela; auto).
      clear - El' Hk'. revert la El' Hk'. generalize (zeros (K := K) srcs ++ zeros new). intros l0. induction l0 as [|[i a] l0 IH]; intros [|[j b] lf] E Hk; cbn in E; try discriminate; constructor.
      - injection E as -> E. split; auto. cbn [fst]. intros H. exfalso. apply (Hk j); auto. left; auto.
      - injection E as -> E. apply IH; auto. intros i Hi. apply Hk. right; auto. }
    rewrite <- EA by auto. apply HU; auto. intros x Hx. unfold amp. rewrite znth_map_zrange by lia. f_equal.
  Qed.
End Tail.
