(** Determinism, op caches and histories of runs. *)
From Coq Require Import Sorted.
From Verif Require Import Base S_Bits L_Bits M_Kron S_Kron M_Ops S_Ops L_Ops3 L_Ops4 M_Feed S_Feed L_Feed M_Func S_Func L_Func2
  M_Measure S_Measure L_Alg M_Graph S_Graph L_Graph1 L_Graph2 L_Graph3 L_Graph4 L_Graph5 L_Graph6.

Section Determinism.
  Context {K : Type} {OK : OrdRing K}.
  Notation C := (Cx K).
  Variable n : Z.
  Hypothesis Hn : 0 <= n.
  Local Notation eqv := (fun v v' : Z -> C => forall r, 0 <= r < 2 ^ n -> v r = v' r).

  Lemma flipped_in q r : 0 <= q < n -> 0 <= r < 2 ^ n -> 0 <= flipped n q r < 2 ^ n.
  Proof. intros. apply flipped_range; auto. Qed.
  Lemma apply_each_ext g qs v v' : (forall q, In q qs -> 0 <= q < n) -> eqv v v' -> eqv (apply_each n g qs v) (apply_each n g qs v').
  Proof.
    intros Hq H. unfold apply_each. induction qs as [|q qs IH]; cbn [fold_right]; auto. intros r Hr. unfold apply1 at 1 3.
    pose proof (flipped_in q r (Hq q (or_introl eq_refl)) Hr). destruct g as [[[a b] c] d].
    rewrite !IH by (auto; intros; apply Hq; right; auto). reflexivity.
  Qed.
  Lemma op_acts_ext o : forall groups v v', (forall q, In q (concat groups) -> 0 <= q < n) -> eqv v v' ->
    eqv (op_acts n o groups v) (op_acts n o groups v').
  Proof.
    induction o; intros groups v v' Hq H r Hr; cbn [op_acts]; try (apply apply_each_ext; auto; fail).
    - apply H, setreg_range; auto.
    - destruct (forallb _ _); auto. apply IHo; auto. destruct groups; cbn [tl concat] in *; auto. intros q Hi. apply Hq, in_app_iff; auto.
  Qed.
  Lemma marginal_ext g v v' m : eqv v v' -> marginal n g v m = marginal n g v' m.
  Proof. intros H. unfold marginal. apply sum_ext. intros x Hx. apply in_zrange in Hx. rewrite H by auto. reflexivity. Qed.

  Lemma node_sem_fun rsqrt groups v u v' u' k cv cu : eqv v u -> qubits_ok n (concat groups) ->
    node_sem rsqrt n groups v v' k cv -> node_sem rsqrt n groups u u' k cu -> (k = KMeasure -> cv = cu) ->
    eqv v' u' /\ ((forall t, k = KStoch t -> t = 0) -> cv = cu).
  Proof.
    intros Hvu Hq Hv Hu Hm. destruct Hv as [Hv|l Hv|o Hv|o Hv|func f reg1 reg2 Eg Hf Hv|m p Hm1 Hp Hp0 Hv|ps Hv Hps|t l Hv Ht Pl Hd].
    - inversion Hu as [Hu'| | | | | | |]; subst. split; auto. intros r Hr. rewrite Hv, Hu' by auto. auto.
    - inversion Hu as [|l' Hu'| | | | | |]; subst. split; auto. intros r Hr. rewrite Hv, Hu' by auto. auto.
    - inversion Hu as [| |o' Hu'| | | | |]; subst. split; auto. intros r Hr. rewrite Hv, Hu' by auto. apply op_acts_ext; auto. apply Hq.
    - inversion Hu as [| | |o' Hu'| | | |]; subst. split; auto. intros r Hr. rewrite Hv, Hu' by auto. apply op_acts_ext; auto. apply Hq.
    - inversion Hu as [| | | |func' f' reg1' reg2' Eg' Hf' Hu'| | |]; subst. split; auto. inversion Eg'; subst reg1' reg2'.
      cbn [concat] in Hq. rewrite app_nil_r in Hq.
      assert (Eff : forall x, fxor n reg1 reg2 f x = fxor n reg1 reg2 f' x).
      { intros x. unfold fxor. f_equal. f_equal. f_equal. pose proof (reg_range n reg1 x) as Hrr.
        pose proof (Hf _ Hrr) as E1. pose proof (Hf' _ Hrr) as E2. congruence. }
      intros r Hr. pose proof (fxor_range n reg1 reg2 f r Hn) as Hr2.
      specialize (Hv _ Hr2). specialize (Hu' _ Hr2). rewrite <- Eff in Hu'. rewrite fxor_invol in Hv, Hu' by auto.
      rewrite Hv, Hu'. auto.
    - inversion Hu as [| | | | |m' p' Hm1' Hp' Hp0' Hu'| |]; subst. specialize (Hm eq_refl). inversion Hm; subst. split; auto.
      intros r Hr. rewrite Hv, Hu' by auto. unfold collapsed. rewrite (Hvu r Hr).
      rewrite (marginal_ext _ v u m' Hvu). reflexivity.
    - inversion Hu as [| | | | | |ps' Hu' Hps'|t' l' Hu' Ht' Pl' Hd']; subst.
      + split; [intros r Hr; rewrite Hv, Hu' by auto; auto|]. intros _. f_equal. f_equal. apply map_ext. intros m. apply marginal_ext. auto.
      + exfalso. pose proof (Z.pow_pos_nonneg 2 (zlen (concat groups)) ltac:(lia) (zlen_nonneg _)). lia.
    - inversion Hu as [| | | | | |ps' Hu' Hps'|t' l' Hu' Ht' Pl' Hd']; subst.
      + exfalso. pose proof (Z.pow_pos_nonneg 2 (zlen (concat groups)) ltac:(lia) (zlen_nonneg _)). lia.
      + split; [intros r Hr; rewrite Hv, Hu' by auto; auto|]. intros H. specialize (H t eq_refl). subst t. exfalso.
        pose proof (Z.pow_pos_nonneg 2 (zlen (concat groups)) ltac:(lia) (zlen_nonneg _)). lia.
  Qed.
End Determinism.

Section Caches.
  Context {K : Type} {OK : OrdRing K}.
  Notation C := (Cx K).
  Variables (h : heap K) (vis args : list nat) (srcs : list nat).
  Hypothesis W : wf h vis.
  Hypothesis Hargs : incl args vis.
  Hypothesis Hsplit : forall i idx k, ancestor h args i -> nd_kind (nd h i) = KSplit idx -> inputs_of h i <> [] ->
    In k idx -> 0 <= k < widths h (inputs_of h i).
  Hypothesis Hsrcs : sources h args srcs.
  Notation w := (wire h srcs).
  Notation n := (widths h srcs).

  Lemma evolves_fun rsqrt : (forall i, ancestor h args i -> node_ok h srcs n i) ->
    forall l v v', evolves rsqrt h srcs n l v v' -> forall l' u u', evolves rsqrt h srcs n l' u u' ->
    (forall i, In i (map fst l) -> ancestor h args i) -> same_outcomes h l l' ->
    (forall r, 0 <= r < 2 ^ n -> v r = u r) ->
    (forall r, 0 <= r < 2 ^ n -> v' r = u' r) /\
    ((forall i k, In i (map fst l) -> nd_kind (nd h i) = KStoch k -> k = 0) -> l = l').
  Proof.
    intros Hok. assert (Hn : 0 <= n) by (eapply n_nonneg; eauto).
    induction 1 as [v v' Hv|i cv l gs v v1 v' Hgs Hsem Hev IH]; intros l' u u' Hu Hanc Hs Hvu.
    - inversion Hs; subst. inversion Hu; subst. split; auto. intros r Hr. rewrite Hv by auto. rewrite Hvu by auto. symmetry; auto.
    - inversion Hs as [|x [j cu] l1 l'' [Ej Ec] HF]; subst. cbn [fst snd] in *. subst j.
      inversion Hu as [|i' cv' l3 gs' u0 u1 u0' Hgs' Hsem' Hev']; subst.
      assert (Ha : ancestor h args i) by (apply Hanc; left; auto).
      rewrite (wires_inputs_fun h vis args srcs W Hargs Hsplit Hsrcs i gs Ha Hgs) in *.
      rewrite (wires_inputs_fun h vis args srcs W Hargs Hsplit Hsrcs i gs' Ha Hgs') in *.
      assert (E : (forall r, 0 <= r < 2 ^ n -> v1 r = u1 r) /\ ((forall t, nd_kind (nd h i) = KStoch t -> t = 0) -> cv = cu)).
      { assert (Hk : (nd_kind (nd h i) = KQubit \/ exists l, nd_kind (nd h i) = KSplit l) \/
                     (nd_kind (nd h i) <> KQubit /\ forall l, nd_kind (nd h i) <> KSplit l)).
        { destruct (nd_kind (nd h i)); eauto; right; split; try discriminate; intros; discriminate. }
        destruct Hk as [[Hk|[ix Hk]]|[Hk1 Hk2]].
        - rewrite Hk in *. inversion Hsem as [A| | | | | | |]; subst. inversion Hsem' as [B| | | | | | |]; subst. split; auto.
          intros r Hr. rewrite A, B by auto. auto.
        - rewrite Hk in *. inversion Hsem as [|ix1 A| | | | | |]; subst. inversion Hsem' as [|ix2 B| | | | | |]; subst. split; auto.
          intros r Hr. rewrite A, B by auto. auto.
        - destruct (a_qubits_ok h vis args srcs W Hargs Hsplit Hsrcs Hok i Ha Hk1 Hk2) as [Hq _].
          eapply node_sem_fun; eauto. }
      destruct E as [E1 E2]. destruct (IH l'' u1 u' Hev') as [I1 I2]; auto.
      { intros j Hj. apply Hanc. right; auto. }
      split; auto. intros Hst. rewrite E2, I2; auto.
      + intros j k Hj. apply Hst. right; auto.
      + intros t. apply Hst. left; auto.
  Qed.

  (** ** caches *)
  Lemma kdict_set_In (d : mats_arg K) k v km : In km (kdict_set d k v) -> In km d \/ snd km = v.
  Proof.
    induction d as [|[k' v'] d IH]; cbn; intros H.
    - destruct H as [<-|[]]. auto.
    - destruct (key_eqb k' k); destruct H as [<-|H]; auto. apply IH in H. tauto.
  Qed.
  Lemma makemats_no_swap (o : op K) : forall gs ms, has_swap o = false -> makemats o gs = Ok ms ->
    forall km, In km ms -> no_swap (snd km) = true.
  Proof.
    assert (P : forall m gs, no_swap m = true -> forall km, In km (per_index m gs : mats_arg K) -> no_swap (snd km) = true).
    { intros m gs Hm. unfold per_index. assert (G : forall l (d : mats_arg K), (forall km, In km d -> no_swap (snd km) = true) ->
        forall km, In km (fold_left (fun d i => kdict_set d (KInt i) m) l d) -> no_swap (snd km) = true).
      { induction l as [|i l IH]; cbn [fold_left]; intros d Hd; auto. apply IH. intros km Hi. apply kdict_set_In in Hi.
        destruct Hi as [Hi|Hi]; auto. rewrite Hi. auto. }
      apply G. intros km []. }
    induction o; intros gs ms Hs E; cbn [has_swap makemats] in *;
      try (injection E as <-; apply P; reflexivity); try discriminate.
    destruct (makemats o (tl gs)) as [opm|] eqn:Em; [|discriminate]. cbn [bind] in E. specialize (IHo _ _ Hs Em). clear Em P.
    assert (G : forall (l d ms : mats_arg K), (forall km, In km l -> no_swap (snd km) = true) -> (forall km, In km d -> no_swap (snd km) = true) ->
      mfold (fun newdict '(indices, m) => do c <- pyget gs 0; do idx <- key_flat indices;
          Ok (kdict_set newdict (KTuple (c ++ idx)) (MC m))) l d = Ok ms -> forall km, In km ms -> no_swap (snd km) = true).
    { induction l as [|[k m] l IH]; cbn [mfold]; intros d ms' Hl Hd E'.
      - inversion E'; subst. auto.
      - destruct (pyget gs 0); [|discriminate]. cbn [bind] in E'. destruct (key_flat k); [|discriminate]. cbn [bind] in E'.
        eapply IH; [| |exact E'].
        + intros km Hi. apply Hl. right; auto.
        + intros km Hi. apply kdict_set_In in Hi. destruct Hi as [Hi|Hi]; auto. rewrite Hi. cbn. apply (Hl (k, m)). left; auto. }
    eapply G; [| |exact E]; auto.
  Qed.

  Hypothesis Hnsd : no_swap_dagger h vis.

  (** what an op's execution does to the caches *)
  Lemma op_mats_cache c i o d gs : ancestor h args i -> nd_kind (nd h i) = KMat o d -> gs = map w (inputs_of h i) ->
    (forall j, j <> i -> fst (op_mats c i o d gs) j = c j) /\
    (fst (op_mats c i o d gs) i = c i \/ exists ms, fst (op_mats c i o d gs) i = Some ms /\ op_ms o d gs = Ok ms) /\
    ((forall ms, c i = Some ms -> op_ms o d gs = Ok ms) -> snd (op_mats c i o d gs) = op_ms o d gs).
  Proof.
    intros Ha Hk ->. set (gs := map w (inputs_of h i)). unfold op_mats. destruct (c i) as [ms|] eqn:Ec.
    - cbn. split; auto. split; auto. intros H. symmetry. auto.
    - unfold op_ms. destruct (makemats o gs) as [ms|e] eqn:Em; [|cbn; auto].
      cbn [bind]. assert (Hset : forall (c : cache K) m j, j <> i -> cache_set c i m j = c j).
      { intros c0 m j Hj. unfold cache_set. destruct (Nat.eqb_spec j i); congruence. }
      assert (Hsame : forall (c : cache K) m, cache_set c i m i = Some m) by (intros; unfold cache_set; rewrite Nat.eqb_refl; auto).
      destruct d.
      + assert (Hs : has_swap o = false) by (apply (Hnsd i o); auto; eapply a_vis; eauto).
        pose proof (adj_ms_ok ms (makemats_no_swap o gs ms Hs Em)) as Ea. rewrite Ea. cbn [fst snd].
        change (mmap (fun '(k, m) => do m0 <- mat_conj m; do m1 <- mat_T m0; Ok (k, m1)) ms) with (adj_ms ms). rewrite Ea.
        split; [intros j Hj; rewrite !Hset; auto|]. split; [right; eauto|auto].
      + cbn [fst snd]. split; [intros j Hj; rewrite Hset; auto|]. split; [right; eauto|auto].
  Qed.

  Definition sim (a1 a2 : acc K) : Prop := a_back a1 = a_back a2 /\ a_n a1 = a_n a2 /\ a_cm a1 = a_cm a2 /\
    cache_valid h args srcs (a_cache a1) /\ cache_valid h args srcs (a_cache a2).
  Lemma node_sim ev i a1 a2 : ancestor h args i -> sim a1 a2 ->
    let r1 := node_feed ev h a1 i (map w (inputs_of h i)) in let r2 := node_feed ev h a2 i (map w (inputs_of h i)) in
    snd r1 = snd r2 /\ sim (fst r1) (fst r2).
  Proof.
    intros Ha (E1 & E2 & E3 & V1 & V2). cbv zeta. unfold node_feed. destruct (nd_kind (nd h i)) as [|ix|o d|f| |t] eqn:Ek;
      rewrite <- ?E1, <- ?E2, <- ?E3.
    - cbn. split; auto. repeat (split; [auto|]). auto.
    - cbn. split; auto. repeat (split; [auto|]). auto.
    - assert (G : forall a, cache_valid h args srcs (a_cache a) ->
        snd (op_mats (a_cache a) i o d (map w (inputs_of h i))) = op_ms o d (map w (inputs_of h i)) /\
        cache_valid h args srcs (fst (op_mats (a_cache a) i o d (map w (inputs_of h i))))).
      { intros a V. destruct (op_mats_cache (a_cache a) i o d _ Ha Ek eq_refl) as (H1 & H2 & H3). split.
        - apply H3. intros ms. apply (V i o d ms Ha Ek).
        - intros j oj dj ms Hj Ekj. destruct (Nat.eq_dec j i) as [->|Hne]; [|rewrite H1 by auto; apply V; auto].
          rewrite Ek in Ekj. inversion Ekj; subst. destruct H2 as [-> | (ms' & -> & Ho)]; [apply V; auto|]. intros E; inversion E; subst; auto. }
      destruct (G a1 V1) as [S1 W1]. destruct (G a2 V2) as [S2 W2].
      destruct (op_mats (a_cache a1) i o d (map w (inputs_of h i))) as [c1 r1].
      destruct (op_mats (a_cache a2) i o d (map w (inputs_of h i))) as [c2 r2]. cbn [fst snd] in *. subst r1 r2.
      destruct (op_ms o d (map w (inputs_of h i))) as [ms|e].
      + destruct (bk_kron (e_sched ev i) (a_back a1) ms); cbn; split; auto; repeat (split; [auto|]); auto.
      + cbn; split; auto; repeat (split; [auto|]); auto.
    - destruct (fop_feed _ _ _ _ _ _); cbn; split; auto; repeat (split; [auto|]); auto.
    - destruct (bk_measure _ _ _ _ _ _ _ _ _) as [[[m p] b]|]; cbn; split; auto; repeat (split; [auto|]); auto.
    - destruct (bk_measure_probabilities _ _ _); cbn; split; auto; repeat (split; [auto|]); auto.
  Qed.
  Lemma fold_sim ev : forall l a1 a2, (forall i, In i l -> ancestor h args i) -> sim a1 a2 ->
    let f := sfold (fun a i => node_feed ev h a i (map w (inputs_of h i))) l in
    snd (f a1) = snd (f a2) /\ sim (fst (f a1)) (fst (f a2)).
  Proof.
    cbv zeta. induction l as [|i l IH]; intros a1 a2 Hl Hs; [cbn; auto|]. cbn [sfold].
    destruct (node_sim ev i a1 a2 (Hl i (or_introl eq_refl)) Hs) as [E S].
    destruct (node_feed ev h a1 i (map w (inputs_of h i))) as [b1 [[]|e1]], (node_feed ev h a2 i (map w (inputs_of h i))) as [b2 [[]|e2]];
      cbn [fst snd] in *; try discriminate; cbn [sbind fst snd]; auto. apply IH; auto. intros j Hj. apply Hl. right; auto.
  Qed.

  (** caches after a run: unchanged, or the matrices for the qubits of this run *)
  Definition cache_step (c c' : cache K) : Prop := forall i, c' i = c i \/
    (ancestor h args i /\ exists o d ms, nd_kind (nd h i) = KMat o d /\ op_ms o d (map w (inputs_of h i)) = Ok ms /\ c' i = Some ms).
  Lemma cache_step_trans c1 c2 c3 : cache_step c1 c2 -> cache_step c2 c3 -> cache_step c1 c3.
  Proof. intros H1 H2 i. destruct (H2 i) as [E|]; auto. rewrite E. auto. Qed.
  Lemma node_cache ev a i : ancestor h args i -> cache_step (a_cache a) (a_cache (fst (node_feed ev h a i (map w (inputs_of h i))))).
  Proof.
    intros Ha. assert (R : forall c : cache K, cache_step c c) by (intros c j; auto).
    unfold node_feed. destruct (nd_kind (nd h i)) as [|ix|o d|f| |t] eqn:Ek; try apply R.
    - destruct (op_mats_cache (a_cache a) i o d _ Ha Ek eq_refl) as (H1 & H2 & _).
      assert (S : cache_step (a_cache a) (fst (op_mats (a_cache a) i o d (map w (inputs_of h i))))).
      { intros j. destruct (Nat.eq_dec j i) as [->|Hne]; auto. destruct H2 as [H2|(ms & E & Ho)]; auto. right. split; auto. eauto 6. }
      destruct (op_mats (a_cache a) i o d (map w (inputs_of h i))) as [c' [ms|e]]; cbn [fst] in *; auto.
      destruct (bk_kron _ _ _); auto.
    - destruct (fop_feed _ _ _ _ _ _); apply R.
    - destruct (bk_measure _ _ _ _ _ _ _ _ _) as [[[m p] b]|]; apply R.
    - destruct (bk_measure_probabilities _ _ _); apply R.
  Qed.
  Lemma fold_cache ev : forall l a, (forall i, In i l -> ancestor h args i) ->
    cache_step (a_cache a) (a_cache (fst (sfold (fun a i => node_feed ev h a i (map w (inputs_of h i))) l a))).
  Proof.
    induction l as [|i l IH]; intros a Hl; [intros j; auto|]. cbn [sfold].
    pose proof (node_cache ev a i (Hl i (or_introl eq_refl))) as S.
    destruct (node_feed ev h a i (map w (inputs_of h i))) as [b [[]|e]]; cbn [fst snd sbind] in *; auto.
    eapply cache_step_trans; [exact S|]. apply IH. intros j Hj. apply Hl. right; auto.
  Qed.
  Variable ord : list nat.
  Hypothesis Hord : StronglySorted lt ord.
  Hypothesis HordIn : forall i, In i ord <-> ancestor h args i.

  Lemma run_cache ev c feed strict state : enum_ok ev -> cache_step c (fst (run ev c h args feed strict state)).
  Proof.
    intros Hev. assert (R : forall c : cache K, cache_step c c) by (intros c0 j; auto).
    destruct (graph_trace h vis args srcs ord W Hargs Hsplit Hsrcs Hord HordIn ev Hev) as (fr & gn & Ed & Pf & Es & Hrun).
    unfold run. rewrite Ed, Es. destruct (strict && _); [apply R|]. destruct (assign_indices h srcs) as [qb nn].
    match goal with |- context [match ?x with Ok _ => _ | Raise _ => _ end] => destruct x as [b|e] end; [|apply R].
    rewrite Hrun by auto. pose proof (fold_cache ev ord (mkAcc b (fold_left (fun s f => s + nd_n (nd h f)) srcs 0) [] c) (fun i => proj1 (HordIn i))) as S.
    destruct (sfold _ _ _) as [a [[]|e]]; exact S.
  Qed.
  Lemma run_sim ev c1 c2 feed strict state : enum_ok ev -> cache_valid h args srcs c1 -> cache_valid h args srcs c2 ->
    snd (run ev c1 h args feed strict state) = snd (run ev c2 h args feed strict state).
  Proof.
    intros Hev V1 V2.
    destruct (graph_trace h vis args srcs ord W Hargs Hsplit Hsrcs Hord HordIn ev Hev) as (fr & gn & Ed & Pf & Es & Hrun).
    unfold run. rewrite Ed, Es. destruct (strict && _); [auto|]. destruct (assign_indices h srcs) as [qb nn].
    match goal with |- context [match ?x with Ok _ => _ | Raise _ => _ end] => destruct x as [b|e] end; [|auto].
    rewrite !Hrun by auto. set (s0 := fold_left _ srcs 0).
    destruct (fold_sim ev ord (mkAcc b s0 [] c1) (mkAcc b s0 [] c2) (fun i => proj1 (HordIn i))) as [E (S1 & S2 & S3 & _)].
    { split; auto. }
    destruct (sfold _ _ (mkAcc b s0 [] c1)) as [a1 [[]|e1]], (sfold _ _ (mkAcc b s0 [] c2)) as [a2 [[]|e2]]; cbn [fst snd] in *;
      try discriminate; congruence.
  Qed.
End Caches.
