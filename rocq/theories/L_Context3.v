(** Locality of ops, controlled composition, and straight-line functions. *)
From Coq Require Import Sorted.
From Verif Require Import Base S_Bits L_Bits M_Kron S_Kron M_Ops S_Ops L_Ops4 M_Feed S_Feed M_Func S_Func
  M_Measure S_Measure L_Alg M_Graph S_Graph L_Graph1 L_Graph2 L_Graph3 L_Graph5 L_Graph6 L_Graph7 L_Graph8 L_Graph9 L_Graph10 L_Graph11
  M_Context S_Context L_Sinks L_Grow1 L_Grow2 L_Context1 L_Context2.

(** ** storing into a list *)
Lemma store_nth_out {A} (d : A) : forall ps xs l p, ~ In p ps -> nth p (store l ps xs) d = nth p l d.
Proof.
  induction ps as [|q ps IH]; intros xs l p Hp; cbn [store]; auto. destruct xs as [|x xs]; auto.
  rewrite IH by (intros H; apply Hp; right; auto). rewrite upd_nth. destruct (Nat.eqb_spec p q) as [->|]; auto.
  exfalso. apply Hp. left; auto.
Qed.
Lemma store_len {A} : forall ps xs (l : list A), length (store l ps xs) = length l.
Proof. induction ps as [|q ps IH]; intros xs l; cbn [store]; auto. destruct xs; auto. rewrite IH, upd_len. auto. Qed.
Lemma store_fetch {A} (d : A) : forall ps xs l, NoDup ps -> (forall p, In p ps -> (p < length l)%nat) -> length xs = length ps ->
  map (fun p => nth p (store l ps xs) d) ps = xs.
Proof.
  induction ps as [|q ps IH]; intros [|x xs] l Hd Hl Hx; cbn in Hx; try discriminate; auto. inversion Hd; subst. cbn [map store]. f_equal.
  - rewrite store_nth_out by auto. rewrite upd_nth, Nat.eqb_refl. cbn [andb]. rewrite (proj2 (Nat.ltb_lt _ _)); auto. apply Hl; left; auto.
  - apply IH; auto. intros p Hp. rewrite upd_len. apply Hl; right; auto.
Qed.
Lemma list_seq_nth {A} (d : A) l : l = map (fun p => nth p l d) (seq 0 (length l)).
Proof.
  apply nth_ext with (d := d) (d' := d); [rewrite map_length, seq_length; auto|].
  intros i Hi. rewrite (nth_indep (map (fun p => nth p l d) (seq 0 (length l))) d (nth 0 l d)) by (rewrite map_length, seq_length; auto).
  rewrite (map_nth (fun p => nth p l d) _ O i), seq_nth by auto. reflexivity.
Qed.
Lemma positions_perm ps m : NoDup ps -> (forall p, In p ps -> (p < m)%nat) ->
  Permutation (seq 0 m) (ps ++ filter (fun p => negb (existsb (Nat.eqb p) ps)) (seq 0 m)).
Proof.
  intros Hd Hl. apply NoDup_Permutation; [apply seq_NoDup| |].
  - apply NoDup_app_inv. split; auto. split; [apply NoDup_filter, seq_NoDup|].
    intros x Hx Hf. apply filter_In in Hf. destruct Hf as [_ Hf]. apply negb_true_iff in Hf.
    assert (existsb (Nat.eqb x) ps = true) by (apply existsb_exists; exists x; split; auto; apply Nat.eqb_refl). congruence.
  - intros x. rewrite in_app_iff, filter_In, in_seq. destruct (existsb (Nat.eqb x) ps) eqn:E; cbn [negb].
    + apply existsb_exists in E. destruct E as (y & Hy & Exy). apply Nat.eqb_eq in Exy. subst y. specialize (Hl x Hy). intuition lia.
    + split; [intros; right; split; auto|]. intros [Hx|[Hx _]]; auto. exfalso.
      assert (existsb (Nat.eqb x) ps = true) by (apply existsb_exists; exists x; split; auto; apply Nat.eqb_refl). congruence.
Qed.
Lemma take_out {A} (d : A) l ps : NoDup ps -> (forall p, In p ps -> (p < length l)%nat) ->
  exists R, Permutation l (map (fun p => nth p l d) ps ++ R) /\
    forall xs, length xs = length ps -> Permutation (store l ps xs) (xs ++ R).
Proof.
  intros Hd Hl. exists (map (fun p => nth p l d) (filter (fun p => negb (existsb (Nat.eqb p) ps)) (seq 0 (length l)))).
  pose proof (positions_perm ps (length l) Hd Hl) as P. split.
  - rewrite <- map_app. rewrite (list_seq_nth d l) at 1. apply Permutation_map. auto.
  - intros xs Hx. rewrite (list_seq_nth d (store l ps xs)), store_len.
    etransitivity; [apply Permutation_map; exact P|]. rewrite map_app, (store_fetch d) by auto.
    apply Permutation_app_head. apply Permutation_refl'. apply map_ext_in. intros p Hp. apply filter_In in Hp. destruct Hp as [_ Hp].
    apply negb_true_iff in Hp. apply store_nth_out. intros H.
    assert (existsb (Nat.eqb p) ps = true) by (apply existsb_exists; exists p; split; auto; apply Nat.eqb_refl). congruence.
Qed.
Lemma in_store (q : nat) : forall ps outs qarr, NoDup ps -> (forall p, In p ps -> (p < length qarr)%nat) -> length outs = length ps ->
  In q (store qarr ps outs) -> In q outs \/ exists p, (p < length qarr)%nat /\ ~ In p ps /\ nth p qarr O = q.
Proof.
  intros ps outs qarr Hd Hp Hl Hq. apply (In_nth _ _ O) in Hq. destruct Hq as (p & Hpl & E). rewrite store_len in Hpl.
  destruct (in_dec Nat.eq_dec p ps) as [Hi|Hi].
  - left. rewrite <- (store_fetch O ps outs qarr) by auto. apply in_map_iff. exists p. auto.
  - right. exists p. rewrite store_nth_out in E by auto. auto.
Qed.
Lemma upd_combine {A B} (x : A) (d : B) : forall (l : list A) (l' : list B) p, combine (upd l p x) l' = upd (combine l l') p (x, nth p l' d).
Proof.
  induction l as [|a l IH]; intros [|b l'] [|p]; cbn; auto.
  f_equal. apply IH.
Qed.
Lemma store_combine {A B} (d : B) : forall ps (xs : list A) l (l' : list B),
  length xs = length ps -> combine (store l ps xs) l' = store (combine l l') ps (combine xs (map (fun p => nth p l' d) ps)).
Proof.
  induction ps as [|p ps IH]; intros [|x xs] l l' H; cbn in H; try discriminate; auto.
  cbn [store map combine]. rewrite IH by auto. rewrite (upd_combine x d). reflexivity.
Qed.
Lemma combine_nth_map {A B} (d : A) (d' : B) : forall ps (l : list A) (l' : list B), length l = length l' ->
  combine (map (fun p => nth p l d) ps) (map (fun p => nth p l' d') ps) = map (fun p => nth p (combine l l') (d, d')) ps.
Proof.
  intros ps l l' H. induction ps as [|p ps IH]; cbn; auto. rewrite IH. f_equal. symmetry. apply combine_nth. auto.
Qed.

Section Local.
  Context {K : Type} {OK : OrdRing K}.
  Notation C := (Cx K).
  Variable n : Z.
  Hypothesis Hn : 0 <= n.
  Local Notation U := ((Z -> C) -> Z -> C).

  (** [r'] differs from [r] on the qubits [qs] only *)
  Definition near (qs : list Z) (r r' : Z) : Prop :=
    0 <= r' < 2 ^ n /\ forall q, 0 <= q < n -> ~ In q qs -> qbit n r' q = qbit n r q.
  Definition local (qs : list Z) (u : U) : Prop :=
    forall v v' r, 0 <= r < 2 ^ n -> (forall r', near qs r r' -> v r' = v' r') -> u v r = u v' r.
  Lemma near_refl qs r : 0 <= r < 2 ^ n -> near qs r r.
  Proof. split; auto. Qed.
  Lemma near_trans qs a b c : near qs a b -> near qs b c -> near qs a c.
  Proof. intros [A1 A2] [B1 B2]. split; auto. intros q Hq Hi. rewrite B2, A2; auto. Qed.
  Lemma near_incl qs qs' a b : incl qs qs' -> near qs a b -> near qs' a b.
  Proof. intros Hi [A1 A2]. split; auto. Qed.
  Lemma local_incl qs qs' u : incl qs qs' -> local qs u -> local qs' u.
  Proof. intros Hi H v v' r Hr Hv. apply H; auto. intros r' Hr'. apply Hv. eapply near_incl; eauto. Qed.
  Lemma local_comp qs u w : local qs u -> local qs w -> local qs (fun v => w (u v)).
  Proof.
    intros H1 H2 v v' r Hr Hv. apply H2; auto. intros r' Hr'. apply H1; [apply Hr'|]. intros r'' Hr''. apply Hv. eapply near_trans; eauto.
  Qed.
  Lemma local_eqn qs u v v' : local qs u -> eqn n v v' -> eqn n (u v) (u v').
  Proof. intros H E r Hr. apply H; auto. intros r' [Hr' _]. auto. Qed.
  Lemma apply_each_local g qs : (forall q, In q qs -> 0 <= q < n) -> local qs (apply_each n g qs).
  Proof.
    induction qs as [|q qs IH]; intros Hq v v' r Hr Hv.
    - apply Hv. apply near_refl; auto.
    - assert (IH' : local (q :: qs) (apply_each n g qs)).
      { apply (local_incl qs); [intros x; right; auto|]. apply IH. intros; apply Hq; right; auto. }
      assert (Hq0 : 0 <= q < n) by (apply Hq; left; auto).
      cbn [apply_each fold_right]. fold (apply_each n g qs v) (apply_each n g qs v'). unfold apply1. destruct g as [[[a b] c] d].
      assert (E1 : apply_each n (a, b, c, d) qs v r = apply_each n (a, b, c, d) qs v' r) by (apply IH'; auto).
      assert (E2 : apply_each n (a, b, c, d) qs v (flipped n q r) = apply_each n (a, b, c, d) qs v' (flipped n q r)).
      { apply IH'; [apply flipped_range; auto|]. intros r' Hr'. apply Hv. eapply near_trans; [|exact Hr'].
        split; [apply flipped_range; auto|]. intros p Hp Hin. rewrite qbit_flipped by auto.
        destruct (Z.eqb_spec p q) as [->|]; auto. exfalso. apply Hin. left; auto. }
      rewrite E1, E2. reflexivity.
  Qed.
  Lemma op_acts_local o : forall gs, (forall q, In q (concat gs) -> 0 <= q < n) -> local (concat gs) (op_acts n o gs).
  Proof.
    induction o; intros gs Hq; try (apply apply_each_local; auto; fail).
    - intros v v' r Hr Hv. cbn [op_acts]. apply Hv. split; [apply setreg_range; auto|].
      intros q Hq' Hin. apply qbit_setreg_out; auto. intros H. apply Hin.
      destruct gs as [|a [|b gs]]; cbn [hd tl concat app] in *; rewrite ?in_app_iff in *; cbn in *; tauto.
    - intros v v' r Hr Hv. cbn [op_acts]. destruct (forallb _ _).
      + assert (Hi : incl (concat (tl gs)) (concat gs)) by (destruct gs; cbn [tl concat]; [apply incl_refl|apply incl_appr, incl_refl]).
        apply (IHo (tl gs)); auto. intros r' Hr'. apply Hv. eapply near_incl; eauto.
      + apply Hv. apply near_refl; auto.
  Qed.
  Lemma slots_incl gs ps : incl (concat (slots gs ps)) (concat gs).
  Proof.
    intros x Hx. apply in_concat in Hx. destruct Hx as (g & Hg & Hx). apply in_map_iff in Hg. destruct Hg as (p & <- & Hp).
    apply in_concat. destruct (Nat.lt_ge_cases p (length gs)) as [H|H].
    - exists (nth p gs []). split; auto. apply nth_In; auto.
    - rewrite nth_overflow in Hx by auto. destruct Hx.
  Qed.
  Lemma acts_local gs l : (forall q, In q (concat gs) -> 0 <= q < n) -> local (concat gs) (acts n gs l).
  Proof.
    intros Hq. unfold acts. induction l as [|s l IH]; cbn [fold_left].
    - intros v v' r Hr Hv. apply Hv, near_refl; auto.
    - apply (local_comp _ (op_acts n (fst s) (slots gs (snd s))) (fun v => fold_left (fun v s => op_acts n (fst s) (slots gs (snd s)) v) l v)); auto.
      apply (local_incl (concat (slots gs (snd s)))); [apply slots_incl|]. apply op_acts_local. intros q Hi. apply Hq. eapply slots_incl; eauto.
  Qed.
  Lemma when_local cs qs u : local qs u -> local qs (when n cs u).
  Proof.
    intros H v v' r Hr Hv. unfold when. destruct (forallb _ _); [apply H; auto|]. apply Hv, near_refl; auto.
  Qed.
  Lemma when_ext cs (u u' : U) v : (forall r, 0 <= r < 2 ^ n -> u v r = u' v r) -> eqn n (when n cs u v) (when n cs u' v).
  Proof. intros H r Hr. unfold when. rewrite H by auto. reflexivity. Qed.
  Lemma near_ctl cs qs r r' : (forall q, In q cs -> 0 <= q < n /\ ~ In q qs) -> near qs r r' -> forallb (qbit n r') cs = forallb (qbit n r) cs.
  Proof.
    intros Hc [_ H]. induction cs as [|c cs IH]; cbn [forallb]; auto. rewrite IH by (intros; apply Hc; right; auto).
    destruct (Hc c (or_introl eq_refl)). rewrite H; auto.
  Qed.
  Lemma when_comp cs qs (u w : U) v : (forall q, In q cs -> 0 <= q < n /\ ~ In q qs) -> local qs w ->
    eqn n (when n cs w (when n cs u v)) (when n cs (fun v => w (u v)) v).
  Proof.
    intros Hc Hw r Hr. unfold when at 1 3. destruct (forallb (qbit n r) cs) eqn:E.
    - apply Hw; auto. intros r' Hr'. unfold when. rewrite (near_ctl cs qs r r'), E; auto.
    - unfold when. rewrite E. reflexivity.
  Qed.
End Local.

Section Steps.
  Context {K : Type} {OK : OrdRing K}.
  Notation C := (Cx K).
  Variable srcs : list nat.

  Lemma nodup_slots gs ps : NoDup (concat gs) -> NoDup ps -> NoDup (concat (slots gs ps)).
  Proof.
    intros Hg. induction ps as [|p ps IH]; intros Hp; cbn [slots map concat]; [constructor|]. inversion Hp; subst.
    apply NoDup_app_inv. split; [|split; [apply IH; auto|]].
    - destruct (Nat.lt_ge_cases p (length gs)) as [H|H]; [|rewrite nth_overflow by auto; constructor].
      clear - Hg H. revert p H. induction gs as [|g gs IH]; intros p H; [cbn in H; lia|]. cbn [concat] in Hg.
      apply NoDup_app_inv in Hg. destruct p; cbn [nth]; [tauto|]. apply IH; [tauto|cbn in H; lia].
    - intros x Hx Hc. apply in_concat in Hc. destruct Hc as (g & Hin & Hxg). apply in_map_iff in Hin. destruct Hin as (p' & <- & Hp').
      assert (Hpp : p <> p') by congruence. clear - Hg Hx Hxg Hpp.
      revert p p' Hpp Hx Hxg. induction gs as [|g gs IH]; intros p p' Hpp Hx Hxg; [destruct p; destruct Hx|].
      cbn [concat] in Hg. apply NoDup_app_inv in Hg. destruct Hg as (N1 & N2 & N3).
      assert (Hin : forall m y, In y (nth m gs []) -> In y (concat gs)).
      { intros m y Hy. apply in_concat. destruct (Nat.lt_ge_cases m (length gs)) as [H|H]; [|rewrite nth_overflow in Hy by auto; destruct Hy].
        exists (nth m gs []). split; auto. apply nth_In; auto. }
      destruct p as [|p], p' as [|p']; cbn [nth] in *; [congruence|exact (N3 x Hx (Hin _ _ Hxg))|exact (N3 x Hxg (Hin _ _ Hx))|].
      apply (IH N2 p p'); auto.
  Qed.

  Lemma step_grow cn (w : world K) vis ctl cg qarr gs rest s s' :
    ctlw w ctl -> circ srcs (w_heap w) vis (combine ctl cg ++ combine qarr gs ++ rest) ->
    length ctl = length cg -> length qarr = length gs -> step_denotes cn gs s s' ->
    (forall g, In g cg -> zlen g = 1) -> (forall g, In g gs -> g <> []) -> NoDup (concat cg ++ concat gs) ->
    exists w' vis' ctl' outs, call_op cn w (fst s) (map AQ (fetch qarr (snd s))) no_kw = (w', Ok outs) /\
      samew w w' /\ ctlw w' ctl' /\ length ctl' = length cg /\ length outs = length (snd s) /\
      ((forall q, In q qarr -> nd_sink (nd (w_heap w) q) = []) -> forall q, In q (store qarr (snd s) outs) -> nd_sink (nd (w_heap w') q) = []) /\
      grow srcs (w_heap w) vis (combine ctl cg ++ combine qarr gs ++ rest) (w_heap w') vis'
        (combine ctl' cg ++ combine (store qarr (snd s) outs) gs ++ rest)
        (when (widths (w_heap w) srcs) (concat cg) (op_acts (widths (w_heap w) srcs) (fst s') (slots gs (snd s')))).
  Proof.
    intros Hw Ci Hl1 Hl2 (Es & Hd & Hne & Hp & HD) Hcg Hgs Hnd. rewrite Es. set (ps := snd s) in *.
    assert (Hp' : forall p, In p ps -> (p < length (combine qarr gs))%nat) by (intros p Hi; rewrite combine_length, Hl2, Nat.min_id; auto).
    destruct (take_out (O, []) (combine qarr gs) ps Hd Hp') as (R & P1 & P2).
    rewrite <- (combine_nth_map O []) in P1 by auto. fold (fetch qarr ps) (slots gs ps) in P1.
    assert (P3 : Permutation (combine ctl cg ++ combine qarr gs ++ rest) (combine ctl cg ++ combine (fetch qarr ps) (slots gs ps) ++ R ++ rest)).
    { apply Permutation_app_head. rewrite app_assoc. apply Permutation_app_tail. auto. }
    assert (Hsl : length (slots gs ps) = length ps) by (unfold slots; rewrite map_length; auto).
    destruct (call_grow srcs cn w vis ctl cg (fst s) (fetch qarr ps) (slots gs ps) (fst s') (R ++ rest) no_kw Hw) as
      (w' & vis' & ctl' & outs & E & HS & Hw' & L1 & L2 & HM & _ & G); auto.
    - eapply circ_perm; eauto.
    - unfold fetch, slots. rewrite !map_length. auto.
    - destruct ps; [congruence|discriminate].
    - intros g Hg. apply in_map_iff in Hg. destruct Hg as (p & <- & Hpi). apply Hgs, nth_In, Hp. auto.
    - apply NoDup_app_inv in Hnd. destruct Hnd as (N1 & N2 & N3). apply NoDup_app_inv. split; auto. split; [apply nodup_slots; auto|].
      intros x Hx Hs. apply (N3 x); auto. eapply slots_incl; eauto.
    - exists w', vis', ctl', outs. split; auto. split; auto. split; auto. split; auto. split; [congruence|]. split.
      { intros Hidle q Hq. destruct HM as [M1 M2].
        apply (in_store q ps outs qarr) in Hq; [|auto|intros p Hi; rewrite Hl2; auto|congruence]. destruct Hq as [Hq|(p & Hpl & Hnp & <-)].
        - apply M2, in_app_iff; auto.
        - assert (Hin : In (nth p qarr O) qarr) by (apply nth_In; auto). rewrite M1; [apply Hidle; auto| |].
          + pose proof (built_wf _ _ (c_built _ _ _ _ Ci)) as W. apply (wf_vis _ _ W), (c_incl _ _ _ _ Ci).
            rewrite !map_app, !in_app_iff. right. left. rewrite map_fst_combine by auto. auto.
          + assert (ND : NoDup (ctl ++ qarr)).
            { apply (circ_objs srcs (w_heap w) vis (ctl ++ qarr) (cg ++ gs) rest); auto.
              - rewrite combine_app, <- app_assoc by auto. auto.
              - rewrite !app_length. lia.
              - intros g Hg. apply in_app_iff in Hg. destruct Hg as [Hg|Hg]; auto. apply Hcg in Hg. intros ->. discriminate.
              - rewrite concat_app. auto. }
            apply NoDup_app_inv in ND. destruct ND as (_ & ND & N3). intros Hx. apply in_app_iff in Hx. destruct Hx as [Hx|Hx]; [exact (N3 _ Hx Hin)|].
            apply in_map_iff in Hx. destruct Hx as (p' & Ep & Hp'i). apply Hnp. replace p with p'; auto.
            apply (proj1 (NoDup_nth qarr O) ND); auto. rewrite Hl2. auto. }
      eapply grow_perm; [symmetry; exact P3| |exact G].
      apply Permutation_app_head. rewrite !app_assoc. apply Permutation_app_tail.
      rewrite (store_combine []) by congruence. symmetry. apply P2. rewrite combine_length. fold (slots gs ps). lia.
  Qed.

  Lemma wires_of_circ (h : heap K) vis lg gs l rest : circ srcs h vis lg -> Permutation lg (combine l gs ++ rest) -> length l = length gs ->
    forall q, In q (concat gs) -> 0 <= q < widths h srcs.
  Proof.
    intros Ci P Hl q Hq. apply in_concat in Hq. destruct Hq as (g & Hg & Hq).
    rewrite <- (map_snd_combine l gs Hl) in Hg. apply in_map_iff in Hg. destruct Hg as ([i g'] & Eg & Hin). cbn [snd] in Eg. subst g'.
    eapply (circ_range _ _ _ _ Ci i g); auto. eapply Permutation_in; [symmetry; eauto|]. apply in_app_iff; auto.
  Qed.

  Lemma steps_grow cn gs cg : (forall g, In g cg -> zlen g = 1) -> (forall g, In g gs -> g <> []) -> NoDup (concat cg ++ concat gs) ->
    forall steps ops, Forall2 (step_denotes cn gs) steps ops -> forall (w : world K) vis ctl qarr rest,
    ctlw w ctl -> circ srcs (w_heap w) vis (combine ctl cg ++ combine qarr gs ++ rest) ->
    length ctl = length cg -> length qarr = length gs ->
    exists w' vis' ctl' qarr', run_steps cn steps w qarr = (w', Ok qarr') /\ samew w w' /\ ctlw w' ctl' /\ length ctl' = length cg /\ length qarr' = length gs /\
      ((forall q, In q qarr -> nd_sink (nd (w_heap w) q) = []) -> forall q, In q qarr' -> nd_sink (nd (w_heap w') q) = []) /\
      grow srcs (w_heap w) vis (combine ctl cg ++ combine qarr gs ++ rest) (w_heap w') vis' (combine ctl' cg ++ combine qarr' gs ++ rest)
        (when (widths (w_heap w) srcs) (concat cg) (acts (widths (w_heap w) srcs) gs ops)).
  Proof.
    intros Hcg Hgs Hnd. induction 1 as [|[c ps] s' steps ops HS HF IH]; intros w vis ctl qarr rest Hw Ci Hl1 Hl2; cbn [run_steps].
    - exists w, vis, ctl, qarr. split; auto. split; [apply samew_refl|]. split; auto. split; auto. split; auto. split; auto.
      eapply grow_ext; [apply grow_refl; auto|]. intros v r _. unfold when, acts. cbn [fold_left]. destruct (forallb _ _); auto.
    - destruct (step_grow cn w vis ctl cg qarr gs rest (c, ps) s' Hw Ci Hl1 Hl2 HS Hcg Hgs Hnd) as (w1 & vis1 & ctl1 & outs & E & HS1 & Hw1 & L1 & L2 & I1 & G1).
      cbn [fst snd] in *. rewrite E. cbn [sbind]. pose proof (grow_circ _ _ _ _ _ _ _ _ G1) as C1.
      pose proof (grow_widths _ _ _ _ _ _ _ _ Ci G1) as EW.
      destruct (IH w1 vis1 ctl1 (store qarr ps outs) rest Hw1 C1 L1) as (w' & vis' & ctl' & qarr' & E2 & HS2 & Hw' & L3 & L4 & I2 & G2).
      { rewrite store_len. auto. }
      exists w', vis', ctl', qarr'. split; auto. split; [eapply samew_trans; eauto|]. split; auto. split; auto. split; auto. split; auto.
      rewrite EW in G2. eapply grow_ext; [eapply grow_trans; eauto|]. intros v. cbn beta.
      assert (Hq : forall q, In q (concat gs) -> 0 <= q < widths (w_heap w) srcs).
      { apply (wires_of_circ (w_heap w) vis _ gs qarr (combine ctl cg ++ rest) Ci); auto. apply Permutation_app_swap_app. }
      assert (Hc : forall q, In q (concat cg) -> 0 <= q < widths (w_heap w) srcs).
      { apply (wires_of_circ (w_heap w) vis _ cg ctl (combine qarr gs ++ rest) Ci); auto. }
      apply NoDup_app_inv in Hnd. destruct Hnd as (_ & _ & N3).
      apply (when_comp (widths (w_heap w) srcs) (concat cg) (concat gs) (op_acts (widths (w_heap w) srcs) (fst s') (slots gs (snd s')))
        (acts (widths (w_heap w) srcs) gs ops) v).
      + intros q Hi. split; [auto|]. intros H. exact (N3 q Hi H).
      + apply acts_local; auto. apply (circ_n _ _ _ _ Ci).
  Qed.
End Steps.
