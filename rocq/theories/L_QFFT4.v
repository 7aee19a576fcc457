(** Splitting the registers into qubits, merging them again, and the whole function of qip/qfft.py. *)
From Coq Require Import Sorted.
From Verif Require Import Base S_Bits L_Bits M_Kron S_Kron M_Ops S_Ops L_Ops4 M_Feed S_Feed M_Func S_Func
  M_Measure S_Measure L_Alg M_Graph S_Graph L_Graph1 L_Graph2 L_Graph3 L_Graph5 L_Graph6 L_Graph7 L_Graph8 L_Graph9 L_Graph10 L_Graph11
  M_Context S_Context L_Fourier L_Sinks L_Grow1 L_Grow2 L_Context1 L_Context2 L_Context3 L_Context5 L_QFFT1 L_QFFT2 L_QFFT3.

Lemma concat_len_ge {A} (ps : list (list A)) : (forall p, In p ps -> p <> []) -> (length ps <= length (concat ps))%nat.
Proof.
  induction ps as [|p ps IH]; intros H; cbn [concat length]; auto. rewrite app_length. specialize (IH (fun q Hq => H q (or_intror Hq))).
  specialize (H p (or_introl eq_refl)). destruct p; [congruence|cbn [length]; lia].
Qed.
Lemma all_single (ps : list (list Z)) : (forall p, In p ps -> p <> []) -> (length (concat ps) <= length ps)%nat -> ps = sing (concat ps).
Proof.
  induction ps as [|p ps IH]; intros H HL; auto. cbn [concat length] in HL. rewrite app_length in HL.
  pose proof (concat_len_ge ps (fun q Hq => H q (or_intror Hq))). pose proof (H p (or_introl eq_refl)).
  destruct p as [|x [|y p]]; [congruence| |cbn [length] in HL; lia]. cbn [concat app sing map]. f_equal. cbn [length] in HL.
  apply IH; [intros q Hq; apply H; right; auto|lia].
Qed.

Lemma skipn_skipn' {A} : forall b a (l : list A), skipn a (skipn b l) = skipn (b + a) l.
Proof. induction b as [|b IH]; intros a l; cbn [Nat.add]; auto. destruct l; cbn [skipn]; [destruct a; auto|apply IH]. Qed.

Section Body.
  Context {K : Type} {OK : OrdRing K}.
  Notation C := (Cx K).
  Variable srcs : list nat.
  Variable cn : consts K.

  Lemma set_heap_same (w : world K) : set_heap w (w_heap w) = w.
  Proof. destruct w; reflexivity. Qed.
  Lemma set_set (w : world K) h h' : set_heap (set_heap w h) h' = set_heap w h'.
  Proof. reflexivity. Qed.

  (** one register *)
  Lemma split_single (h : heap K) vis inp g R : circ srcs h vis ((inp, g) :: R) -> g <> [] ->
    exists h' vis' ids, split h inp (Some (zrange 0 (nd_n (nd h inp)))) = (h', Ok ids) /\ length ids = length g /\
      (forall i, In i ids -> (size h <= i)%nat) /\ grow srcs h vis ((inp, g) :: R) h' vis' (combine ids (sing g) ++ R) (fun v => v).
  Proof.
    intros Ci Hg. pose proof (built_wf _ _ (c_built _ _ _ _ Ci)) as W.
    assert (Hv : In inp vis) by (apply (c_incl _ _ _ _ Ci); left; auto).
    assert (Hw : zlen g = width h inp) by (apply (circ_len _ _ _ _ Ci); left; auto).
    assert (Hp : 0 < zlen g) by (destruct g; [congruence|]; rewrite zlen_cons; pose proof (zlen_nonneg g); lia).
    destruct (split_indices h vis inp (zrange 0 (width h inp)) W Hv) as (h' & ids & pieces & E & HF & Hge & Hc & Hne & Hhd).
    - lia.
    - apply zrange_nodup.
    - intros x Hx. apply in_zrange in Hx. lia.
    - assert (Hlen : length ids = length pieces) by (clear - HF; induction HF; cbn; auto).
      assert (Es : pieces = sing (zrange 0 (zlen g))).
      { rewrite Hw, <- Hc. apply all_single; auto. rewrite <- (map_length (hd 0) pieces). apply NoDup_incl_length; [rewrite Hc; apply zrange_nodup|].
        intros x Hx. rewrite Hc in Hx. apply Hhd. right. split; auto. apply in_zrange in Hx. lia. }
      exists h', (vis ++ ids), ids. split; [exact E|].
      assert (Li : length ids = length g). { rewrite Hlen, Es, sing_len, zrange_length. unfold zlen. lia. }
      split; auto. split; auto.
      replace (sing g) with (map (map (znth 0 g)) pieces).
      2:{ rewrite Es. unfold sing. rewrite map_map. cbn [map]. transitivity (map (fun q => [q]) (map (znth 0 g) (zrange 0 (zlen g)))); [rewrite map_map; reflexivity|rewrite <- list_as_map; reflexivity]. }
      eapply (split_grow srcs h vis inp g R (Split inp (Some (zrange 0 (width h inp))))); eauto.
      + unfold split in E. destruct (split_bounds h inp _) as [bd|] eqn:Eb.
        * apply split_loop_sorted in E. destruct E as (new & -> & Hs & _). auto.
        * inversion E; subst. constructor; constructor.
      + destruct ids; [destruct g; [congruence|discriminate]|discriminate].
      + rewrite Hc, Hw. intros p Hp'. apply in_zrange in Hp'. auto.
  Qed.

  Definition split_step (w : world K) (qarr : list nat) (inp : nat) : st (world K) (list nat) :=
    sbind (on_heap w (split (w_heap w) inp (Some (zrange 0 (nd_n (nd (w_heap w) inp)))))) (fun w l => (w, Ok (qarr ++ l))).
  Lemma split_all R : forall inps todo (w : world K) vis qarr dn,
    circ srcs (w_heap w) vis (combine qarr (sing dn) ++ combine inps todo ++ R) -> length qarr = length dn -> length inps = length todo ->
    (forall g, In g todo -> g <> []) -> NoDup (dn ++ concat todo) -> (forall q, In q qarr -> nd_sink (nd (w_heap w) q) = []) ->
    exists h' vis' new, sloop split_step inps w qarr = (set_heap w h', Ok (qarr ++ new)) /\ length new = length (concat todo) /\
      (forall q, In q (qarr ++ new) -> nd_sink (nd h' q) = []) /\
      grow srcs (w_heap w) vis (combine qarr (sing dn) ++ combine inps todo ++ R) h' vis' (combine (qarr ++ new) (sing (dn ++ concat todo)) ++ R) (fun v => v).
  Proof.
    induction inps as [|inp inps IH]; intros [|g todo] w vis qarr dn Ci L1 L2 Hne Hnd Hid; cbn in L2; try discriminate; cbn [sloop].
    - exists (w_heap w), vis, []. rewrite set_heap_same, !app_nil_r. cbn [concat combine app length] in *. rewrite ?app_nil_r.
      split; auto. split; auto. split; auto. apply grow_refl. auto.
    - assert (P1 : Permutation (combine qarr (sing dn) ++ combine (inp :: inps) (g :: todo) ++ R) ((inp, g) :: combine qarr (sing dn) ++ combine inps todo ++ R)).
      { cbn [combine app]. symmetry. apply Permutation_middle. }
      destruct (split_single (w_heap w) vis inp g (combine qarr (sing dn) ++ combine inps todo ++ R)) as (h1 & vis1 & ids & E & Li & Hge & G).
      { eapply circ_perm; eauto. } { apply Hne; left; auto. }
      unfold split_step at 1. rewrite E. cbn [on_heap fst snd sbind].
      assert (P2 : Permutation (combine ids (sing g) ++ combine qarr (sing dn) ++ combine inps todo ++ R) (combine (qarr ++ ids) (sing (dn ++ g)) ++ combine inps todo ++ R)).
      { unfold sing at 3. rewrite map_app. fold (sing dn) (sing g). rewrite combine_app by (rewrite sing_len; auto).
        rewrite !app_assoc. do 2 apply Permutation_app_tail. apply Permutation_app_comm. }
      assert (G1 : grow srcs (w_heap w) vis (combine qarr (sing dn) ++ combine (inp :: inps) (g :: todo) ++ R) h1 vis1
        (combine (qarr ++ ids) (sing (dn ++ g)) ++ combine inps todo ++ R) (fun v => v)).
      { eapply grow_perm; [symmetry; exact P1|exact P2|exact G]. }
      pose proof (split_touch _ _ _ _ _ E) as T.
      destruct (IH todo (set_heap w h1) vis1 (qarr ++ ids) (dn ++ g)) as (h' & vis' & new & E2 & L3 & I2 & G2).
      + cbn [set_heap w_heap]. apply (grow_circ _ _ _ _ _ _ _ _ G1).
      + rewrite !app_length. congruence.
      + congruence.
      + intros; apply Hne; right; auto.
      + rewrite <- app_assoc. exact Hnd.
      + cbn [set_heap w_heap]. intros q Hq.
        assert (Hqi : q <> inp).
        { intros ->. apply in_app_iff in Hq. destruct Hq as [Hq|Hq].
          - assert (ND : NoDup (qarr ++ inp :: inps)).
            { apply (circ_objs srcs (w_heap w) vis (qarr ++ inp :: inps) (sing dn ++ g :: todo) R).
              - rewrite combine_app, <- app_assoc by (rewrite sing_len; auto). auto.
              - rewrite !app_length, sing_len. cbn [length]. lia.
              - intros x Hx. apply in_app_iff in Hx. destruct Hx as [Hx|Hx]; [eapply sing_ne; eauto|auto].
              - rewrite concat_app, concat_sing. auto. }
            apply NoDup_app_inv in ND. destruct ND as (_ & _ & N3). apply (N3 inp Hq). left; auto.
          - apply Hge in Hq. pose proof (built_wf _ _ (c_built _ _ _ _ Ci)) as W.
            assert (inp < size (w_heap w))%nat; [|lia]. apply (wf_vis _ _ W), (c_incl _ _ _ _ Ci). rewrite !map_app, !in_app_iff. right. left. left. auto. }
        rewrite T by auto. apply in_app_iff in Hq. destruct Hq as [Hq|Hq]; auto. apply nd_beyond; auto.
      + cbn [set_heap w_heap] in *. exists h', vis', (ids ++ new). split; [rewrite E2, <- app_assoc; reflexivity|].
        split; [cbn [concat]; rewrite !app_length; congruence|]. split; [rewrite app_assoc; auto|]. cbn [concat].
        rewrite <- !app_assoc in G2. change (dn ++ g ++ concat todo) with (dn ++ (g ++ concat todo)) in G2.
        eapply (grow_trans srcs _ _ _ _ _ _ _ _ _ (fun v => v) (fun v => v)); [exact Ci|exact G1|]. rewrite <- !app_assoc in *. exact G2.
  Qed.

  Definition merge_step (qarr : list nat) (w : world K) '((out, index) : list nat * Z) (qubit : nat) : st (world K) (list nat * Z) :=
    let n := nd_n (nd (w_heap w) qubit) in
    sbind (on_heap w (new_node (w_heap w) KQubit (firstn (Z.to_nat n) (skipn (Z.to_nat index) qarr)) None None false None))
      (fun w o => (w, Ok (out ++ [o], index + n))).
  Lemma merge_all R : forall inps todo (w : world K) vis out dn qarr index qrem,
    skipn (Z.to_nat index) qarr = qrem -> 0 <= index -> length qrem = length (concat todo) -> length out = length dn ->
    Forall2 (fun i g => (i < size (w_heap w))%nat /\ width (w_heap w) i = zlen g) inps todo ->
    circ srcs (w_heap w) vis (combine out dn ++ combine qrem (sing (concat todo)) ++ R) ->
    (forall g, In g todo -> g <> []) -> NoDup (concat todo) -> (forall q, In q qrem -> nd_sink (nd (w_heap w) q) = []) ->
    exists h' vis' new index', sloop (merge_step qarr) inps w (out, index) = (set_heap w h', Ok (out ++ new, index')) /\ length new = length todo /\
      grow srcs (w_heap w) vis (combine out dn ++ combine qrem (sing (concat todo)) ++ R) h' vis' (combine (out ++ new) (dn ++ todo) ++ R) (fun v => v).
  Proof.
    induction inps as [|inp inps IH]; intros todo w vis out dn qarr index qrem Hsk Hix L1 L2 HF Ci Hne Hnd Hid; inversion HF as [|? g ? todo' [Hsz Hwd] HF']; subst; cbn [sloop].
    - exists (w_heap w), vis, [], index. rewrite set_heap_same, !app_nil_r. cbn [concat length] in *. split; auto. split; auto.
      cbn [sing map] in *. rewrite combine_nil in *. apply grow_refl. auto.
    - set (qrem := skipn (Z.to_nat index) qarr) in *. rename todo' into todo.
      unfold width in Hwd. unfold merge_step at 1. rewrite Hwd. fold qrem. set (sl := firstn (Z.to_nat (zlen g)) qrem).
      cbn [concat] in *. rewrite app_length in L1.
      assert (Ez : Z.to_nat (zlen g) = length g) by (unfold zlen; lia).
      assert (Lsl : length sl = length g) by (unfold sl; rewrite firstn_length; lia).
      set (q2 := skipn (length g) qrem). assert (Eq : qrem = sl ++ q2) by (unfold sl, q2; rewrite Ez; symmetry; apply firstn_skipn).
      assert (Hg : g <> []) by (apply Hne; left; auto).
      assert (Es : sing (g ++ concat todo) = sing g ++ sing (concat todo)) by apply map_app.
      assert (P1 : Permutation (combine out dn ++ combine qrem (sing (g ++ concat todo)) ++ R) (combine sl (sing g) ++ combine out dn ++ combine q2 (sing (concat todo)) ++ R)).
      { rewrite Eq, Es, combine_app by (rewrite sing_len; auto). rewrite <- !app_assoc. apply Permutation_app_swap_app. }
      assert (C1 : circ srcs (w_heap w) vis (combine sl (sing g) ++ combine out dn ++ combine q2 (sing (concat todo)) ++ R)) by (eapply circ_perm; eauto).
      pose proof (built_wf _ _ (c_built _ _ _ _ C1)) as W.
      apply NoDup_app_inv in Hnd. destruct Hnd as (N1 & N2 & N3).
      assert (NDs : NoDup sl).
      { apply (circ_objs srcs (w_heap w) vis sl (sing g) _ C1); [rewrite sing_len; auto|apply sing_ne|rewrite concat_sing; auto]. }
      assert (Efst : map fst (combine sl (sing g)) = sl) by (apply map_fst_combine; rewrite sing_len; auto).
      assert (Hslv : forall i, In i sl -> In i vis).
      { intros i Hi. apply (c_incl _ _ _ _ C1). rewrite map_app, Efst. apply in_app_iff; auto. }
      assert (Hsl1 : forall i, In i sl -> width (w_heap w) i = 1).
      { intros i Hi. rewrite <- Efst in Hi. apply in_map_iff in Hi. destruct Hi as ([q x] & <- & Hq). cbn [fst].
        rewrite <- (circ_len _ _ _ _ C1 q x) by (apply in_app_iff; auto). apply in_combine_r in Hq. apply in_map_iff in Hq. destruct Hq as (y & <- & _). reflexivity. }
      destruct (qubit_total (w_heap w) sl NDs) as (h1 & E).
      { destruct sl; [destruct g; [congruence|discriminate]|discriminate]. }
      { intros i Hi. split; [apply (wf_vis _ _ W); auto|]. apply Hid. rewrite Eq. apply in_app_iff; auto. }
      { rewrite sum_n_widths. assert (Hpos : forall l, (forall i, In i l -> width (w_heap w) i = 1) -> widths (w_heap w) l = zlen l).
        { induction l as [|a l IHl]; intros Hl; [reflexivity|]. rewrite widths_cons, zlen_cons, (Hl a) by (left; auto). rewrite IHl by (intros; apply Hl; right; auto). lia. }
        rewrite Hpos by auto. unfold zlen. destruct g; [congruence|]. cbn [length] in Lsl. lia. }
      destruct (new_node_ok (w_heap w) KQubit sl None None false None h1 (Ok (size (w_heap w))) (wf_base _ _ W)) as (_ & X1 & _ & _ & _ & F); auto.
      { intros i Hi. apply (wf_vis _ _ W); auto. } { exact I. } { intros Hx. reflexivity. }
      destruct (F _ eq_refl) as (_ & Sz1 & Fk & Fi & _). clear F.
      assert (G : grow srcs (w_heap w) vis (combine sl (sing g) ++ combine out dn ++ combine q2 (sing (concat todo)) ++ R) h1 (vis ++ [size (w_heap w)])
        ((size (w_heap w), concat (map snd (combine sl (sing g)))) :: combine out dn ++ combine q2 (sing (concat todo)) ++ R) (fun v => v)).
      { apply (node_grow srcs (w_heap w) vis (combine sl (sing g)) _ (Identity sl) h1 (size (w_heap w)) KQubit); auto.
        - destruct sl, g; try discriminate; congruence.
        - cbn [exec]. rewrite E. reflexivity.
        - lia.
        - unfold inputs_of. rewrite Fi. auto. }
      rewrite map_snd_combine, concat_sing in G by (rewrite sing_len; auto).
      rewrite E. cbn [on_heap fst snd sbind].
      assert (G1 : grow srcs (w_heap w) vis (combine out dn ++ combine qrem (sing (g ++ concat todo)) ++ R) h1 (vis ++ [size (w_heap w)])
        (combine (out ++ [size (w_heap w)]) (dn ++ [g]) ++ combine q2 (sing (concat todo)) ++ R) (fun v => v)).
      { eapply grow_perm; [symmetry; exact P1| |exact G]. rewrite combine_app by auto. cbn [combine]. rewrite <- app_assoc. cbn [app]. apply Permutation_middle. }
      pose proof (new_node_touch _ _ _ _ _ _ _ _ _ E) as T.
      destruct (IH todo (set_heap w h1) (vis ++ [size (w_heap w)]) (out ++ [size (w_heap w)]) (dn ++ [g]) qarr (index + zlen g) q2) as (h' & vis' & new & ix' & E2 & L3 & G2).
      + unfold q2, qrem. rewrite skipn_skipn'. f_equal. pose proof (zlen_nonneg g). lia.
      + pose proof (zlen_nonneg g). lia.
      + unfold q2. rewrite skipn_length. lia.
      + rewrite !app_length. cbn [length]. lia.
      + cbn [set_heap w_heap]. clear - HF' X1. induction HF' as [|i g l l' [A B] HF IH]; constructor; auto. split.
        * destruct X1 as (A1 & _). lia.
        * rewrite <- B. apply ext_width; auto.
      + cbn [set_heap w_heap]. apply (grow_circ _ _ _ _ _ _ _ _ G1).
      + intros; apply Hne; right; auto.
      + auto.
      + cbn [set_heap w_heap]. intros q Hq. rewrite T; [apply Hid; rewrite Eq; apply in_app_iff; auto|]. intros Hs.
        assert (ND : NoDup (sl ++ q2)).
        { apply (circ_objs srcs (w_heap w) vis (sl ++ q2) (sing g ++ sing (concat todo)) (combine out dn ++ R)).
          - eapply circ_perm; [|exact Ci]. rewrite <- Eq, <- Es. apply Permutation_app_swap_app.
          - rewrite <- Eq, <- Es, sing_len, app_length. auto.
          - rewrite <- Es. apply sing_ne.
          - rewrite <- Es, concat_sing. apply NoDup_app_inv. auto. }
        apply NoDup_app_inv in ND. destruct ND as (_ & _ & N4). exact (N4 q Hs Hq).
      + cbn [set_heap w_heap] in *. exists h', vis', (size (w_heap w) :: new), ix'. split; [rewrite E2, <- app_assoc; reflexivity|].
        split; [cbn [length]; congruence|]. rewrite <- !app_assoc in G2. cbn [app] in G2.
        eapply (grow_trans srcs _ _ _ _ _ _ _ _ _ (fun v => v) (fun v => v)); [exact Ci|exact G1|exact G2].
  Qed.
End Body.
