(** Runs of registers with given ids. *)
From Coq Require Import Sorted.
From Verif Require Import Base S_Bits L_Bits M_Kron S_Kron M_Ops S_Ops M_Feed S_Feed L_Feed L_Feed2 M_Func S_Func M_Measure S_Measure
  M_Graph S_Graph L_Graph1 L_Graph3 L_Graph6.
From Verif Require Import M_Forced S_Forced.

Section ForcedLemmas.
  Context {K : Type} {OK : OrdRing K}.
  Notation C := (Cx K).
  Implicit Types h : heap K.

  Fixpoint nodes_of (counter : Z) (regs : list (Z * option Z)) : list (node K) :=
    match regs with
    | [] => []
    | (n, Some q) :: regs => mkNode KQubit [] n q None [] :: nodes_of counter regs
    | (n, None) :: regs => mkNode KQubit [] n counter None [] :: nodes_of (counter + 1) regs
    end.
  Lemma nodes_len regs : forall c, length (nodes_of c regs) = length regs.
  Proof. induction regs as [|[n [q|]] regs IH]; intros c; cbn; auto. Qed.
  Lemma new_registers_ok regs : (forall r, In r regs -> 0 < fst r) -> forall h,
    exists h', new_registers h regs = (h', Ok (seq (size h) (length regs))) /\ h_nodes h' = h_nodes h ++ nodes_of (h_qid h) regs.
  Proof.
    induction regs as [|[n q] regs IH]; intros Hp h; cbn [new_registers nodes_of length seq].
    - exists h. rewrite app_nil_r. auto.
    - unfold new_node. cbn [sbind fst]. destruct (Z.leb_spec n 0) as [Hn|Hn]; [specialize (Hp (n, q) (or_introl eq_refl)); cbn in Hp; lia|].
      destruct q as [q|]; cbn [sfold sbind fst snd].
      + destruct (IH (fun r Hr => Hp r (or_intror Hr)) (mkHeap (h_nodes h ++ [mkNode KQubit [] n q None []]) (h_qid h))) as (h' & E & En).
        rewrite E. cbn [sbind]. exists h'. split.
        * do 3 f_equal. unfold size. cbn [h_nodes]. rewrite app_length, Nat.add_1_r. reflexivity.
        * rewrite En. cbn [h_nodes h_qid]. rewrite <- app_assoc. reflexivity.
      + destruct (IH (fun r Hr => Hp r (or_intror Hr)) (mkHeap (h_nodes h ++ [mkNode KQubit [] n (h_qid h) None []]) (h_qid h + 1))) as (h' & E & En).
        rewrite E. cbn [sbind]. exists h'. split.
        * do 3 f_equal. unfold size. cbn [h_nodes]. rewrite app_length, Nat.add_1_r. reflexivity.
        * rewrite En. cbn [h_nodes h_qid]. rewrite <- app_assoc. reflexivity.
  Qed.
  Lemma nth_nodes regs : forall c i d, (i < length regs)%nat ->
    nth i (nodes_of c regs) d = mkNode KQubit [] (fst (nth i regs (0, None))) (nth i (ids c regs) 0) None [].
  Proof.
    induction regs as [|[n [q|]] regs IH]; intros c [|i] d Hi; cbn in *; try lia; auto; apply IH; lia.
  Qed.

  (** ** get_deps *)
  Lemma remove_nth {A} k (fr : list A) d : (k < length fr)%nat -> Permutation fr (nth k fr d :: firstn k fr ++ skipn (S k) fr).
  Proof.
    revert k. induction fr as [|a fr IH]; intros [|k] Hk; cbn in *; try lia; auto.
    rewrite (IH k) at 1 by lia. apply perm_swap.
  Qed.
  Lemma set_add_fresh l x : ~ In x l -> set_add l x = l ++ [x].
  Proof. intros H. unfold set_add. destruct (mem x l) eqn:E; auto. apply mem_In in E. contradiction. Qed.
  Lemma deps_flat pick h : forall fuel fr seen deps, (forall i, In i fr -> inputs_of h i = []) -> (length fr <= fuel)%nat ->
    NoDup (fr ++ seen) -> NoDup (fr ++ deps) ->
    exists d s, deps_loop pick h fuel fr seen deps = Ok (d, s) /\ Permutation d (fr ++ deps) /\ Permutation s (fr ++ seen).
  Proof.
    induction fuel as [|fuel IH]; intros fr seen deps Hi Hf Hs Hd.
    - destruct fr; [|cbn in Hf; lia]. exists deps, seen. cbn. auto.
    - destruct fr as [|x0 fr0]; [exists deps, seen; cbn; auto|]. cbn [deps_loop]. set (fr := x0 :: fr0) in *.
      set (k := Nat.modulo (pick fuel) (length fr)). assert (Hk : (k < length fr)%nat) by (apply Nat.mod_upper_bound; cbn; lia).
      pose proof (remove_nth k fr x0 Hk) as P. set (x := nth k fr x0) in *. set (fr1 := firstn k fr ++ skipn (S k) fr) in *.
      clearbody k x fr1. fold (inputs_of h x). rewrite Hi by (eapply Permutation_in; [symmetry; exact P|left; auto]).
      rewrite P in Hs, Hd. cbn [app] in Hs, Hd. inversion Hs as [|? ? Hx1 Hs']; subst. inversion Hd as [|? ? Hx2 Hd']; subst.
      rewrite in_app_iff in Hx1, Hx2.
      rewrite !set_add_fresh by tauto.
      destruct (IH fr1 (seen ++ [x]) (deps ++ [x])) as (d & s & E & Pd & Ps).
      + intros i Hin. apply Hi. eapply Permutation_in; [symmetry; exact P|right; auto].
      + apply Permutation_length in P. cbn [length] in P, Hf. lia.
      + rewrite app_assoc. eapply Permutation_NoDup; [apply Permutation_cons_append|]. constructor; auto. rewrite in_app_iff. tauto.
      + rewrite app_assoc. eapply Permutation_NoDup; [apply Permutation_cons_append|]. constructor; auto. rewrite in_app_iff. tauto.
      + exists d, s. split; auto. split.
        * rewrite Pd, P, app_assoc, <- Permutation_cons_append. reflexivity.
        * rewrite Ps, P, app_assoc, <- Permutation_cons_append. reflexivity.
  Qed.
  Lemma fold_set_add l : NoDup l -> fold_left set_add l [] = l.
  Proof.
    intros Hd. enough (G : forall s, NoDup (s ++ l) -> fold_left set_add l s = s ++ l) by (apply G; auto). clear Hd.
    induction l as [|x l IH]; intros s Hd; cbn [fold_left]; [rewrite app_nil_r; auto|]. rewrite set_add_fresh.
    - rewrite IH; rewrite <- app_assoc; auto.
    - apply NoDup_remove_2 in Hd. rewrite in_app_iff in Hd. tauto.
  Qed.

  (** ** the graph of registers only *)
  Definition bare h (l : list nat) : Prop := forall i, In i l ->
    nd_kind (nd h i) = KQubit /\ nd_inputs (nd h i) = [] /\ nd_sink (nd h i) = [] /\ nd_default (nd h i) = None.
  Lemma insert_last h x l : Forall (fun y => qid_of h y <= qid_of h x) l -> insert_by (qid_of h) x l = l ++ [x].
  Proof. induction 1 as [|y l Hy HF IH]; cbn; auto. apply Z.leb_le in Hy. rewrite Hy, IH. auto. Qed.
  Lemma sort_id h l : StronglySorted (fun a b => qid_of h a <= qid_of h b) l -> sort_by (qid_of h) l = l.
  Proof.
    intros Hs. unfold sort_by. enough (G : forall acc, (forall a x, In a acc -> In x l -> qid_of h a <= qid_of h x) ->
      fold_left (fun acc x => insert_by (qid_of h) x acc) l acc = acc ++ l) by (apply G; intros a x []).
    induction Hs as [|x l Hs IH HF]; intros acc Hc; cbn [fold_left]; [rewrite app_nil_r; auto|].
    rewrite insert_last by (apply Forall_forall; intros y Hy; apply Hc; cbn; auto).
    rewrite IH; [rewrite <- app_assoc; reflexivity|]. intros a z Ha Hz. apply in_app_iff in Ha. destruct Ha as [Ha|[<-|[]]].
    - apply Hc; cbn; auto.
    - rewrite Forall_forall in HF. auto.
  Qed.
  Lemma loop_flat ev h gn : forall fuel l seen qb a, bare h l -> StronglySorted (fun x y => qid_of h x <= qid_of h y) l -> (length l <= fuel)%nat ->
    exists a', graph_loop (node_feed ev h) h gn fuel l seen qb a = (a', Ok tt) /\ a_back a' = a_back a /\ a_cache a' = a_cache a.
  Proof.
    induction fuel as [|fuel IH]; intros l seen qb a Hb Hs Hf.
    - destruct l; [|cbn in Hf; lia]. exists a. cbn. auto.
    - cbn [graph_loop]. rewrite sort_id by auto. destruct l as [|x l]; [exists a; auto|].
      destruct (Hb x (or_introl eq_refl)) as (Hk & Hi & Hn & _). rewrite Hi. cbn [mmap]. unfold node_feed at 1. rewrite Hk. cbn [sbind].
      rewrite Hn. cbn [push_sinks mfold]. inversion Hs; subst.
      destruct (IH l (set_add seen x) qb (mkAcc (a_back a) (a_n a - 0) (odict_set (a_cm a) x CZero) (a_cache a))) as (a' & E & E1 & E2); auto.
      + intros i Hin. apply Hb. right; auto.
      + cbn in Hf. lia.
      + exists a'. rewrite <- E. cbn [a_back a_cache] in *. auto.
  Qed.

  Lemma starts_split (w : nat -> Z) l1 i l2 : ~ In i l1 -> starts_at w (l1 ++ i :: l2) i = all_width w l1.
  Proof.
    induction l1 as [|j l1 IH]; cbn [app starts_at all_width]; intros Hn; [rewrite Nat.eqb_refl; auto|].
    destruct (Nat.eqb_spec j i) as [->|]; [exfalso; apply Hn; left; auto|]. rewrite IH; auto. intros Hi. apply Hn. right; auto.
  Qed.
  Lemma all_width_widths h l : all_width (width h) l = widths h l.
  Proof. induction l as [|a l IH]; cbn; auto. rewrite IH. reflexivity. Qed.
  Lemma all_width_ext (w w' : nat -> Z) l : (forall i, In i l -> w i = w' i) -> all_width w l = all_width w' l.
  Proof. induction l as [|a l IH]; cbn; intros H; auto. rewrite (H a), IH; auto. Qed.
  Lemma starts_ext (w w' : nat -> Z) l i : (forall j, In j l -> w j = w' j) -> starts_at w l i = starts_at w' l i.
  Proof. induction l as [|a l IH]; cbn; intros H; auto. rewrite (H a), IH; auto. Qed.
  Lemma widths_nonneg (w : nat -> Z) l : (forall i, In i l -> 0 < w i) -> 0 <= all_width w l.
  Proof. induction l as [|a l IH]; cbn; intros H; [lia|]. specialize (IH (fun i Hi => H i (or_intror Hi))). specialize (H a (or_introl eq_refl)). lia. Qed.

  (** the groups of registers side by side are all the qubits *)
  Lemma groups_all (w : nat -> Z) l : NoDup l -> (forall i, In i l -> 0 < w i) ->
    concat (map (fun i => zrange (starts_at w l i) (starts_at w l i + w i)) l) = zrange 0 (all_width w l).
  Proof.
    intros Hd Hp. enough (G : forall l2 l1, l = l1 ++ l2 -> concat (map (fun i => zrange (starts_at w l i) (starts_at w l i + w i)) l2)
      = zrange (all_width w l1) (all_width w l1 + all_width w l2)) by (rewrite (G l []); auto).
    induction l2 as [|i l2 IH]; intros l1 E; cbn [map concat all_width].
    - rewrite Z.add_0_r. symmetry. unfold zrange. replace (Z.to_nat _) with O by lia. reflexivity.
    - rewrite (IH (l1 ++ [i])) by (rewrite <- app_assoc; exact E).
      assert (Hn : ~ In i l1) by (subst l; apply NoDup_remove_2 in Hd; rewrite in_app_iff in Hd; tauto).
      rewrite E, starts_split by auto.
      assert (E2 : all_width w (l1 ++ [i]) = all_width w l1 + w i).
      { clear. induction l1 as [|a l1 IH]; cbn in *; [lia|rewrite IH; lia]. }
      rewrite E2, Z.add_assoc. symmetry. apply zrange_app.
      assert (0 < w i) by (apply Hp; subst l; apply in_app_iff; right; left; auto).
      enough (0 <= all_width w l2) by lia. apply widths_nonneg. intros j Hj. apply Hp. subst l. apply in_app_iff. right. right. auto.
  Qed.

  Lemma no_defaults h fr (fed : list nat) : (forall q, In q fr -> nd_default (nd h q) = None) ->
    forall d : list (list nat * feed_t K), add_defaults h fr fed d = d.
  Proof.
    unfold add_defaults. induction fr as [|q fr IH]; cbn [fold_left]; intros H d; auto. rewrite (H q) by (left; auto).
    destruct (mem q fed); apply IH; intros; apply H; right; auto.
  Qed.
  Lemma keys_nodes (fs : list (nat * list C)) : fed_nodes (map (fun f => (FNode (fst f), FArr (snd f))) fs) = map fst fs.
  Proof. unfold fed_nodes. induction fs as [|[i v] fs IH]; cbn; auto. rewrite IH. reflexivity. Qed.

  Lemma nodup_left {A} (l l' : list A) : NoDup (l ++ l') -> NoDup l.
  Proof.
    induction l as [|x l IH]; cbn [app]; intros H; constructor; inversion H as [|? ? H1 H2]; subst.
    - intros Hx. apply H1, in_app_iff. auto.
    - auto.
  Qed.
  Lemma complete (l args : list nat) : NoDup l -> NoDup args -> incl l args -> exists rest, Permutation (l ++ rest) args.
  Proof.
    intros Hl Ha Hi. exists (filter (fun x => negb (mem x l)) args). apply NoDup_Permutation; auto.
    - apply NoDup_app_intro; auto; [apply NoDup_filter; auto|]. intros x Hf Hx. apply filter_In in Hf. destruct Hf as [Hx' Hf].
      assert (Hm : mem x l = true) by (apply mem_In; auto). rewrite Hm in Hf. discriminate.
    - intros x. rewrite in_app_iff, filter_In. split; [intros [H|[H _]]; auto|]. intros H. destruct (mem x l) eqn:E; [left; apply mem_In; auto|auto].
  Qed.
  Lemma run_bare ev h (c : cache K) args fs strict : enum_ok ev -> bare h args -> NoDup args ->
    (forall i, In i args -> (i < size h)%nat /\ 0 < width h i) ->
    NoDup (map fst fs) -> incl (map fst fs) args -> (forall i v, In (i, v) fs -> zlen v = 2 ^ width h i) ->
    exists d order anns, Permutation d args /\ order = sort_by (qid_of h) (e_enum ev d) /\ Permutation order args /\
      StronglySorted (fun i j => qid_of h i <= qid_of h j) order /\
      run ev c h args (map (fun f => (FNode (fst f), FArr (snd f))) fs) strict SNone
      = (c, if strict && negb (forallb (fun q => mem q (map fst fs)) args) then Raise ValueError
            else Ok (map (fed_amp (all_width (width h) order) (side_by_side (width h) order fs)) (zrange 0 (2 ^ all_width (width h) order)), anns)).
  Proof.
    intros He Hb Hd Hlt Hfd Hfi Hv. destruct (complete (map fst fs) args Hfd Hd Hfi) as (others & Pf).
    destruct (deps_flat (e_pick ev) h (2 ^ size h) args [] []) as (d & s & E & Pd & Ps).
    { intros i Hi. apply Hb; auto. }
    { assert (length args <= size h)%nat.
      { rewrite <- (seq_length (size h) 0). apply NoDup_incl_length; auto. intros i Hi. apply in_seq. apply Hlt in Hi. lia. }
      pose proof (Nat.pow_gt_lin_r 2 (size h)). lia. }
    { rewrite app_nil_r. auto. }
    { rewrite app_nil_r. auto. }
    rewrite app_nil_r in Pd, Ps.
    set (order := sort_by (qid_of h) (e_enum ev d)).
    assert (Po : Permutation order args) by (unfold order; rewrite sort_perm, (He d); auto).
    assert (Hs : StronglySorted (fun i j => qid_of h i <= qid_of h j) order) by apply sort_sorted.
    assert (Hdo : NoDup order) by (eapply Permutation_NoDup; [symmetry; exact Po|auto]).
    assert (Hno : forall i, In i order <-> In i args) by (intros i; split; apply Permutation_in; [|symmetry]; auto).
    set (feed := map (fun f => (FNode (fst f), FArr (snd f))) fs).
    assert (Hkd : NoDup (map (fun kv => key_nodes (fst kv)) feed)).
    { unfold feed. rewrite map_map. cbn [fst key_nodes]. rewrite <- (map_map fst (fun i => [i])). apply FinFun.Injective_map_NoDup.
      - intros x y. congruence.
      - exact Hfd. }
    assert (Hfn : concat (map fst (map (fun kv => (key_nodes (fst kv), snd kv)) feed)) = map fst fs).
    { rewrite map_map. cbn [fst]. apply keys_nodes. }
    set (w := width h). set (n := all_width w order). set (gs := side_by_side w order fs).
    assert (Hn : 0 <= n) by (apply widths_nonneg; intros i Hi; apply Hlt, Hno, Hi).
    assert (Hgs : feeds_ok n gs).
    { split.
      - set (g := fun i => zrange (starts_at w order i) (starts_at w order i + w i)).
        assert (P : Permutation (concat (map fst gs) ++ concat (map g others)) (zrange 0 n)).
        { unfold n. rewrite <- groups_all by (auto; intros i Hi; apply Hlt, Hno, Hi). fold g. rewrite <- (flat_map_concat_map _ order).
          eapply Permutation_trans; [|apply Permutation_flat_map; exact (Permutation_trans Pf (Permutation_sym Po))].
          rewrite flat_map_concat_map, map_app, concat_app. apply Permutation_app_tail.
          unfold gs, side_by_side. rewrite !map_map. cbn [fst]. reflexivity. }
        split.
        + assert (Hnd : NoDup (concat (map fst gs) ++ concat (map g others))) by (eapply Permutation_NoDup; [symmetry; exact P|apply zrange_nodup]).
          exact (nodup_left _ _ Hnd).
        + intros q Hq. assert (Hq' : In q (concat (map fst gs) ++ concat (map g others))) by (apply in_app_iff; auto).
          apply (Permutation_in _ P), in_zrange in Hq'. auto.
      - intros g a Hi. unfold gs, side_by_side in Hi. apply in_map_iff in Hi. destruct Hi as ([i v] & Ei & Hi). cbn [fst snd] in Ei.
        inversion Ei; subst. rewrite (Hv i a Hi). f_equal.
        assert (Hia : In i args) by (apply Hfi; apply in_map_iff; exists (i, a); auto).
        pose proof (Hlt i Hia). rewrite zlen_zrange; unfold w; lia. }
    assert (Est : forallb (fun q => mem q (map fst fs)) order = forallb (fun q => mem q (map fst fs)) args).
    { apply eq_true_iff_eq. rewrite !forallb_forall. split; intros H q Hq; apply H, Hno, Hq. }
    destruct (assign_ok h order Hdo) as (qb & Ea & Hqb).
    assert (Hget : forall i, In i args -> odict_get qb i = Ok (zrange (starts_at w order i) (starts_at w order i + w i))).
    { intros i Hi. apply Hno in Hi. apply in_split in Hi. destruct Hi as (l1 & l2 & Eo). rewrite (Hqb l1 i l2 Eo).
      assert (Hni : ~ In i l1). { rewrite Eo in Hdo. apply NoDup_remove_2 in Hdo. rewrite in_app_iff in Hdo. tauto. }
      rewrite Eo, starts_split by auto. rewrite (all_width_widths h l1 : all_width w l1 = _). reflexivity. }
    destruct (loop_flat ev h s (length s) order [] (fst (assign_indices h (sort_by (qid_of h) order)))
      (mkAcc (mkBackend n (map (fed_amp n gs) (zrange 0 (2 ^ n))) (map (e_junk ev) (zrange 0 (2 ^ n))))
         (fold_left (fun s f => s + nd_n (nd h f)) order 0) [] c)) as (a' & Er & Eb & Ec).
    { intros i Hi. apply Hb, Hno, Hi. }
    { exact Hs. }
    { rewrite (Permutation_length Po), (Permutation_length Ps). auto. }
    exists d, order, (a_cm a'). split; auto. split; auto. split; auto. split; auto.
    unfold run. rewrite normal_feed by auto. rewrite Hfn. unfold get_deps. rewrite fold_set_add by auto. rewrite E. cbn [bind fst snd].
    fold order. rewrite no_defaults.
    2:{ intros q Hq. apply Hb. eapply Permutation_in; [|exact Hq]. rewrite (He d). exact Pd. }
    rewrite Est. destruct (strict && negb (forallb (fun q => mem q (map fst fs)) args)); [reflexivity|].
    rewrite Ea. rewrite <- all_width_widths. fold w n.
    rewrite (mmap_ok _ (fun kv => concat (map (fun i => zrange (starts_at w order i) (starts_at w order i + w i)) (fst kv)))).
    2:{ intros [k v] Hi. apply in_map_iff in Hi. destruct Hi as ([k' v'] & Ei & Hi). inversion Ei; subst.
        unfold feed in Hi. apply in_map_iff in Hi. destruct Hi as ([i u] & Eu & Hi). inversion Eu; subst. cbn [key_nodes fst mmap map].
        rewrite Hget; [reflexivity|]. apply Hfi. apply in_map_iff. exists (i, u); auto. }
    cbn [bind truthy].
    assert (Eg : map (fun kv => concat (map (fun i => zrange (starts_at w order i) (starts_at w order i + w i)) (fst kv)))
                  (map (fun kv : fkey * feed_t K => (key_nodes (fst kv), snd kv)) feed) = fed_groups gs).
    { unfold feed, gs, fed_groups, side_by_side. rewrite !map_map. apply map_ext. intros [i v]. cbn. apply app_nil_r. }
    assert (El : map snd (map (fun kv : fkey * feed_t K => (key_nodes (fst kv), snd kv)) feed) = fed_list gs).
    { unfold feed, gs, fed_list, side_by_side. rewrite !map_map. apply map_ext. intros [i v]. reflexivity. }
    assert (Em : make_state (e_junk ev) n (fed_groups gs) (fed_list gs) None None None None
      = Ok (mkBackend n (map (fed_amp n gs) (zrange 0 (2 ^ n))) (map (e_junk ev) (zrange 0 (2 ^ n))))).
    { clear - Hn Hgs. clearbody gs n. destruct gs as [|g0 gs']; [|apply make_state_fed_full; auto; discriminate].
      cbn [fed_groups fed_list map]. rewrite make_state_empty_full by auto. f_equal. f_equal.
      apply map_ext_in. intros x Hx. apply in_zrange in Hx. symmetry. apply fed_amp_nil; auto. }
    rewrite Eg, El, Em.
    unfold run_graph. rewrite Er. rewrite Eb, Ec. reflexivity.
  Qed.

  Lemma run_registers regs : (forall r, In r regs -> 0 < fst r) ->
    exists h, new_registers empty_heap regs = (h, Ok (seq 0 (length regs))) /\
      (forall i, (i < length regs)%nat -> width h i = reg_width regs i /\ qid_of h i = reg_id regs i) /\
      forall ev (c : cache K) args fs strict, enum_ok ev -> NoDup args -> (forall i, In i args -> (i < length regs)%nat) ->
        NoDup (map fst fs) -> incl (map fst fs) args -> (forall i v, In (i, v) fs -> zlen v = 2 ^ reg_width regs i) ->
        exists order anns, by_id regs args order /\
          run ev c h args (map (fun f => (FNode (fst f), FArr (snd f))) fs) strict SNone
          = (c, if strict && negb (forallb (fun q => mem q (map fst fs)) args) then Raise ValueError else Ok (map (fed_amp (all_width (reg_width regs) order) (side_by_side (reg_width regs) order fs))
                      (zrange 0 (2 ^ all_width (reg_width regs) order)), anns)).
  Proof.
    intros Hp. destruct (new_registers_ok regs Hp empty_heap) as (h & E & En). exists h. split; [exact E|].
    cbn [empty_heap h_nodes h_qid app] in En.
    assert (Hnd : forall i, (i < length regs)%nat -> nd h i = mkNode KQubit [] (reg_width regs i) (reg_id regs i) None []).
    { intros i Hi. unfold nd. rewrite En. apply nth_nodes; auto. }
    assert (Hq : forall i, (i < length regs)%nat -> width h i = reg_width regs i /\ qid_of h i = reg_id regs i).
    { intros i Hi. unfold width, qid_of. rewrite Hnd by auto. auto. }
    split; [exact Hq|]. intros ev c args fs strict He Hd Hlt Hfd Hfi Hv.
    assert (Hw : forall i, In i args -> reg_width regs i = width h i) by (intros i Hi; symmetry; apply Hq; auto).
    destruct (run_bare ev h c args fs strict) as (d & order & anns & _ & _ & Po & Hs & Er); auto.
    - intros i Hi. rewrite Hnd by auto. cbn. auto.
    - intros i Hi. split; [unfold size; rewrite En, nodes_len; auto|]. rewrite <- Hw by auto. apply Hp. apply nth_In. auto.
    - intros i v Hi. rewrite <- Hw; [apply Hv; auto|]. apply Hfi. apply in_map_iff. exists (i, v); auto.
    - exists order, anns. split.
      + split; auto. revert Hs. assert (Ho : forall i, In i order -> (i < length regs)%nat) by (intros i Hi; apply Hlt; eapply Permutation_in; eauto).
        clear -Hq Ho. induction order as [|i order IH]; intros Hs; constructor; inversion Hs; subst.
        * apply IH; auto. intros; apply Ho; right; auto.
        * apply Forall_forall. intros j Hj. rewrite Forall_forall in *.
          rewrite <- (proj2 (Hq i (Ho i (or_introl eq_refl)))), <- (proj2 (Hq j (Ho j (or_intror Hj)))). auto.
      + rewrite Er. assert (Ho : forall i, In i order -> reg_width regs i = width h i) by (intros i Hi; apply Hw; eapply Permutation_in; eauto).
        rewrite (all_width_ext _ _ order Ho).
        replace (side_by_side (reg_width regs) order fs) with (side_by_side (width h) order fs); auto.
        unfold side_by_side. apply map_ext_in. intros [i v] Hi. cbn [fst snd]. rewrite (starts_ext _ _ order i Ho). rewrite Hw; auto.
        apply Hfi. apply in_map_iff. exists (i, v); auto.
  Qed.
  Lemma by_id_unique regs args o1 o2 : (forall i j, In i args -> In j args -> reg_id regs i = reg_id regs j -> i = j) -> NoDup args ->
    by_id regs args o1 -> by_id regs args o2 -> o1 = o2.
  Proof.
    intros Hi Hd [P1 S1] [P2 S2]. assert (P : Permutation o1 o2) by (rewrite P1; symmetry; auto).
    assert (H1 : forall x, In x o1 -> In x args) by (intros x; apply Permutation_in; auto).
    clear P1 P2 Hd. revert o2 S2 P. induction S1 as [|a o1 S1 IH F1]; intros o2 S2 P.
    - apply Permutation_nil in P. auto.
    - destruct S2 as [|b o2 S2 F2]; [symmetry in P; apply Permutation_nil in P; discriminate|].
      assert (a = b).
      { assert (Ia : In a (b :: o2)) by (eapply Permutation_in; [exact P|left; auto]).
        assert (Ib : In b (a :: o1)) by (eapply Permutation_in; [symmetry; exact P|left; auto]).
        destruct Ia as [->|Ia]; auto. destruct Ib as [->|Ib]; auto. rewrite Forall_forall in *.
        apply Hi; [apply H1; left; auto|apply H1; right; auto|]. specialize (F1 b Ib). specialize (F2 a Ia). lia. }
      subst b. f_equal. apply IH; auto; [intros; apply H1; right; auto|]. eapply Permutation_cons_inv; eauto.
  Qed.

  Lemma run_distinct regs h l : new_registers empty_heap regs = (h, Ok l) -> (forall r, In r regs -> 0 < fst r) ->
    forall ev (c : cache K) args fs strict order, enum_ok ev -> NoDup args -> (forall i, In i args -> (i < length regs)%nat) ->
      (forall i j, In i args -> In j args -> reg_id regs i = reg_id regs j -> i = j) -> by_id regs args order ->
      NoDup (map fst fs) -> incl (map fst fs) args -> (forall i v, In (i, v) fs -> zlen v = 2 ^ reg_width regs i) ->
      exists anns, run ev c h args (map (fun f => (FNode (fst f), FArr (snd f))) fs) strict SNone
        = (c, if strict && negb (forallb (fun q => mem q (map fst fs)) args) then Raise ValueError else Ok (map (fed_amp (all_width (reg_width regs) order) (side_by_side (reg_width regs) order fs))
                    (zrange 0 (2 ^ all_width (reg_width regs) order)), anns)).
  Proof.
    intros E Hp. destruct (run_registers regs Hp) as (h' & E' & _ & HR). rewrite E in E'. inversion E'; subst h' l.
    intros ev c args fs strict order He Hd Hlt Hi Ho Hfd Hfi Hv.
    destruct (HR ev c args fs strict He Hd Hlt Hfd Hfi Hv) as (order' & anns & Ho' & Er).
    rewrite (by_id_unique regs args order order' Hi Hd Ho Ho'). exists anns. exact Er.
  Qed.

  (** ** one register used twice *)
  Lemma nth_upd_eq {A} (l : list A) i v d : (i < length l)%nat -> nth i (upd l i v) d = v.
  Proof. revert i. induction l as [|a l IH]; intros [|i] Hi; cbn in *; try lia; auto. apply IH. lia. Qed.
  Lemma nth_upd_ne {A} (l : list A) i j v d : i <> j -> nth j (upd l i v) d = nth j l d.
  Proof. revert i j. induction l as [|a l IH]; intros [|i] [|j] Hi; cbn in *; auto; try congruence. Qed.
  Lemma upd_len {A} (l : list A) i v : length (upd l i v) = length l.
  Proof. revert i. induction l as [|a l IH]; intros [|i]; cbn; auto. Qed.
  Lemma clone h i q : (i < size h)%nat -> 0 < width h i -> nd_sink (nd h i) = [] ->
    exists h1, new_node h KQubit [i] None (Some q) false None = (h1, Ok (size h)) /\
      forall q', exists h2, new_node h1 KQubit [i] None (Some q') false None
        = (h2, if q =? q' then Ok (S (size h)) else Raise GenericException) /\
        (q = q' -> nd_sink (nd h2 i) = [size h; S (size h)] /\ inputs_of h2 (size h) = [i] /\ inputs_of h2 (S (size h)) = [i]).
  Proof.
    intros Hi Hw Hs. unfold size in *. unfold new_node. unfold sum_n. cbn [fold_left].
    change (nd_n (nd h i)) with (width h i). destruct (Z.leb_spec (0 + width h i) 0); [lia|]. cbn [sfold sbind].
    set (x := mkNode KQubit [i] (0 + width h i) q None []). set (h0 := mkHeap (h_nodes h ++ [x]) (h_qid h)).
    assert (Hni : nd h0 i = nd h i) by (unfold nd, h0; cbn [h_nodes]; apply app_nth1; auto).
    assert (Hnx : nd h0 (size h) = x) by (unfold nd, h0, size; cbn [h_nodes]; rewrite app_nth2, Nat.sub_diag by lia; reflexivity).
    unfold set_sink at 1. change (length (h_nodes h)) with (size h). rewrite Hnx. cbn [x nd_kind is_qubit]. rewrite Hni, Hs. cbn [sbind].
    eexists. split; [reflexivity|]. intros q'.
    set (h1 := add_sink h0 i (size h)).
    assert (L1 : length (h_nodes h1) = S (size h)).
    { unfold h1, add_sink. cbn [h_nodes]. rewrite upd_len. unfold h0. cbn [h_nodes]. rewrite app_length. cbn. unfold size. lia. }
    assert (N1 : nd h1 i = mkNode (nd_kind (nd h i)) (nd_inputs (nd h i)) (nd_n (nd h i)) (nd_qid (nd h i)) (nd_default (nd h i)) [size h]).
    { unfold h1, add_sink, nd at 1. cbn [h_nodes]. rewrite nth_upd_eq by (unfold h0; cbn [h_nodes]; rewrite app_length; lia).
      rewrite Hni, Hs. reflexivity. }
    assert (X1 : nd h1 (size h) = x).
    { unfold h1, add_sink, nd at 1. cbn [h_nodes]. rewrite nth_upd_ne by (unfold size; lia). exact Hnx. }
    change (nd_n (nd h1 i)) with (width h1 i). unfold width at 1 2. rewrite N1. cbn [nd_n]. change (nd_n (nd h i)) with (width h i).
    destruct (Z.leb_spec (0 + width h i) 0); [lia|]. cbn [sfold sbind].
    rewrite !(L1 : size h1 = S (size h)). set (y := mkNode KQubit [i] (0 + width h i) q' None []).
    set (h2 := mkHeap (h_nodes h1 ++ [y]) (h_qid h1)).
    assert (N2 : nd h2 i = nd h1 i) by (unfold nd, h2; cbn [h_nodes]; apply app_nth1; rewrite L1; unfold size; lia).
    assert (X2 : nd h2 (size h) = x) by (rewrite <- X1; unfold nd, h2; cbn [h_nodes]; apply app_nth1; rewrite L1; lia).
    assert (Y2 : nd h2 (S (size h)) = y) by (unfold nd, h2; cbn [h_nodes]; rewrite <- L1, app_nth2, Nat.sub_diag by lia; reflexivity).
    unfold set_sink. rewrite Y2. cbn [y nd_kind is_qubit]. rewrite N2, N1. cbn [nd_sink]. rewrite X2. cbn [x y nd_qid].
    destruct (Z.eqb_spec q q') as [<-|Hne]; cbn [sbind].
    - eexists. split; [reflexivity|]. intros _. unfold inputs_of.
      assert (Li : (i < length (h_nodes h2))%nat) by (unfold h2; cbn [h_nodes]; rewrite app_length, L1; unfold size; lia).
      unfold add_sink, nd at 1. cbn [h_nodes]. rewrite nth_upd_eq by auto. rewrite N2, N1. cbn [nd_sink app].
      split; auto. split; unfold nd at 1; cbn [h_nodes]; rewrite nth_upd_ne by (unfold size; lia).
      + change (nth (size h) (h_nodes h2) _) with (nd h2 (size h)). rewrite X2. reflexivity.
      + change (nth (S (size h)) (h_nodes h2) _) with (nd h2 (S (size h))). rewrite Y2. reflexivity.
    - eexists. split; [reflexivity|]. intros; contradiction.
  Qed.
End ForcedLemmas.
