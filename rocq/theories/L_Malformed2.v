(** run with lists of any length and qubits that are fed more than once. *)
From Coq Require Import Sorted.
From Verif Require Import Base S_Bits L_Bits M_Kron S_Kron M_Ops S_Ops M_Feed S_Feed L_Feed L_Feed2 L_Alg M_Graph S_Graph
  L_Graph1 L_Graph2 L_Graph3 L_Graph4 L_Graph5 L_Graph6 L_Graph7 L_Graph8 L_Graph11 S_Malformed L_Malformed1.

Section MalformedRun.
  Context {K : Type} {OK : OrdRing K}.
  Notation C := (Cx K).
  Add Ring KRingMal2 : (@rth (Cx K) _).

  (** ** the order of the registers set by defaults does not matter *)
  Lemma digits_ext n x g : forall l l', (forall q, In q l <-> In q l') -> digits n x g l = digits n x g l'.
  Proof.
    induction g as [|q g IH]; intros l l' H; cbn [digits]; auto. rewrite (IH l l') by auto. f_equal. f_equal.
    destruct (existsb (Z.eqb q) (g ++ l)) eqn:E, (existsb (Z.eqb q) (g ++ l')) eqn:E'; auto; exfalso.
    - apply existsb_in in E. apply existsb_out in E'. apply E', in_or_app. apply in_app_or in E. rewrite <- H. auto.
    - apply existsb_out in E. apply existsb_in in E'. apply E, in_or_app. apply in_app_or in E'. rewrite H. auto.
  Qed.
  Lemma digits_nodup n x g : forall l, NoDup g -> (forall q, In q g -> ~ In q l) -> digits n x g l = map (qbit n x) g.
  Proof.
    induction g as [|q g IH]; intros l Hd Hl; cbn [digits map]; auto. inversion Hd as [|? ? Hq Hd']; subst.
    rewrite IH by (auto; intros; apply Hl; right; auto). rewrite (proj2 (existsb_out q (g ++ l))); auto.
    intros Hi. apply in_app_or in Hi. destruct Hi as [Hi|Hi]; [tauto|]. eapply Hl; [left|]; eauto.
  Qed.
  Lemma factors_nodup n x (fs : list (list Z * list C)) : NoDup (concat (map fst fs)) ->
    factors n fs x = prod fs (fun f => znth 0%r (snd f) (reg n (fst f) x)).
  Proof.
    induction fs as [|[g a] fs IH]; intros Hd; cbn [factors prod map fst snd concat] in *; auto.
    apply NoDup_app_inv in Hd. destruct Hd as (H1 & H2 & H3). rewrite IH by auto. rewrite digits_nodup by auto. reflexivity.
  Qed.
  Lemma factors_tail n x (fs ds ds' : list (list Z * list C)) : (forall q, In q (concat (map fst ds)) <-> In q (concat (map fst ds'))) ->
    factors n ds x = factors n ds' x -> factors n (fs ++ ds) x = factors n (fs ++ ds') x.
  Proof.
    intros H E. induction fs as [|[g a] fs IH]; cbn [app factors]; auto. rewrite IH. f_equal. f_equal. f_equal.
    apply digits_ext. intros q. rewrite !map_app, !concat_app, !in_app_iff, H. tauto.
  Qed.
  Lemma loose_perm n x (fs ds ds' : list (list Z * list C)) : Permutation ds ds' -> NoDup (concat (map fst ds)) ->
    loose_amp n (fs ++ ds) x = loose_amp n (fs ++ ds') x.
  Proof.
    intros P Hd. assert (Pc : Permutation (concat (map fst ds)) (concat (map fst ds'))) by (apply concat_map_perm; auto).
    assert (Hd' : NoDup (concat (map fst ds'))) by (eapply Permutation_NoDup; eauto).
    unfold loose_amp. rewrite (factors_tail n x fs ds ds').
    - rewrite (forallb_ext_in _ (fun q => existsb (Z.eqb q) (concat (map fst (fs ++ ds'))) || negb (qbit n x q))); auto.
      intros q _. f_equal. apply existsb_perm. apply concat_map_perm. apply Permutation_app_head. auto.
    - intros q. split; apply Permutation_in; auto. symmetry. auto.
    - rewrite !factors_nodup by auto. apply prod_perm. auto.
  Qed.
  Lemma loose_nodup n x (fs : list (list Z * list C)) : NoDup (concat (map fst fs)) -> loose_amp n fs x = fed_amp n fs x.
  Proof. intros Hd. unfold loose_amp, fed_amp. rewrite factors_nodup by auto. reflexivity. Qed.
  Lemma too_short_perm (fs fs' : list (list Z * list C)) : Permutation fs fs' -> too_short fs -> too_short fs'.
  Proof. intros P (g & a & Hi & H). exists g, a. split; auto. eapply Permutation_in; eauto. Qed.
  Lemma too_short_dec (fs : list (list Z * list C)) : too_short fs \/ ~ too_short fs.
  Proof.
    induction fs as [|[g a] fs IH]; [right; intros (g & a & [] & _)|].
    destruct (Z_lt_dec (zlen a) (2 ^ zlen g)) as [H|H]; [left; exists g, a; split; [left|]; auto|].
    destruct IH as [(g' & a' & Hi & H')|IH]; [left; exists g', a'; split; [right|]; auto|].
    right. intros (g' & a' & [E|Hi] & H'); [congruence|]. apply IH. exists g', a'. auto.
  Qed.

  (** ** a qubit fed twice *)
  Lemma digit_pos n x g : forall l q, In q g -> In q l -> 0 < val (digits n x g l).
  Proof.
    induction g as [|y g IH]; intros l q Hg Hl; [destruct Hg|]. cbn [digits]. rewrite val_cons.
    pose proof (Z.pow_pos_nonneg 2 (zlen (digits n x g l)) ltac:(lia) (zlen_nonneg _)). pose proof (val_range (digits n x g l)).
    destruct Hg as [->|Hg].
    - rewrite (proj2 (existsb_in q (g ++ l))) by (apply in_or_app; auto). cbn [orb Z.b2z]. lia.
    - specialize (IH l q Hg Hl). destruct (_ || _); cbn [Z.b2z]; lia.
  Qed.
  Lemma factors_zero n x (l1 l2 : list (list Z * list C)) g a q : In q g -> In q (concat (map fst l2)) ->
    (forall i, 0 < i -> znth 0%r a i = 0%r) -> factors n (l1 ++ (g, a) :: l2) x = 0%r.
  Proof.
    intros Hg Hq Ha. induction l1 as [|[g' a'] l1 IH]; cbn [app factors].
    - rewrite Ha by (eapply digit_pos; eauto). ring.
    - rewrite IH. ring.
  Qed.

  Section Runs.
    Variables (h : heap K) (vis args : list nat) (srcs ord : list nat).
    Hypothesis W : wf h vis.
    Hypothesis Hargs : incl args vis.
    Hypothesis Hsplit : forall i idx k, ancestor h args i -> nd_kind (nd h i) = KSplit idx -> inputs_of h i <> [] ->
      In k idx -> 0 <= k < widths h (inputs_of h i).
    Hypothesis Hsrcs : sources h args srcs.
    Hypothesis Hord : StronglySorted lt ord.
    Hypothesis HordIn : forall i, In i ord <-> ancestor h args i.
    Variable ev : env K.
    Hypothesis Henum : enum_ok ev.
    Notation w := (wire h srcs).
    Notation n := (widths h srcs).

    Lemma src_wires : forall l pre, srcs = pre ++ l -> concat (map w l) = zrange (widths h pre) (widths h pre + widths h l).
    Proof.
      induction l as [|i l IH]; intros pre E.
      - cbn. rewrite zrange_empty; auto. lia.
      - assert (Hi : In i srcs) by (rewrite E; apply in_elt).
        assert (Hin : forall j, In j (i :: l) -> 0 <= width h j).
        { intros j Hj. eapply src_nonneg; eauto. rewrite E. apply in_or_app. auto. }
        assert (0 <= widths h l) by (apply widths_nonneg; intros; apply Hin; right; auto). pose proof (Hin i (or_introl eq_refl)).
        cbn [map concat]. rewrite (IH (pre ++ [i])) by (rewrite <- app_assoc; auto).
        assert (Ew : widths h (pre ++ [i]) = widths h pre + width h i).
        { clear. induction pre as [|a pre IH]; [cbn; lia|]. cbn [app]. rewrite !widths_cons, IH. lia. }
        rewrite widths_cons, Ew. rewrite (zrange_app (widths h pre) (widths h pre + width h i)) by lia. f_equal.
        + rewrite wire_eq; [|apply (wf_base _ _ W)|eapply anc_size; eauto; eapply src_anc; eauto].
          destruct (proj1 (proj2 Hsrcs i) Hi) as [_ ->]. eapply src_wire_eq; eauto. eapply srcs_nd; eauto.
        + f_equal. lia.
    Qed.
    Lemma dreg_nodup fed l : NoDup (concat (map w l)) -> NoDup (concat (map fst (concat (map (dreg h srcs fed) l)))) /\
      incl (concat (map fst (concat (map (dreg h srcs fed) l)))) (concat (map w l)).
    Proof.
      induction l as [|i l IH]; intros Hd; cbn [map concat] in *; [split; [constructor|intros x []]|].
      apply NoDup_app_inv in Hd. destruct Hd as (H1 & H2 & H3). destruct (IH H2) as [I1 I2].
      rewrite map_app, concat_app. unfold dreg at 1 3. destruct (mem i fed); [|destruct (default_amps h i)]; cbn [map concat app fst].
      1, 3: split; auto; intros x Hx; apply in_or_app; right; auto.
      rewrite app_nil_r. split.
      - apply L_Graph3.NoDup_app_intro; auto. intros x Hx Hw. exact (H3 x Hw (I2 x Hx)).
      - intros x Hx. apply in_app_or in Hx. apply in_or_app. destruct Hx; auto.
    Qed.

    Lemma start_loose feed fr init : Permutation fr srcs -> sets h srcs feed init ->
      (~ too_short init -> start h srcs ev feed fr SNone
        = Ok (mkBackend n (map (loose_amp n init) (zrange 0 (2 ^ n))) (map (e_junk ev) (zrange 0 (2 ^ n))))) /\
      (too_short init -> start h srcs ev feed fr SNone = Raise IndexError).
    Proof.
      intros Pf (Hkd & Hfi & fs & ds & Hfs & Hds & ->). pose proof (n_nonneg h vis args srcs W Hargs Hsrcs) as Hn. unfold start.
      cbn [truthy bind]. destruct (fed_regs_eq h vis args srcs W Hargs Hsplit Hsrcs feed fs Hfi Hfs) as (_ & E1 & E2).
      apply (default_regs_eq h vis args srcs W Hargs Hsplit Hsrcs) in Hds; [|apply incl_refl]. subst ds.
      destruct (dflt_groups h srcs (fed_nodes feed) fr) as [E3 E4].
      unfold fgroups in *. rewrite !map_app, E1, E2, E3, E4.
      set (ds := concat (map (dreg h srcs (fed_nodes feed)) srcs)). set (ds' := concat (map (dreg h srcs (fed_nodes feed)) fr)).
      assert (Pd : Permutation ds ds') by (apply concat_map_perm; symmetry; auto).
      replace (fed_groups fs ++ _) with (fed_groups (fs ++ ds')) by (unfold fed_groups; apply map_app).
      replace (fed_list fs ++ _) with (fed_list (fs ++ ds')) by (unfold fed_list; apply map_app).
      assert (Hwn : concat (map w srcs) = zrange 0 n) by (apply (src_wires srcs []); auto).
      assert (Hdr := dreg_nodup (fed_nodes feed) srcs). rewrite Hwn in Hdr. specialize (Hdr (zrange_nodup _ _)). fold ds in Hdr.
      destruct Hdr as [Hnd Hinc].
      assert (HF : forall q, In q (concat (map fst (fs ++ ds'))) -> 0 <= q < n).
      { intros q Hq. rewrite map_app, concat_app in Hq. apply in_app_or in Hq. destruct Hq as [Hq|Hq].
        - clear - Hfs Hfi Hq W Hargs Hsplit Hsrcs. induction Hfs as [|[k v] [g a] feed fs (Ev & gs & Hgs & Eg) HF IH]; [destruct Hq|].
          cbn [map fst concat snd] in *. apply in_app_or in Hq. destruct Hq as [Hq|Hq].
          + subst g. assert (Hk : incl (key_nodes k) srcs)
              by (intros i Hi; apply Hfi; unfold fed_nodes; cbn [map concat fst]; apply in_app_iff; auto).
            clear - Hgs Hk Hq W Hargs Hsplit Hsrcs. induction Hgs as [|i g l gs Hi Hgs IH]; [destruct Hq|]. cbn [concat] in Hq.
            apply in_app_or in Hq. destruct Hq as [Hq|Hq].
            * assert (Ha : ancestor h args i) by (apply (proj2 Hsrcs), Hk; left; auto).
              rewrite (wires_fun h vis args srcs W Hargs Hsplit Hsrcs i g Ha Hi) in Hq. eapply w_range; eauto.
            * apply IH; auto. intros x Hx. apply Hk. right; auto.
          + apply IH; auto. intros x Hx. apply Hfi. unfold fed_nodes. cbn [map concat]. apply in_app_iff. auto.
        - assert (Hx : In q (concat (map fst ds))).
          { eapply Permutation_in; [symmetry; apply concat_map_perm; exact Pd|exact Hq]. }
          apply Hinc, in_zrange in Hx. auto. }
      split.
      - intros Hs. assert (Hs' : ~ too_short (fs ++ ds')).
        { intros X. apply Hs. eapply too_short_perm; [|exact X]. apply Permutation_app_head. symmetry. auto. }
        rewrite (map_ext _ (loose_amp n (fs ++ ds'))) by (intros x; apply loose_perm; auto).
        assert (Hc : fs ++ ds' = [] \/ fs ++ ds' <> []) by (destruct (fs ++ ds'); [left|right]; [auto|discriminate]).
        destruct Hc as [Hc|Hne]; [|apply make_state_loose; auto].
        rewrite Hc. cbn [fed_groups fed_list map]. rewrite make_state_empty_full by auto. f_equal. f_equal.
        apply map_ext_in. intros x Hx. apply in_zrange in Hx. symmetry. etransitivity; [|apply fed_amp_nil; eauto].
        apply loose_nodup. constructor.
      - intros Hs. apply make_state_short; auto. eapply too_short_perm; [|exact Hs]. apply Permutation_app_head. auto.
    Qed.
    Lemma not_fed_false (feed : list (fkey * feed_t K)) : incl srcs (fed_nodes feed) -> not_fed srcs feed = false.
    Proof.
      intros H. unfold not_fed. apply negb_false_iff, forallb_forall. intros q Hq. apply mem_In, H, Hq.
    Qed.
    Lemma run_loose c feed strict init : sets h srcs feed init -> (strict = true -> incl srcs (fed_nodes feed)) ->
      (too_short init -> run ev c h args feed strict SNone = (c, Raise IndexError)) /\
      (~ too_short init -> run ev c h args feed strict SNone
         = run ev c h args [] false (SList (map (loose_amp n init) (zrange 0 (2 ^ n))))).
    Proof.
      intros HS Hst. assert (HS' := HS). destruct HS' as (Hkd & Hfi & _).
      assert (Es : strict && not_fed srcs feed = false).
      { destruct strict; auto. cbn [andb]. apply not_fed_false. auto. }
      destruct (run_start_n h vis args srcs ord W Hargs Hsplit Hsrcs Hord HordIn ev Henum c feed strict SNone Hkd Hfi) as (fr & Pf & Er).
      destruct (start_loose feed fr init Pf HS) as [S1 S2]. rewrite Er, Es. split; intros Hs.
      - rewrite S2 by auto. reflexivity.
      - rewrite S1 by auto. set (amps := map (loose_amp n init) (zrange 0 (2 ^ n))).
        pose proof (n_nonneg h vis args srcs W Hargs Hsrcs) as Hn. pose proof (Z.pow_pos_nonneg 2 n ltac:(lia) Hn) as Hp.
        destruct (run_start_n h vis args srcs ord W Hargs Hsplit Hsrcs Hord HordIn ev Henum c [] false (SList amps)) as (fr' & Pf' & Er').
        { constructor. } { intros x []. }
        rewrite Er'. cbn [andb].
        assert (Hl : zlen amps = 2 ^ n) by (unfold amps; rewrite zlen_map, zlen_zrange; lia).
        rewrite (start_ok h vis args srcs W Hargs Hsplit Hsrcs ev [] fr' (SList amps) [(zrange 0 n, amps)] Pf').
        2:{ apply initial_state; auto; [constructor|intros x []]. }
        replace (map (fed_amp n [(zrange 0 n, amps)]) (zrange 0 (2 ^ n))) with amps; [reflexivity|].
        unfold amps at 1. apply map_ext_in. intros x Hx. apply in_zrange in Hx. rewrite zrange_vec_amp by auto.
        unfold amps, amp. rewrite znth_map_zrange by lia. f_equal.
    Qed.
  End Runs.

  (** ** programs *)
  Lemma feed_loose h vis args srcs : built h vis -> incl args vis -> splits_in_range h vis -> sources h args srcs ->
    forall ev c feed strict init, enum_ok ev -> sets h srcs feed init -> (strict = true -> incl srcs (fed_nodes feed)) ->
    (too_short init -> run ev c h args feed strict SNone = (c, Raise IndexError)) /\
    (~ too_short init -> let n := widths h srcs in run ev c h args feed strict SNone
       = run ev c h args [] false (SList (map (loose_amp n init) (zrange 0 (2 ^ n))))).
  Proof.
    intros B Ha Hs Hsrc ev c feed strict init He HS Hst. pose proof (built_wf _ _ B) as W.
    destruct (ord_exists h vis args W Ha) as (ord & Ho & Hoi).
    apply (run_loose h vis args srcs ord W Ha (splits_anc h vis args W Ha Hs) Hsrc Ho Hoi ev He); auto.
  Qed.
  Lemma feed_short h vis args srcs : built h vis -> incl args vis -> splits_in_range h vis -> sources h args srcs ->
    forall ev c feed strict init, enum_ok ev -> sets h srcs feed init -> (strict = true -> incl srcs (fed_nodes feed)) ->
    too_short init -> run ev c h args feed strict SNone = (c, Raise IndexError).
  Proof. intros B Ha Hs Hsrc ev c feed strict init He HS Hst. apply (feed_loose h vis args srcs B Ha Hs Hsrc); auto. Qed.
  Lemma feed_twice h vis args srcs : built h vis -> incl args vis -> splits_in_range h vis -> sources h args srcs ->
    forall ev c feed strict init, enum_ok ev -> sets h srcs feed init -> (strict = true -> incl srcs (fed_nodes feed)) ->
    ~ too_short init -> let n := widths h srcs in
    run ev c h args feed strict SNone = run ev c h args [] false (SList (map (loose_amp n init) (zrange 0 (2 ^ n)))).
  Proof. intros B Ha Hs Hsrc ev c feed strict init He HS Hst. apply (feed_loose h vis args srcs B Ha Hs Hsrc); auto. Qed.
  Lemma feed_long h vis args srcs : built h vis -> incl args vis -> splits_in_range h vis -> sources h args srcs ->
    forall ev c feed strict init, enum_ok ev -> sets h srcs feed init -> (strict = true -> incl srcs (fed_nodes feed)) ->
    NoDup (concat (map fst init)) -> (forall g a, In (g, a) init -> 2 ^ zlen g <= zlen a) -> let n := widths h srcs in
    run ev c h args feed strict SNone = run ev c h args [] false (SList (map (fed_amp n init) (zrange 0 (2 ^ n)))).
  Proof.
    intros B Ha Hs Hsrc ev c feed strict init He HS Hst Hd Hl n.
    rewrite (feed_twice h vis args srcs B Ha Hs Hsrc ev c feed strict init He HS Hst).
    - f_equal. f_equal. apply map_ext. intros x. apply loose_nodup. auto.
    - intros (g & a & Hi & Hx). specialize (Hl g a Hi). lia.
  Qed.
  Lemma feed_zero h vis args srcs : built h vis -> incl args vis -> splits_in_range h vis -> sources h args srcs ->
    forall ev c feed strict init l1 g a l2 q, enum_ok ev -> sets h srcs feed init -> (strict = true -> incl srcs (fed_nodes feed)) ->
    ~ too_short init -> init = l1 ++ (g, a) :: l2 -> In q g -> In q (concat (map fst l2)) -> (forall i, 0 < i -> znth 0%r a i = 0%r) ->
    run ev c h args feed strict SNone = run ev c h args [] false (SList (map (fun _ => 0%r) (zrange 0 (2 ^ widths h srcs)))).
  Proof.
    intros B Ha Hs Hsrc ev c feed strict init l1 g a l2 q He HS Hst Hsh Ei Hg Hq Hz.
    rewrite (feed_twice h vis args srcs B Ha Hs Hsrc ev c feed strict init He HS Hst Hsh).
    f_equal. f_equal. apply map_ext. intros x. unfold loose_amp. subst init.
    destruct (forallb _ _); auto. eapply factors_zero; eauto.
  Qed.
  (** defaults: only python lists are checked *)
  Lemma default_list (h : heap K) n (l : list C) : zlen l <> 2 ^ n -> exec h (NewQubit (Some n) (Some (DList l))) = (h, Raise ValueError).
  Proof.
    intros Hl. cbn [exec]. unfold new_node. rewrite (proj2 (Z.eqb_neq _ _) Hl). reflexivity.
  Qed.
  Lemma default_array (h : heap K) n (l : list C) : 0 < n -> exists h',
    exec h (NewQubit (Some n) (Some (DArray l))) = (h', Ok [size h]) /\ width h' (size h) = n /\ default_amps h' (size h) = Some l.
  Proof.
    intros Hn. cbn [exec]. unfold new_node. destruct (Z.leb_spec n 0); [lia|]. cbn [sfold sbind].
    eexists. split; [reflexivity|]. unfold width, default_amps, nd, size. cbn [h_nodes]. rewrite app_nth2, Nat.sub_diag by lia. auto.
  Qed.
End MalformedRun.

(** ** one qubit as key and as group of one *)
Section SameKey.
  Context {K : Type} {OK : OrdRing K}.
  Lemma olist_neq (a b : list nat) : a <> b -> olist_eqb a b = false.
  Proof. intros H. destruct (olist_eqb a b) eqn:E; auto. apply olist_eqb_spec in E. contradiction. Qed.
  Lemma olist_same (a : list nat) : olist_eqb a a = true.
  Proof. apply olist_eqb_spec. reflexivity. Qed.
  Lemma tdict_again {V} (d : list (list nat * V)) k a b : tdict_set (tdict_set d k a) k b = tdict_set d k b.
  Proof.
    induction d as [|[k' v] d IH]; cbn [tdict_set]; [rewrite olist_same; auto|].
    destruct (olist_eqb k' k) eqn:E; cbn [tdict_set]; rewrite E; auto. rewrite IH. reflexivity.
  Qed.
  Lemma tdict_swap {V} (d : list (list nat * V)) k k' v b : k <> k' -> In k (map fst d) ->
    tdict_set (tdict_set d k' v) k b = tdict_set (tdict_set d k b) k' v.
  Proof.
    intros Hne. induction d as [|[x u] d IH]; cbn [map fst In]; [intros []|]. intros Hi. cbn [tdict_set].
    destruct (olist_eqb x k') eqn:E'; cbn [tdict_set].
    - apply olist_eqb_spec in E'. subst x. rewrite (olist_neq k' k) by auto. cbn [tdict_set]. rewrite olist_same. reflexivity.
    - destruct (olist_eqb x k) eqn:E; cbn [tdict_set]; rewrite E'; auto. rewrite IH; auto.
      destruct Hi as [->|Hi]; auto. rewrite olist_same in E. discriminate.
  Qed.
  Lemma tdict_has {V} (d : list (list nat * V)) k k' v : In k (map fst d) \/ k = k' -> In k (map fst (tdict_set d k' v)).
  Proof.
    induction d as [|[x u] d IH]; cbn [tdict_set map fst In]; [intros [[]| ->]; auto|].
    destruct (olist_eqb x k') eqn:E; cbn [map fst In]; [apply olist_eqb_spec in E; subst x; intros [?| ->]; auto|].
    intros [[?|?]|?]; auto.
  Qed.
  Let put := fun (d : list (list nat * feed_t K)) '((k, v) : fkey * feed_t K) => tdict_set d (fkey_tuple k) v.
  Lemma put_later f2 k b : ~ In k (map (fun kv => key_nodes (fst kv)) f2) -> forall d, In k (map fst d) ->
    tdict_set (fold_left put f2 d) k b = fold_left put f2 (tdict_set d k b).
  Proof.
    induction f2 as [|[k' v] f2 IH]; cbn [map fst In fold_left]; intros Hn d Hd; auto. unfold put at 2 4.
    rewrite IH; [|tauto|apply tdict_has; auto]. f_equal. apply tdict_swap; auto.
  Qed.
  Lemma same_key ev c (h : heap K) args f1 f2 f3 k1 k2 a b strict state : key_nodes k1 = key_nodes k2 ->
    ~ In (key_nodes k1) (map (fun kv => key_nodes (fst kv)) f2) ->
    run ev c h args (f1 ++ (k1, a) :: f2 ++ (k2, b) :: f3) strict state = run ev c h args (f1 ++ (k1, b) :: f2 ++ f3) strict state.
  Proof.
    intros Hk Hn.
    assert (E : fold_left put (f1 ++ (k1, a) :: f2 ++ (k2, b) :: f3) [] = fold_left put (f1 ++ (k1, b) :: f2 ++ f3) []).
    { rewrite !fold_left_app. cbn [fold_left]. rewrite !fold_left_app. cbn [fold_left]. f_equal. unfold put at 1 3 5.
      change (fkey_tuple k1) with (key_nodes k1). change (fkey_tuple k2) with (key_nodes k2). rewrite <- Hk.
      rewrite put_later; [|auto|apply tdict_has; auto]. rewrite tdict_again. reflexivity. }
    unfold put in E. unfold run. rewrite E. reflexivity.
  Qed.
End SameKey.
