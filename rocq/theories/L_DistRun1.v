(** Circuits on the distributed backend: the messages of a run. *)
From Coq Require Import Sorted.
From Verif Require Import Base M_Bits S_Bits L_Bits M_Kron S_Kron M_Ops S_Ops M_Feed S_Feed L_Feed M_Measure S_Measure M_Pool M_Net M_Worker M_Proto S_Proto L_Proto M_Client
  M_Graph S_Graph L_Graph1 L_Graph2 L_Graph3 L_Graph4 L_Graph5 L_Graph6 M_DistRun S_DistRun.

Section Messages.
  Context {K : Type} {OK : OrdRing K}.
  Notation C := (Cx K).

  Lemma skipn_add {A} (a b : nat) : forall l : list A, skipn (a + b) l = skipn b (skipn a l).
  Proof. induction a as [|a IH]; intros l; [reflexivity|]. destruct l; cbn; [destruct b; reflexivity|apply IH]. Qed.

  (** run begins with [prepare] *)
  Lemma run_prepare (ev : M_Graph.env K) c h args feed strict state : run ev c h args feed strict state =
    match prepare ev h args feed strict state with
    | Raise e => (c, Raise e)
    | Ok (frontier, graphnodes, n, groups, states) =>
        match make_state (M_Graph.e_junk ev) n groups states None None None None with
        | Raise e => (c, Raise e)
        | Ok b => match run_graph (node_feed ev h) h frontier graphnodes (mkAcc b (fold_left (fun s f => s + nd_n (nd h f)) frontier 0) [] c) with
                  | (a, Raise e) => (a_cache a, Raise e)
                  | (a, Ok _) => (a_cache a, Ok (bk_state (a_back a), a_cm a))
                  end
        end
    end.
  Proof.
    unfold run, prepare. cbv zeta. destruct (get_deps ev h args) as [[fr gn]|e]; cbn [bind]; [|reflexivity].
    destruct (strict && _); [reflexivity|]. destruct (assign_indices h _) as [qb n].
    destruct (mmap _ _) as [gs|e]; cbn [bind]; [|reflexivity]. destruct (truthy state) as [[|]|e]; cbn [bind]; reflexivity.
  Qed.

  Section Circuit.
    Variables (h : heap K) (vis args : list nat) (srcs ord : list nat).
    Hypothesis W : wf h vis.
    Hypothesis Hargs : incl args vis.
    Hypothesis Hsplit : forall i idx k, ancestor h args i -> nd_kind (nd h i) = KSplit idx -> inputs_of h i <> [] -> In k idx -> 0 <= k < widths h (inputs_of h i).
    Hypothesis Hsrcs : sources h args srcs.
    Hypothesis Hord : StronglySorted lt ord.
    Hypothesis HordIn : forall i, In i ord <-> ancestor h args i.
    Variable ev : M_Graph.env K.
    Hypothesis Henum : enum_ok ev.
    Notation w := (wire h srcs).
    Notation n := (widths h srcs).

    (** what run does before it makes the state *)
    Lemma prepare_ok feed strict state init : initial h srcs n feed state init -> (strict = true -> incl srcs (fed_nodes feed)) ->
      exists fr gn fs, prepare ev h args feed strict state = Ok (fr, gn, n, fed_groups fs, fed_list fs) /\ Permutation fs init /\ feeds_ok n fs /\
        forall A (feed : A -> nat -> list (list Z) -> st A unit) a, run_graph feed h fr gn a = sfold (fun a i => feed a i (map w (inputs_of h i))) ord a.
    Proof.
      intros HI Hst. destruct (initial_keys h srcs _ _ _ HI) as [Hkd Hfi].
      destruct (graph_trace h vis args srcs ord W Hargs Hsplit Hsrcs Hord HordIn ev Henum) as (fr & gn & Ed & Pf & Es & Hrun).
      pose proof (n_nonneg h vis args srcs W Hargs Hsrcs) as Hn.
      assert (Hnd : NoDup srcs) by (apply sorted_lt_NoDup, Hsrcs).
      assert (Hs : strict && negb (forallb (fun q => mem q (fed_nodes feed)) srcs) = false).
      { destruct strict; auto. cbn. apply negb_false_iff, forallb_forall. intros q Hq. apply mem_In, Hst; auto. }
      unfold prepare. rewrite normal_feed by auto. rewrite map_map. cbn [fst].
      change (concat (map (fun x => key_nodes (fst x)) feed)) with (fed_nodes feed).
      rewrite Ed. cbn [bind]. rewrite Es, Hs.
      assert (Nf : NoDup fr) by (eapply Permutation_NoDup; [symmetry; exact Pf|auto]).
      rewrite add_defaults_ok; auto.
      2:{ intros q Hq Hnf Hx. apply Hnf. unfold fed_nodes. rewrite map_map in Hx. cbn [fst] in Hx. apply in_concat. exists [q]. split; auto. left; auto. }
      destruct (assign_ok h srcs Hnd) as (qb & Ea & Hqb). rewrite Ea.
      assert (Sa : forall q, In q srcs -> ancestor h args q) by (intros q Hq; apply (proj2 Hsrcs) in Hq; tauto).
      assert (Hget : forall q, In q srcs -> odict_get qb q = Ok (w q)).
      { intros q Hq. rewrite wire_eq; [|apply (wf_base _ _ W)|eapply anc_size; eauto].
        destruct (proj1 (proj2 Hsrcs q) Hq) as [_ ->]. apply in_split in Hq. destruct Hq as (l1 & l2 & E2).
        rewrite (Hqb _ _ _ E2). f_equal. symmetry. eapply src_wire_eq; eauto. }
      set (dict := map (fun kv => (key_nodes (fst kv), snd kv)) feed ++ concat (map (dflt h (fed_nodes feed)) fr)).
      assert (Hkeys : forall k v q, In (k, v) dict -> In q k -> In q srcs).
      { intros k v q Hi Hq. apply in_app_iff in Hi. destruct Hi as [Hi|Hi].
        - apply in_map_iff in Hi. destruct Hi as (kv & E & Hi). inversion E; subst. apply Hfi. unfold fed_nodes. apply in_concat.
          exists (key_nodes (fst kv)). split; auto. apply in_map_iff. eauto.
        - apply in_concat in Hi. destruct Hi as (l & Hl & Hi). apply in_map_iff in Hl. destruct Hl as (q' & <- & Hq').
          unfold dflt in Hi. destruct (mem q' (fed_nodes feed)); [destruct Hi|]. destruct (default_amps h q'); [|destruct Hi].
          destruct Hi as [E|[]]. inversion E; subst. destruct Hq as [->|[]]. eapply Permutation_in; eauto. }
      rewrite (mmap_ok _ (fun kv => concat (map w (fst kv))) dict).
      2:{ intros [k v] Hi. rewrite (mmap_ok _ w k); auto. intros q Hq. apply Hget. eapply Hkeys; eauto. }
      cbn [bind]. destruct HI as [init (_ & _ & fs & ds & Hfs & Hds & -> & Hfo)|l _ _ Hl].
      - cbn [truthy bind]. destruct (fed_regs_eq h vis args srcs W Hargs Hsplit Hsrcs feed fs Hfi Hfs) as (_ & E1 & E2).
        apply (default_regs_eq h vis args srcs W Hargs Hsplit Hsrcs) in Hds; [|apply incl_refl]. subst ds.
        destruct (dflt_groups h srcs (fed_nodes feed) fr) as [E3 E4].
        set (fs' := fs ++ concat (map (dreg h srcs (fed_nodes feed)) fr)).
        assert (Pm : Permutation fs' (fs ++ concat (map (dreg h srcs (fed_nodes feed)) srcs))).
        { apply Permutation_app_head, concat_map_perm. auto. }
        exists srcs, gn, fs'. split; [|split; [exact Pm|split; [eapply feeds_ok_perm; [symmetry; exact Pm|auto]|intros; apply Hrun, Permutation_refl]]].
        f_equal. unfold dict, fs', fed_groups, fed_list. f_equal; [f_equal|].
        + rewrite map_app. unfold fgroups in E1, E3. rewrite map_app. f_equal; auto.
        + rewrite !map_app. f_equal; auto.
      - assert (Hlne : exists x l', l = x :: l').
        { destruct l; [|eauto]. change (zlen []) with 0 in Hl. pose proof (Z.pow_pos_nonneg 2 n ltac:(lia) Hn). lia. }
        destruct Hlne as (x & l' & ->). cbn [truthy bind state_feed]. exists srcs, gn, [(zrange 0 n, x :: l')].
        split; [reflexivity|]. split; [apply Permutation_refl|]. split; [|intros; apply Hrun, Permutation_refl]. split.
        + cbn [map concat fst]. rewrite app_nil_r. split; [apply zrange_nodup|]. intros q Hq. apply in_zrange in Hq. auto.
        + intros g a [E|[]]. inversion E; subst. rewrite zlen_zrange by lia. rewrite Z.sub_0_r. auto.
    Qed.

    (** ** the operations *)
    Hypothesis Hok : circuit_ok h args srcs n.
    Notation gsof := (fun i => map w (inputs_of h i)).
    (** what a node asks the backend for *)
    Definition node_ops (i : nat) : list (wop K) :=
      match nd_kind (nd h i) with
      | KMat o d => match op_ms (op_eff o d) false (gsof i) with Ok ms => [OKron ms] | Raise _ => [] end
      | KMeasure => [OMeasure (mkMeasure (concat (gsof i)) None false false 0)]
      | _ => []
      end.
    Definition ops_of (todo : list nat) : list (wop K) := concat (map node_ops todo).
    Definition op_wire (op : wop K) : list (wmsg K) := match encode_op op with Ok m => [m] | Raise _ => [] end.
    Definition sent_of (todo : list nat) : list (wmsg K) := concat (map op_wire (ops_of todo)).
    (** what the nodes report when the manager answers *)
    Definition told (r : mresult K) : cval K := match r with Some (inl (m, p)) => CMeas m p | _ => CMeas 0 0%r end.
    Fixpoint answered (todo : list nat) (ans : list (mresult K)) : list (nat * cval K) :=
      match todo with
      | [] => []
      | i :: todo =>
          match nd_kind (nd h i) with
          | KMat _ _ => (i, CZero) :: answered todo (tl ans)
          | KMeasure => (i, told (hd None ans)) :: answered todo (tl ans)
          | _ => (i, CZero) :: answered todo ans
          end
      end.
    (** the caches afterwards *)
    Definition cache_after (c : cache K) (i : nat) : cache K :=
      match nd_kind (nd h i) with KMat o d => fst (op_mats c i o d (gsof i)) | _ => c end.

    Hypothesis Hsend : sendable h args.
    Hypothesis Hbound : n < 2 ^ 31.
    Lemma qubits_int32 i : ancestor h args i -> indices_to_pbindices (concat (gsof i)) = Ok (concat (gsof i)).
    Proof.
      intros Hi. unfold indices_to_pbindices. rewrite (mmap_ok _ (fun q => q)); [rewrite map_id; reflexivity|].
      intros q Hq. pose proof (in_range h vis args srcs W Hargs Hsplit Hsrcs i Hi q Hq). unfold int32.
      destruct (Z.leb_spec (- 2 ^ 31) q); [|lia]. destruct (Z.ltb_spec q (2 ^ 31)); [reflexivity|lia].
    Qed.
    Lemma node_op_wire i : ancestor h args i -> forall op, In op (node_ops i) -> exists m, encode_op op = Ok m /\ decode_op m = Ok op.
    Proof.
      intros Hi op Hop. unfold node_ops in Hop. pose proof (Hsend i Hi) as Hs. destruct (nd_kind (nd h i)) as [|ix|o d|f| |k] eqn:Ek; try (destruct Hop; fail).
      - destruct (op_ms_eff h vis args srcs W Hargs Hsplit Hsrcs Hok i o d Hi Ek) as (_ & _ & Hf & ms' & _ & E2 & _).
        rewrite E2 in Hop. destruct Hop as [<-|[]].
        destruct (a_qubits_ok h vis args srcs W Hargs Hsplit Hsrcs Hok i Hi) as [Hq _]; [congruence|intros l; congruence|].
        destruct (ops_on_wire n (op_eff o d) false (gsof i) ms') as (msg & M1 & M2); auto.
        + split; auto. eapply n_nonneg; eauto.
        + destruct d; cbn [op_eff]; auto. destruct o; cbn in *; congruence.
        + exists (WKron msg). cbn [encode_op decode_op]. rewrite M1, M2. split; reflexivity.
      - destruct Hop as [<-|[]]. cbn [encode_op m_indices]. rewrite (qubits_int32 i Hi). cbn [bind]. eexists. split; [reflexivity|]. reflexivity.
    Qed.
    Lemma ops_wire_ok todo : incl todo ord -> mmap decode_op (sent_of todo) = Ok (ops_of todo) /\ length (sent_of todo) = length (ops_of todo).
    Proof.
      intros Hi. unfold sent_of.
      assert (H : forall op, In op (ops_of todo) -> exists m, encode_op op = Ok m /\ decode_op m = Ok op).
      { intros op Hop. unfold ops_of in Hop. apply in_concat in Hop. destruct Hop as (l & Hl & Hop). apply in_map_iff in Hl. destruct Hl as (i & <- & Hin).
        apply (node_op_wire i); auto. apply HordIn, Hi. auto. }
      induction (ops_of todo) as [|op l IH]; cbn [map concat]; [auto|].
      destruct (H op (or_introl eq_refl)) as (m & E1 & E2). destruct IH as (I1 & I2); [intros; apply H; right; auto|].
      unfold op_wire at 1 3. rewrite E1. cbn [app mmap length]. rewrite E2. cbn [bind]. rewrite I1. cbn [bind]. auto.
    Qed.

    Notation dstep := (fun a i => dist_feed h a i (map w (inputs_of h i))).
    Lemma dist_node i a : ancestor h args i -> cache_valid h args srcs (d_cache a) -> ~ In i (map fst (d_cm a)) ->
      (length (node_ops i) <= length (d_answers a))%nat ->
      cache_valid h args srcs (cache_after (d_cache a) i) /\
      dstep a i = (mkDacc (d_sent a ++ concat (map op_wire (node_ops i))) (skipn (length (node_ops i)) (d_answers a))
                     (d_cm a ++ answered [i] (d_answers a)) (cache_after (d_cache a) i), Ok tt).
    Proof.
      intros Hi Hc Hf Hl. pose proof (Hsend i Hi) as Hs. pose proof (node_op_wire i Hi) as Hw.
      unfold dist_feed, node_ops, cache_after, answered in *. destruct (nd_kind (nd h i)) as [|ix|o d|f| |k] eqn:Ek; try contradiction.
      - split; auto. cbn [map concat skipn length]. rewrite app_nil_r, odict_set_fresh by auto. reflexivity.
      - split; auto. cbn [map concat skipn length]. rewrite app_nil_r, odict_set_fresh by auto. reflexivity.
      - destruct (op_mats_ok' h vis args srcs W Hargs Hsplit Hsrcs Hok (d_cache a) i o d Hc Hi Ek) as (c' & ms & Em & Hc' & E2).
        rewrite Em, E2 in *. cbn [fst]. split; auto. destruct (Hw _ (or_introl eq_refl)) as (m & M1 & _).
        cbn [map concat length] in *. unfold op_wire. rewrite M1. unfold dist_call. cbn [request bind]. rewrite M1.
        unfold talk. cbn [d_answers d_sent d_cm d_cache]. destruct (d_answers a) as [|r rs] eqn:Ea; [cbn in Hl; lia|].
        cbn [sbind d_answers d_sent d_cm d_cache skipn]. rewrite app_nil_r, odict_set_fresh by auto. reflexivity.
      - destruct (Hw _ (or_introl eq_refl)) as (m & M1 & _). split; auto.
        cbn [map concat length] in *. unfold op_wire. rewrite M1. unfold dist_call. cbn [request bind]. rewrite M1.
        unfold talk. destruct (d_answers a) as [|r rs] eqn:Ea; [cbn in Hl; lia|].
        cbn [sbind d_answers d_sent d_cm d_cache skipn hd response]. rewrite app_nil_r. rewrite odict_set_fresh by auto.
        destruct r as [[[m0 p0]|[[x y] z]]|]; reflexivity.
    Qed.
    Lemma answered_cons i todo ans : ancestor h args i -> answered (i :: todo) ans = answered [i] ans ++ answered todo (skipn (length (node_ops i)) ans).
    Proof.
      intros Hi. cbn [answered]. unfold node_ops. destruct (nd_kind (nd h i)) as [|ix|o d|f| |k] eqn:Ek; try reflexivity.
      - destruct (op_ms_eff h vis args srcs W Hargs Hsplit Hsrcs Hok i o d Hi Ek) as (_ & _ & _ & ms & _ & E & _). rewrite E. destruct ans; reflexivity.
    Qed.
    Lemma answered_keys todo : forall ans, map fst (answered todo ans) = todo.
    Proof. induction todo as [|i todo IH]; intros ans; cbn [answered]; [reflexivity|]. destruct (nd_kind (nd h i)); cbn [map fst]; rewrite IH; reflexivity. Qed.

    (** all nodes *)
    Lemma dist_fold : forall todo a, NoDup todo -> incl todo ord -> cache_valid h args srcs (d_cache a) -> (forall i, In i todo -> ~ In i (map fst (d_cm a))) ->
      (length (ops_of todo) <= length (d_answers a))%nat ->
      sfold dstep todo a = (mkDacc (d_sent a ++ sent_of todo) (skipn (length (ops_of todo)) (d_answers a))
        (d_cm a ++ answered todo (d_answers a)) (fold_left cache_after todo (d_cache a)), Ok tt).
    Proof.
      induction todo as [|i todo IH]; intros a Hd Hi Hc Hf Hl; cbn [sfold].
      - cbn. rewrite !app_nil_r. destruct a; reflexivity.
      - assert (Hai : ancestor h args i) by (apply HordIn, Hi; left; auto). inversion Hd as [|x y Hni Hd']; subst.
        assert (Eo : ops_of (i :: todo) = node_ops i ++ ops_of todo) by reflexivity. rewrite Eo, app_length in Hl.
        destruct (dist_node i a Hai Hc) as (Hc1 & ->); [apply Hf; left; auto|lia|]. cbn [sbind].
        rewrite IH; auto; cbn [d_sent d_answers d_cm d_cache].
        + assert (Es : sent_of (i :: todo) = concat (map op_wire (node_ops i)) ++ sent_of todo) by (unfold sent_of; rewrite Eo, map_app, concat_app; reflexivity).
          rewrite Es, Eo, app_length, (answered_cons i todo), !app_assoc by auto. cbn [fold_left].
          f_equal. f_equal. rewrite skipn_add. reflexivity.
        + intros x Hx. apply Hi. right; auto.
        + intros x Hx Hin. rewrite map_app, in_app_iff, answered_keys in Hin. destruct Hin as [Hin|[<-|[]]]; auto. apply (Hf x); auto. right; auto.
        + rewrite skipn_length. lia.
    Qed.

    (** the whole run *)
    Lemma dist_ok job c feed strict state init : initial h srcs n feed state init -> (strict = true -> incl srcs (fed_nodes feed)) -> cache_valid h args srcs c ->
      exists setup fs, Permutation fs init /\ feeds_ok n fs /\ decode_states setup = Ok (fed_groups fs, fed_list fs) /\
        forall answers, (length (ops_of ord) <= length answers)%nat ->
        dist_run job ev c h args feed strict state answers
        = mkOut (Some (n, setup)) (sent_of ord) (fold_left cache_after ord c) (Ok (job, answered ord answers)).
    Proof.
      intros HI Hst Hc. destruct (prepare_ok feed strict state init HI Hst) as (fr & gn & fs & Ep & Pm & Hfo & Hrun).
      destruct (states_ok (fed_groups fs) (fed_list fs)) as (setup & S1 & S2).
      { unfold fed_groups, fed_list. rewrite !map_length. reflexivity. }
      { intros g q Hg Hq. destruct Hfo as [[_ Hr] _]. assert (Hin : In q (concat (map fst fs))) by (apply in_concat; exists g; auto).
        apply Hr in Hin. unfold is_int32. lia. }
      { intros f Hf. unfold fed_list in Hf. apply in_map_iff in Hf. destruct Hf as (x & <- & _). exact I. }
      exists setup, fs. split; auto. split; auto. split; auto. intros answers Hl. unfold dist_run. rewrite Ep, S1, Hrun.
      rewrite dist_fold; cbn [d_sent d_answers d_cm d_cache app]; auto.
      - apply sorted_lt_NoDup; auto.
      - apply incl_refl.
    Qed.
  End Circuit.
End Messages.
