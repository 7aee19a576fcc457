(** Statements about circuit graphs built by programs. *)
From Coq Require Import Sorted.
From Verif Require Import Base S_Bits L_Bits M_Kron S_Kron M_Ops S_Ops L_Ops4 M_Feed S_Feed L_Feed L_Feed2 M_Func S_Func L_Func L_Func2
  M_Measure S_Measure L_Alg M_Graph S_Graph L_Graph1 L_Graph2 L_Graph3 L_Graph4 L_Graph5 L_Graph6 L_Graph7 L_Graph8 L_Graph9 L_Graph10.

Section Top.
  Context {K : Type} {OK : OrdRing K}.
  Notation C := (Cx K).
  Add Ring CRing12 : (@rth C _).
  Implicit Types h : heap K.

  (** ** C28, C29 *)
  Lemma sorted_prefix l1 (i : nat) l2 j : StronglySorted lt (l1 ++ i :: l2) -> In j (l1 ++ i :: l2) -> (j < i)%nat -> In j l1.
  Proof.
    induction l1 as [|a l1 IH]; cbn [app In]; intros Hs Hj Hlt.
    - exfalso. inversion Hs as [|x l H1 H2]; subst. rewrite Forall_forall in H2. destruct Hj as [->|Hj]; [lia|apply H2 in Hj; lia].
    - inversion Hs; subst. destruct Hj as [->|Hj]; auto.
  Qed.
  Lemma run_trace h vis args : built h vis -> incl args vis -> splits_in_range h vis ->
    exists srcs order groups, sources h args srcs /\ StronglySorted lt order /\ (forall i, In i order <-> ancestor h args i) /\
      (forall l1 i l2, order = l1 ++ i :: l2 -> incl (inputs_of h i) l1) /\
      (forall i, In i order -> Forall2 (wires h srcs) (inputs_of h i) (groups i)) /\
      forall ev, enum_ok ev -> exists frontier graphnodes, get_deps ev h args = Ok (frontier, graphnodes) /\
        forall A (feed : A -> nat -> list (list Z) -> st A unit) a,
          run_graph feed h frontier graphnodes a = sfold (fun a i => feed a i (groups i)) order a.
  Proof.
    intros B Ha Hs. pose proof (built_wf _ _ B) as W. pose proof (splits_anc h vis args W Ha Hs) as Hsp.
    destruct (sources_exists h vis args W Ha) as (srcs & Hsrc). destruct (ord_exists h vis args W Ha) as (ord & Ho & Hoi).
    exists srcs, ord, (fun i => map (wire h srcs) (inputs_of h i)).
    split; auto. split; auto. split; auto. split.
    { intros l1 i l2 E j Hj. assert (Hi : ancestor h args i) by (apply Hoi; rewrite E; apply in_app_iff; right; left; auto).
      apply (sorted_prefix l1 i l2); rewrite <- ?E; auto.
      - apply Hoi. eapply anc_input; eauto.
      - eapply (wf_in h (wf_base _ _ W)); eauto. eapply anc_size; eauto. }
    split; [intros i Hi; eapply a_inputs; eauto; apply Hoi; auto|].
    intros ev He. destruct (graph_trace h vis args srcs ord W Ha Hsp Hsrc Ho Hoi ev He) as (fr & gn & E1 & Pf & _ & E2).
    exists fr, gn. split; auto.
  Qed.
  Lemma node_wires h vis args srcs i : built h vis -> incl args vis -> splits_in_range h vis -> sources h args srcs -> ancestor h args i ->
    exists w, wires h srcs i w /\ (forall w', wires h srcs i w' -> w' = w) /\ zlen w = width h i /\ forall q, In q w -> 0 <= q < widths h srcs.
  Proof.
    intros B Ha Hs Hsrc Hi. pose proof (built_wf _ _ B) as W. pose proof (splits_anc h vis args W Ha Hs) as Hsp.
    exists (wire h srcs i). split; [eapply a_wires; eauto|]. split; [intros w' Hw; eapply wires_fun; eauto|].
    split; [eapply a_len; eauto|]. eapply w_range; eauto.
  Qed.

  (** ** C30 *)
  Lemma selected_wires (w : list Z) p : (forall k, In k p -> 0 <= k < zlen w) ->
    Forall2 (fun k x => 0 <= k /\ nth_error w (Z.to_nat k) = Some x) p (map (znth 0 w) p).
  Proof.
    induction p as [|k p IH]; cbn [map]; intros Hr; constructor.
    - specialize (Hr k (or_introl eq_refl)). split; [lia|]. rewrite znth_nth by lia. apply nth_error_nth'. unfold zlen in Hr. lia.
    - apply IH. intros; apply Hr; right; auto.
  Qed.
  Lemma selects_wires h srcs self p id w : selects h self p id -> wires h srcs self w -> (forall k, In k p -> 0 <= k < zlen w) ->
    wires h srcs id (map (znth 0 w) p).
  Proof.
    intros (Hk & Hi & _) Hw Hr. eapply (wires_split h srcs id p [w]); eauto.
    - rewrite Hi; discriminate.
    - rewrite Hi. constructor; auto.
    - cbn [concat]. rewrite app_nil_r. apply selected_wires. auto.
  Qed.
  Lemma pieces_wires h srcs self w : wires h srcs self w -> forall pieces ids, Forall2 (selects h self) pieces ids ->
    (forall k, In k (concat pieces) -> 0 <= k < zlen w) ->
    Forall2 (wires h srcs) ids (map (map (znth 0 w)) pieces).
  Proof.
    intros Hw. induction 1 as [|p id ps ids Hp HF IH]; cbn [concat map]; intros Hr; constructor.
    - eapply selects_wires; eauto. intros k Hk. apply Hr, in_app_iff; auto.
    - apply IH. intros k Hk. apply Hr, in_app_iff; auto.
  Qed.
  Lemma partition_wires h srcs self w pieces ids : wires h srcs self w -> Forall2 (selects h self) pieces ids ->
    concat pieces = zrange 0 (zlen w) -> exists ws, Forall2 (wires h srcs) ids ws /\ concat ws = w.
  Proof.
    intros Hw HF E. exists (map (map (znth 0 w)) pieces). split.
    - eapply pieces_wires; eauto. rewrite E. intros k Hk. apply in_zrange in Hk. auto.
    - rewrite <- concat_map, E. apply list_eq_znth with (d := 0).
      + rewrite zlen_map, zlen_zrange; [lia|apply zlen_nonneg].
      + rewrite zlen_map, zlen_zrange by apply zlen_nonneg. intros j Hj. rewrite znth_map_zrange by lia. reflexivity.
  Qed.

  (** ** C33 *)
  Lemma run_top h vis c l args srcs : session h vis c l -> splits_in_range h vis -> no_swap_dagger h vis ->
    incl args vis -> (forall args', In args' l -> same_qubits h args args') -> sources h args srcs ->
    let n := widths h srcs in circuit_ok h args srcs n ->
    forall ev feed strict state init, enum_ok ev -> scheds_ok ev h n -> initial h srcs n feed state init ->
    (forall c' st_ cm, run ev c h args feed strict state = (c', Ok (st_, cm)) ->
       zlen st_ = 2 ^ n /\ StronglySorted lt (map fst cm) /\ (forall i, In i (map fst cm) <-> ancestor h args i) /\
       evolves (e_rsqrt ev) h srcs n cm (amp (map (fed_amp n init) (zrange 0 (2 ^ n)))) (amp st_)) /\
    (no_measure h args -> (strict = true -> incl srcs (fed_nodes feed)) -> exists c' r, run ev c h args feed strict state = (c', Ok r)) /\
    (strict = true -> ~ incl srcs (fed_nodes feed) -> run ev c h args feed strict state = (c, Raise ValueError)).
  Proof.
    intros S Hs Hd Ha Hsame Hsrc n Hok ev feed strict state init He Hsc HI. pose proof (session_wf _ _ _ _ S) as W.
    pose proof (splits_anc h vis args W Ha Hs) as Hsp.
    destruct (ord_exists h vis args W Ha) as (ord & Ho & Hoi).
    pose proof (session_cache_valid h vis c l args srcs S Hs Hd Ha Hsrc Hsame) as Hc.
    split; [|split].
    - intros c' st_ cm E.
      destruct (run_sem h vis args srcs ord W Ha Hsp Hsrc Ho Hoi ev He Hok Hsc c c' feed strict state init st_ cm Hc HI E) as (E1 & E2 & E3 & _).
      split; auto. rewrite E2. split; auto.
    - intros Hnm Hst. destruct (run_total h vis args srcs ord W Ha Hsp Hsrc Ho Hoi ev He Hok Hsc c feed strict state init Hc HI Hnm Hst) as (c' & st_ & cm & E). eauto.
    - intros -> Hni. destruct (initial_keys h srcs _ _ _ HI) as [H1 H2]. eapply (run_strict h vis args srcs ord); eauto.
  Qed.

  Lemma mmap_raise {A B} (f : A -> res B) (e : exn) l : (forall a e', In a l -> f a = Raise e' -> e' = e) ->
    (exists a, In a l /\ f a = Raise e) -> mmap f l = Raise e.
  Proof.
    induction l as [|a l IH]; intros H (x & Hx & Ex); [destruct Hx|]. cbn [mmap].
    destruct (f a) as [b|e'] eqn:E; cbn [bind].
    - destruct Hx as [->|Hx]; [congruence|]. rewrite IH; auto; [intros a' e' Ha' Hf; exact (H a' e' (or_intror Ha') Hf)|eauto].
    - f_equal. exact (H a e' (or_introl eq_refl) E).
  Qed.
  Lemma mmap_raises {A B} (f : A -> res B) e e' l : (forall a e', In a l -> f a = Raise e' -> e' = e) -> mmap f l = Raise e' -> e' = e.
  Proof.
    induction l as [|a l IH]; cbn [mmap]; intros H E; [discriminate|].
    destruct (f a) as [b|x] eqn:Ef; cbn [bind] in E.
    - destruct (mmap f l) eqn:El; cbn [bind] in E; [discriminate|]. apply IH; [intros a' x Ha' Hf; exact (H a' x (or_intror Ha') Hf)|congruence].
    - inversion E; subst. exact (H a e' (or_introl eq_refl) Ef).
  Qed.
  Lemma odict_get_raise {V} (d : list (nat * V)) k e : odict_get d k = Raise e -> e = KeyError.
  Proof. induction d as [|[k' v] d IH]; cbn; [congruence|]. destruct (Nat.eqb k' k); [discriminate|auto]. Qed.
  Lemma odict_get_In {V} (d : list (nat * V)) k v : odict_get d k = Ok v -> In k (map fst d).
  Proof. induction d as [|[k' v'] d IH]; cbn; [discriminate|]. destruct (Nat.eqb_spec k' k); auto. Qed.
  Lemma odict_set_keys {V} (d : list (nat * V)) k v x : In x (map fst (odict_set d k v)) -> x = k \/ In x (map fst d).
  Proof.
    induction d as [|[k' v'] d IH]; cbn.
    - intros [->|[]]; auto.
    - destruct (Nat.eqb_spec k' k); cbn; intros [H|H]; auto. destruct (IH H); auto.
  Qed.
  Lemma assign_keys h l x : In x (map fst (fst (assign_indices h l))) -> In x l.
  Proof.
    unfold assign_indices. enough (G : forall l d n, In x (map fst (fst (fold_left (fun '(d, n) q => (odict_set d q (zrange n (n + nd_n (nd h q))), n + nd_n (nd h q))) l (d, n)))) ->
      In x l \/ In x (map fst d)) by (intros H; apply G in H; destruct H as [|[]]; auto).
    clear l. induction l as [|a l IH]; cbn [fold_left]; intros d n H; auto.
    apply IH in H. destruct H as [H|H]; [left; right; auto|]. apply odict_set_keys in H. destruct H as [->|H]; auto. left; left; auto.
  Qed.
  (** feeding an object that is not a top level node of the circuit *)
  Lemma run_unknown h vis args srcs : wf h vis -> incl args vis -> splits_in_range h vis -> sources h args srcs ->
    forall ev c feed strict state, enum_ok ev -> NoDup (map (fun kv => key_nodes (fst kv)) feed) -> ~ incl (fed_nodes feed) srcs ->
    (strict = true -> incl srcs (fed_nodes feed)) -> run ev c h args feed strict state = (c, Raise KeyError).
  Proof.
    intros W Ha Hs Hsrc ev c feed strict state He Hkd Hni Hst.
    pose proof (splits_anc h vis args W Ha Hs) as Hsp.
    destruct (ord_exists h vis args W Ha) as (ord & Ho & Hoi).
    destruct (graph_trace h vis args srcs ord W Ha Hsp Hsrc Ho Hoi ev He) as (fr & gn & Ed & Pf & Es & _).
    assert (Hnd : NoDup srcs) by (apply sorted_lt_NoDup, Hsrc).
    unfold run. rewrite normal_feed by auto. rewrite map_map. cbn [fst].
    change (concat (map (fun x => key_nodes (fst x)) feed)) with (fed_nodes feed). rewrite Ed, Es.
    assert (strict && negb (forallb (fun q => mem q (fed_nodes feed)) srcs) = false) as ->.
    { destruct strict; auto. cbn. apply negb_false_iff, forallb_forall. intros q Hq. apply mem_In, Hst; auto. }
    rewrite add_defaults_ok.
    2:{ eapply Permutation_NoDup; [symmetry; exact Pf|auto]. }
    2:{ intros q Hq Hnf Hx. apply Hnf. unfold fed_nodes. rewrite map_map in Hx. cbn [fst] in Hx. apply in_concat. exists [q]. split; auto. left; auto. }
    pose proof (assign_keys h srcs) as Hkey. destruct (assign_indices h srcs) as [qb nn]. cbn [fst] in Hkey.
    rewrite (mmap_raise _ KeyError); [reflexivity| |].
    - intros [k v] e' _ E. destruct (mmap (odict_get qb) k) eqn:Em; cbn [bind] in E; [discriminate|]. inversion E; subst.
      eapply mmap_raises; eauto. intros a x _. apply odict_get_raise.
    - assert (Hx : exists x, In x (fed_nodes feed) /\ ~ In x srcs).
      { destruct (Forall_Exists_dec (fun x => In x srcs) (fun x => in_dec Nat.eq_dec x srcs) (fed_nodes feed)) as [H|H].
        - exfalso. apply Hni. intros x Hx. rewrite Forall_forall in H. auto.
        - apply Exists_exists in H. exact H. }
      destruct Hx as (x & Hx & Hxn). unfold fed_nodes in Hx. apply in_concat in Hx. destruct Hx as (k & Hk & Hx).
      apply in_map_iff in Hk. destruct Hk as (kv & <- & Hkv).
      exists (key_nodes (fst kv), snd kv). split; [apply in_app_iff; left; apply in_map_iff; eauto|].
      rewrite (mmap_raise _ KeyError); [reflexivity|intros a e' _; apply odict_get_raise|].
      exists x. split; auto. destruct (odict_get qb x) eqn:E; [|f_equal; eapply odict_get_raise; eauto].
      exfalso. apply Hxn, Hkey. eapply odict_get_In; eauto.
  Qed.

  (** ** C34 *)
  Lemma run_int h vis args srcs : wf h vis -> incl args vis -> splits_in_range h vis -> sources h args srcs ->
    forall ev c i, enum_ok ev -> i <> 0 -> run ev c h args [] false (SInt i) = (c, Raise TypeError).
  Proof.
    intros W Ha Hs Hsrc ev c i He Hi. pose proof (splits_anc h vis args W Ha Hs) as Hsp.
    destruct (ord_exists h vis args W Ha) as (ord & Ho & Hoi).
    destruct (run_start h vis args srcs ord W Ha Hsp Hsrc Ho Hoi ev He c [] false (SInt i)) as (fr & nn & _ & ->).
    { constructor. } { intros x []. }
    cbn [andb]. unfold start. cbn [truthy]. rewrite (proj2 (Z.eqb_neq i 0) Hi). cbn [negb bind state_feed].
    pose proof (n_nonneg h vis args srcs W Ha Hsrc) as Hn.
    rewrite (make_state_int (e_junk ev) (widths h srcs) [] (zrange 0 (widths h srcs)) i [] []); auto.
    - cbn [fed_groups map app concat]. rewrite app_nil_r. split; [apply zrange_nodup|]. intros q Hq. apply in_zrange in Hq. auto.
    - intros g a [].
  Qed.
  Lemma mat_raises h vis c l args srcs : session h vis c l -> splits_in_range h vis -> no_swap_dagger h vis ->
    incl args vis -> (forall args', In args' l -> same_qubits h args args') -> sources h args srcs ->
    let n := widths h srcs in circuit_ok h args srcs n -> no_measure h args -> 1 <= n ->
    forall ev init, enum_ok ev -> scheds_ok ev h n -> initial h srcs n [] SNone init ->
    snd (make_circuit_mat ev c h args) = Raise TypeError.
  Proof.
    intros S Hs Hd Ha Hsame Hsrc n Hok Hnm Hn ev init He Hsc HI. pose proof (session_wf _ _ _ _ S) as W.
    destruct (run_top h vis c l args srcs S Hs Hd Ha Hsame Hsrc Hok ev [] false SNone init He Hsc HI) as (H1 & H2 & _).
    destruct (H2 Hnm) as (c' & [st_ cm] & E); [discriminate|]. destruct (H1 _ _ _ E) as (Hz & _).
    unfold make_circuit_mat. rewrite E. cbn [sbind fst]. rewrite Hz. fold n. rewrite Z.log2_pow2 by lia.
    assert (2 <= 2 ^ n) by (change 2 with (2 ^ 1) at 1; apply Z.pow_le_mono_r; lia).
    rewrite zrange_cons by lia. cbn [columns]. rewrite (run_int h vis args srcs) by (auto; lia). reflexivity.
  Qed.
  Lemma basis_amp n (x r : Z) : 0 <= r < 2 ^ n -> amp (basis_vec n x : list C) r = if r =? x then 1%r else 0%r.
  Proof. intros Hr. unfold basis_vec, amp. rewrite znth_map_zrange by lia. reflexivity. Qed.
  Lemma evolves_rsqrt f g h srcs n l v v' : evolves f h srcs n l v v' -> (forall i, In i (map fst l) -> nd_kind (nd h i) <> KMeasure) ->
    evolves g h srcs n l v v'.
  Proof.
    induction 1 as [v v' Hv|i cv l gs v v1 v' Hgs Hsem Hev IH]; intros Hm; [constructor; auto|].
    apply (evolves_cons g h srcs n i cv l gs v v1 v'); auto; [|apply IH; intros j Hj; apply Hm; right; auto].
    pose proof (Hm i (or_introl eq_refl)) as Hk. inversion Hsem; subst; try (econstructor; eauto; fail). congruence.
  Qed.
  Definition env0 h n : env K := mkEnv (fun _ => O) (fun l => l)
    (fun i => match nd_kind (nd h i) with KMat _ _ => zrange 0 (2 ^ n) | KF _ => zrange 0 (2 ^ width h (hd O (inputs_of h i))) | _ => [] end)
    (fun _ => 0%r) (fun _ => 0%r) (fun x => x) (fun _ => 0%r) calm.
  Lemma env0_ok h n : enum_ok (env0 h n) /\ scheds_ok (env0 h n) h n.
  Proof.
    split; [intros l; apply Permutation_refl|]. intros i. cbn [env0 e_sched]. destruct (nd_kind (nd h i)); auto using L_Func.calm_tame.
  Qed.
  Lemma mat_columns h vis c l args srcs : session h vis c l -> splits_in_range h vis -> no_swap_dagger h vis ->
    incl args vis -> (forall args', In args' l -> same_qubits h args args') -> sources h args srcs ->
    let n := widths h srcs in circuit_ok h args srcs n -> no_measure h args ->
    exists column : Z -> list C, forall ev, enum_ok ev -> scheds_ok ev h n ->
      (forall x, 0 <= x < 2 ^ n -> exists c' cm, run ev c h args [] false (SList (basis_vec n x)) = (c', Ok (column x, cm))) /\
      forall v, zlen v = 2 ^ n -> exists c' st_ cm, run ev c h args [] false (SList v) = (c', Ok (st_, cm)) /\ zlen st_ = 2 ^ n /\
        forall r, 0 <= r < 2 ^ n -> amp st_ r = sum (zrange 0 (2 ^ n)) (fun x => (amp v x * amp (column x) r)%r).
  Proof.
    intros S Hs Hd Ha Hsame Hsrc n Hok Hnm. pose proof (session_wf _ _ _ _ S) as W.
    pose proof (splits_anc h vis args W Ha Hs) as Hsp.
    pose proof (n_nonneg h vis args srcs W Ha Hsrc) as Hn. fold n in Hn.
    destruct (ord_exists h vis args W Ha) as (ord & Ho & Hoi).
    assert (Hrun : forall ev v, enum_ok ev -> scheds_ok ev h n -> zlen v = 2 ^ n -> exists c' st_ cm,
      run ev c h args [] false (SList v) = (c', Ok (st_, cm)) /\ zlen st_ = 2 ^ n /\ map fst cm = ord /\
      evolves (e_rsqrt ev) h srcs n cm (amp v) (amp st_)).
    { intros ev v He Hsc Hv. assert (HI : initial h srcs n [] (SList v) [(zrange 0 n, v)]) by (constructor; auto; [constructor|intros x []]).
      pose proof (session_cache_valid h vis c l args srcs S Hs Hd Ha Hsrc Hsame) as Hc.
      destruct (run_total h vis args srcs ord W Ha Hsp Hsrc Ho Hoi ev He Hok Hsc c [] false (SList v) _ Hc HI Hnm) as (c' & st_ & cm & E); [discriminate|].
      destruct (run_sem h vis args srcs ord W Ha Hsp Hsrc Ho Hoi ev He Hok Hsc c c' [] false (SList v) _ st_ cm Hc HI E) as (E1 & E2 & E3 & _).
      fold n in E1, E3. exists c', st_, cm. split; auto. split; auto. split; auto.
      replace (map (fed_amp n [(zrange 0 n, v)]) (zrange 0 (2 ^ n))) with v in E3; auto.
      apply list_eq_znth with (d := 0%r); [rewrite zlen_map, zlen_zrange; lia|]. rewrite Hv. intros j Hj. rewrite znth_map_zrange by lia.
      rewrite Z.add_0_l. rewrite (zrange_vec_amp h srcs v j) by auto. reflexivity. }
    set (column := fun x => match run (env0 h n) c h args [] false (SList (basis_vec n x)) with (_, Ok (s, _)) => s | _ => [] end).
    assert (Hbz : forall x, zlen (basis_vec n x : list C) = 2 ^ n) by (intros x; unfold basis_vec; rewrite zlen_map, zlen_zrange; lia).
    assert (Hmeas : forall cm : list (nat * cval K), map fst cm = ord -> forall i, In i (map fst cm) -> nd_kind (nd h i) <> KMeasure).
    { intros cm E i Hi. rewrite E in Hi. apply Hnm, Hoi, Hi. }
    assert (Hcol : forall x, exists cm, zlen (column x) = 2 ^ n /\ map fst cm = ord /\
      evolves (fun x => x) h srcs n cm (amp (basis_vec n x)) (amp (column x))).
    { intros x. destruct (env0_ok h n) as [He Hsc]. destruct (Hrun (env0 h n) (basis_vec n x) He Hsc (Hbz x)) as (c' & st_ & cm & E & E1 & E2 & E3).
      unfold column. rewrite E. exists cm. auto. }
    assert (Lin : forall (a b : C) (l1 l2 l3 : list (nat * cval K)) u u' v v' w w', map fst l1 = ord -> map fst l2 = ord -> map fst l3 = ord ->
      evolves (fun x => x) h srcs n l1 v v' -> evolves (fun x => x) h srcs n l2 u u' -> evolves (fun x => x) h srcs n l3 w w' ->
      (forall r, 0 <= r < 2 ^ n -> w r = (a * v r + b * u r)%r) -> forall r, 0 <= r < 2 ^ n -> w' r = (a * v' r + b * u' r)%r).
    { intros a b l1 l2 l3 u u' v v' w w' E1 E2 E3 A1 A2 A3 Hw.
      eapply (evolves_lin h vis args srcs W Ha Hsp Hsrc Hok Hnm (fun x => x) a b l1 v v' A1 l2 u u' A2 l3 w w' A3); auto; try congruence.
      intros i Hi. apply Hoi. congruence. }
    exists column. intros ev He Hsc. split.
    - intros x Hx. destruct (Hrun ev (basis_vec n x) He Hsc (Hbz x)) as (c' & st_ & cm & E & E1 & E2 & E3).
      destruct (Hcol x) as (cm' & F1 & F2 & F3). exists c', cm. rewrite E. do 3 f_equal.
      apply (evolves_rsqrt _ (fun x => x)) in E3; [|apply Hmeas; auto].
      apply list_eq_znth with (d := 0%r); [congruence|]. rewrite E1. intros r Hr.
      pose proof (Lin 1%r 0%r _ _ _ _ _ _ _ _ _ F2 F2 E2 F3 F3 E3) as L. unfold amp in L. rewrite L; auto; [ring|]. intros; ring.
    - intros v Hv. destruct (Hrun ev v He Hsc Hv) as (c' & st_ & cm & E & E1 & E2 & E3). exists c', st_, cm. split; auto. split; auto.
      apply (evolves_rsqrt _ (fun x => x)) in E3; [|apply Hmeas; auto].
      assert (P : forall k, (k <= Z.to_nat (2 ^ n))%nat -> forall v l s, zlen v = 2 ^ n -> (forall r, Z.of_nat k <= r < 2 ^ n -> amp v r = 0%r) ->
        map fst l = ord -> evolves (fun x => x) h srcs n l (amp v) (amp s) ->
        forall r, 0 <= r < 2 ^ n -> amp s r = sum (zrange 0 (Z.of_nat k)) (fun x => (amp v x * amp (column x) r)%r)).
      { clear - Hrun Hcol Lin Hmeas Hbz Hn. induction k as [|k IH]; intros Hk v l s Hv Hz El Hev r Hr.
        - rewrite (Lin 0%r 0%r _ _ _ _ _ _ _ _ _ El El El Hev Hev Hev); auto; [change (zrange 0 (Z.of_nat 0)) with (@nil Z); cbn [sum]; ring|].
          intros x Hx. rewrite Hz by lia. ring.
        - set (v1 := map (fun x => if x =? Z.of_nat k then 0%r else amp v x) (zrange 0 (2 ^ n))).
          assert (Hv1 : zlen v1 = 2 ^ n) by (unfold v1; rewrite zlen_map, zlen_zrange; lia).
          assert (Hv1a : forall x, 0 <= x < 2 ^ n -> amp v1 x = if x =? Z.of_nat k then 0%r else amp v x).
          { intros x Hx. unfold v1, amp at 1. rewrite znth_map_zrange by lia. reflexivity. }
          destruct (env0_ok h n) as [He Hsc]. destruct (Hrun (env0 h n) v1 He Hsc Hv1) as (c1 & s1 & cm1 & _ & _ & F2 & F3).
          apply (evolves_rsqrt _ (fun x => x)) in F3; [|apply Hmeas; auto].
          destruct (Hcol (Z.of_nat k)) as (cm2 & _ & G2 & G3).
          rewrite (Lin 1%r (amp v (Z.of_nat k)) _ _ _ _ _ _ _ _ _ F2 G2 El F3 G3 Hev) by
            (auto; intros x Hx; rewrite Hv1a, basis_amp by auto; destruct (Z.eqb_spec x (Z.of_nat k)) as [->|]; ring).
          rewrite (IH ltac:(lia) v1 cm1 s1); auto.
          2:{ intros x Hx. rewrite Hv1a by lia. destruct (Z.eqb_spec x (Z.of_nat k)); auto. apply Hz. lia. }
          rewrite Nat2Z.inj_succ. rewrite (zrange_snoc 0 (Z.succ (Z.of_nat k))) by lia. replace (Z.succ (Z.of_nat k) - 1) with (Z.of_nat k) by lia.
          rewrite sum_app. cbn [sum].
          rewrite (sum_ext (zrange 0 (Z.of_nat k)) _ (fun x => (amp v x * amp (column x) r)%r)); [ring|].
          intros x Hx. apply in_zrange in Hx. rewrite Hv1a by lia. destruct (Z.eqb_spec x (Z.of_nat k)); [lia|auto]. }
      intros r Hr. specialize (P (Z.to_nat (2 ^ n)) (le_n _) v cm st_ Hv). rewrite Z2Nat.id in P by lia. apply P; auto. intros; lia.
  Qed.

  (** ** for built graphs *)
  Lemma not_vis h vis i : built h vis -> (size h <= i)%nat -> ~ In i vis.
  Proof. intros B Hi Hv. apply (wf_vis _ _ (built_wf _ _ B)) in Hv. lia. Qed.
  Lemma built_split_indices h vis self l :
    built h vis -> In self vis -> 0 < width h self -> NoDup l -> (forall x, In x l -> 0 <= x <= width h self) ->
    exists h' ids pieces, exec h (Split self (Some l)) = (h', Ok ids) /\ Forall2 (selects h' self) pieces ids /\
      (forall i, In i ids -> ~ In i vis) /\
      concat pieces = zrange 0 (width h self) /\ (forall p, In p pieces -> p <> []) /\
      forall x, In x (map (hd 0) pieces) <-> x = 0 \/ (In x l /\ x <> width h self).
  Proof.
    intros B Hv Hp Hd Hr. destruct (split_indices h vis self l (built_wf _ _ B) Hv Hp Hd Hr) as (h' & ids & ps & E & F & G & H).
    exists h', ids, ps. split; auto. split; auto. split; auto. intros i Hi. eapply not_vis; eauto.
  Qed.
  Lemma built_split_inputs h vis self :
    built h vis -> In self vis -> (length (inputs_of h self) >= 2)%nat -> (forall i, In i (inputs_of h self) -> 0 < width h i) ->
    exists h' ids pieces, exec h (Split self None) = (h', Ok ids) /\ Forall2 (selects h' self) pieces ids /\
      (forall i, In i ids -> ~ In i vis) /\
      map zlen pieces = map (width h) (inputs_of h self) /\ concat pieces = zrange 0 (width h self).
  Proof.
    intros B Hv Hp Hd. destruct (split_inputs h vis self (built_wf _ _ B) Hv Hp Hd) as (h' & ids & ps & E & F & G & H).
    exists h', ids, ps. split; auto. split; auto. split; auto. intros i Hi. eapply not_vis; eauto.
  Qed.
  Lemma built_split_trivial h vis self : built h vis -> In self vis ->
    ((exists q, inputs_of h self = [q]) -> exec h (Split self None) = (h, Ok [self])) /\
    (inputs_of h self = [] -> 0 < width h self ->
     exists h' id, exec h (Split self None) = (h', Ok [id]) /\ selects h' self (zrange 0 (width h self)) id).
  Proof.
    intros B Hv. pose proof (built_wf _ _ B) as W. split.
    - intros (q & E). exact (split_one h vis self q W Hv E).
    - intros E Hp. exact (split_fresh h vis self W Hv E Hp).
  Qed.
  Lemma built_extract h vis self l :
    built h vis -> In self vis -> NoDup l -> (forall x, In x l -> 0 <= x < width h self) -> l <> [] ->
    (exists x, 0 <= x < width h self /\ ~ In x l) ->
    exists h' sq qs, exec h (Extract self (IList l)) = (h', Ok [sq; qs]) /\ ~ In sq vis /\ ~ In qs vis /\
      selects h' self l sq /\ selects h' self (filter (fun i => negb (existsb (Z.eqb i) l)) (zrange 0 (width h self))) qs.
  Proof.
    intros B Hv Hd Hr Hn Hx. destruct (extract_total h vis self l (built_wf _ _ B) Hv Hd Hr Hn Hx) as (h' & sq & qs & E & F & G).
    exists h', sq, qs. split; auto. split; [eapply not_vis; eauto; lia|]. split; auto. eapply not_vis; eauto; lia.
  Qed.
  Lemma built_accepts h vis q d : built h vis -> In q vis -> 0 < width h q ->
    exists h' id, exec h (Gate GNot [q] d) = (h', Ok [id]) /\ inputs_of h' id = [q].
  Proof. intros B. apply ops_accept, built_wf, B. Qed.
  Lemma built_identity h vis l q user : built h vis -> incl l vis -> In q l -> In user vis -> In q (inputs_of h user) ->
    snd (exec h (Identity l)) = Raise GenericException.
  Proof. intros B Hl Hq Hu Hi. destruct (identity_raises h vis l q user (built_wf _ _ B) Hl Hq Hu Hi) as (h' & ->). reflexivity. Qed.
  Lemma same_args_reuse h vis c l args : session h vis c l -> splits_in_range h vis -> no_swap_dagger h vis -> incl args vis ->
    (forall args', In args' l -> args' = args) -> forall ev feed strict state, enum_ok ev ->
    snd (run ev c h args feed strict state) = snd (run ev cache0 h args feed strict state).
  Proof.
    intros S Hs Hd Ha Hl. apply (session_reuse h vis c l args); auto. intros a Ha'. rewrite (Hl a Ha').
    apply (same_qubits_refl h vis); auto. eapply session_wf; eauto.
  Qed.
  Lemma evolution_determined h vis args srcs : built h vis -> incl args vis -> splits_in_range h vis -> sources h args srcs ->
    let n := widths h srcs in circuit_ok h args srcs n ->
    forall rsqrt l l' v v' v'', evolves rsqrt h srcs n l v v' -> evolves rsqrt h srcs n l' v v'' ->
      (forall i, In i (map fst l) -> ancestor h args i) -> same_outcomes h l l' ->
      forall r, 0 <= r < 2 ^ n -> v' r = v'' r.
  Proof.
    intros B Ha Hs Hsrc n Hok rsqrt l l' v v' v'' E1 E2 Hi Ho. pose proof (built_wf _ _ B) as W.
    pose proof (splits_anc h vis args W Ha Hs) as Hsp.
    destruct (evolves_fun h vis args srcs W Ha Hsp Hsrc rsqrt Hok l v v' E1 l' v v'' E2 Hi Ho) as [H _]; auto.
  Qed.
  Lemma built_unknown h vis args srcs : built h vis -> incl args vis -> splits_in_range h vis -> sources h args srcs ->
    forall ev c feed strict state, enum_ok ev -> NoDup (map (fun kv => key_nodes (fst kv)) feed) -> ~ incl (fed_nodes feed) srcs ->
    (strict = true -> incl srcs (fed_nodes feed)) -> run ev c h args feed strict state = (c, Raise KeyError).
  Proof. intros B. apply run_unknown, built_wf, B. Qed.
End Top.
