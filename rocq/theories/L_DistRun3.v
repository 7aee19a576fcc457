(** Circuits on the distributed backend: the results. *)
From Coq Require Import Sorted.
From Verif Require Import Base M_Bits S_Bits L_Bits M_Kron S_Kron M_Ops S_Ops M_Feed S_Feed L_Feed M_Func S_Func L_Grow1
  M_Pool S_Pool L_Pool2 M_Net S_Net M_Worker S_Worker L_Worker6 L_Worker8 L_Worker10 M_Proto S_Proto M_Client
  M_Measure S_Measure L_Measure1 L_Measure4
  M_Graph S_Graph L_Graph1 L_Graph2 L_Graph3 L_Graph5 L_Graph6 L_Graph7 L_Graph8 L_Graph11 S_Born L_Born S_Order L_Order5 M_DistRun S_DistRun L_DistRun1 L_DistRun2.

Section Results.
  Context {K : Type} {OK : OrdRing K}.
  Notation C := (Cx K).
  Implicit Types h : heap K.

  (** the caches after a local run *)
  Lemma node_cache ev h srcs a i a' : node_feed ev h a i (map (wire h srcs) (inputs_of h i)) = (a', Ok tt) -> a_cache a' = cache_after h srcs (a_cache a) i.
  Proof.
    unfold node_feed, cache_after. destruct (nd_kind (nd h i)) as [|ix|o d|f| |k]; intros E.
    - inversion E. reflexivity.
    - inversion E. reflexivity.
    - destruct (op_mats (a_cache a) i o d _) as [c [ms|e]]; [|discriminate]. destruct (bk_kron _ _ _) as [b|e]; [|discriminate].
      inversion E. reflexivity.
    - destruct (fop_feed _ _ _ _ _ _) as [b|e]; [|discriminate]. inversion E. reflexivity.
    - destruct (bk_measure _ _ _ _ _ _ _ _ _) as [[[m p] b]|e]; [|discriminate]. inversion E. reflexivity.
    - destruct (bk_measure_probabilities _ _ _) as [b|e]; [|discriminate]. inversion E. reflexivity.
  Qed.
  Lemma fold_cache ev h srcs : forall todo a a', sfold (fun a i => node_feed ev h a i (map (wire h srcs) (inputs_of h i))) todo a = (a', Ok tt) ->
    a_cache a' = fold_left (cache_after h srcs) todo (a_cache a).
  Proof.
    induction todo as [|i todo IH]; intros a a' E; cbn [sfold] in E; [inversion E; reflexivity|].
    destruct (node_feed ev h a i _) as [a1 [[]|e]] eqn:E1; cbn [sbind] in E; [|discriminate].
    cbn [fold_left]. rewrite <- (node_cache ev h srcs a i a1 E1). apply IH. exact E.
  Qed.
  Lemma run_cache h vis c l args srcs ord ev feed strict state init c' r : prepared h vis c l args srcs -> StronglySorted lt ord -> (forall i, In i ord <-> ancestor h args i) ->
    enum_ok ev -> initial h srcs (widths h srcs) feed state init -> (strict = true -> incl srcs (fed_nodes feed)) ->
    run ev c h args feed strict state = (c', Ok r) -> c' = fold_left (cache_after h srcs) ord c.
  Proof.
    intros (S & Hs & Hsd & Ha & Hsame & Hsrc) Ho Hoi He HI Hst E. pose proof (session_wf _ _ _ _ S) as W. pose proof (splits_anc h vis args W Ha Hs) as Hsp.
    destruct (prepare_ok h vis args srcs ord W Ha Hsp Hsrc Ho Hoi ev He feed strict state init HI Hst) as (fr & gn & fs & Ep & _ & _ & Hrun).
    rewrite run_prepare, Ep in E. destruct (make_state _ _ _ _ _ _ _ _) as [b|e]; [|inversion E]. rewrite Hrun in E.
    destruct (sfold _ ord _) as [a [[]|e]] eqn:Ef; [|discriminate]. apply fold_cache in Ef. inversion E; subst. exact Ef.
  Qed.

  Lemma pool_sizes bq pool : blocks (2 ^ bq) pool -> forall w : wid, In w (map fst pool) -> snd (fst w) - fst (fst w) = 2 ^ bq.
  Proof.
    intros Hb w Hw. apply in_map_iff in Hw. destruct Hw as (e & <- & He). destruct (Hb e He) as (i & j & E1 & E2).
    unfold en_in in E1. destruct e as [[p q] x]. cbn [fst snd] in *. subst p. cbn [fst snd]. lia.
  Qed.
  Lemma used_all_le d (lops : list (lop K)) : (used_all d lops <= 4 * length lops)%nat.
  Proof. induction lops as [|o l IH]; cbn [used_all fold_right length]; [lia|]. fold (used_all d l). assert (used d o <= 4)%nat by (destruct o; cbn; [|destruct d]; repeat constructor). lia. Qed.

  Lemma dist_job h vis c l args srcs ev feed strict state init job workers pool msgs rest :
    prepared h vis c l args srcs -> let n := widths h srcs in
    circuit_ok h args srcs n -> sendable h args -> gates_exact h args -> n < 2 ^ 31 ->
    starts h srcs n ev feed state init -> draws_ok ev -> init <> [] -> (forall g v, In (g, v) init -> total v = 1%r) ->
    (strict = true -> incl srcs (fed_nodes feed)) ->
    make_pool n workers = Ok (pool, msgs, rest) ->
    exists setup groups feeds sent ops, decode_states setup = Ok (groups, feeds) /\ mmap decode_op sent = Ok ops /\
      (forall answers, (length sent <= length answers)%nat -> exists d cm, dist_run job ev c h args feed strict state answers = mkOut (Some (n, setup)) sent d (Ok (job, cm))) /\
      forall junk (bs : wid -> backend K) rs envs,
        (forall w : wid, In w (map fst pool) ->
           make_state (junk w) n groups feeds (Some (fst (fst w))) (Some (snd (fst w))) (Some (fst (snd w))) (Some (snd (snd w))) = Ok (bs w)) ->
        length rs = length sent -> (forall r, In r rs -> fair r) ->
        (forall w : wid, In w (map fst pool) -> worker_luck (snd (fst w) - fst (fst w)) (length sent) (envs w)) ->
        exists answers st_ cm d u bq lops (local final : backend K),
          (combine ops rs = map (fun o => (wop_of (fst o), snd o)) lops /\ 0 <= bq <= n /\ tiles (2 ^ n) pool /\ blocks (2 ^ bq) pool /\
           local_job (M_Graph.e_rsqrt ev) (map fst pool) (fun a : range => map M_Worker.e_rand (envs (a, a))) local lops answers final /\
           bk_n local = n /\ zlen (bk_state local) = 2 ^ n /\ zlen (bk_arena local) = 2 ^ n /\
           (forall w : wid, In w (map fst pool) -> holds n (bk_state local) w (bs w)) /\
           (forall o, In o lops -> lop_ok n (fst o)) /\
           (forall w : wid, In w (map fst pool) ->
              scheduled (2 ^ bq) (used_all (is_diagonal w) (map fst lops)) (envs w) /\ forall e, In e (envs w) -> M_Worker.e_acc0 e = 0%r)) /\
          bk_state final = st_ /\ length answers = length sent /\
          dist_run job ev c h args feed strict state answers = mkOut (Some (n, setup)) sent d (Ok (job, cm)) /\
          draws_ok (with_draws ev u) /\ run (with_draws ev u) c h args feed strict state = (d, Ok (st_, cm)).
  Proof.
    intros HP n Hok Hsend Hg Hbound (He & Hsc & HI) Hd Hne Htot Hst Hpool. pose proof HP as (S & Hs & Hsd & Ha & Hsame & Hsrc).
    pose proof (session_wf _ _ _ _ S) as W. pose proof (splits_anc h vis args W Ha Hs) as Hsp. destruct (ord_exists h vis args W Ha) as (ord & Ho & Hoi).
    pose proof (session_cache_valid h vis c l args srcs S Hs Hsd Ha Hsrc Hsame) as Hc. assert (Hn : 0 <= n) by (eapply n_nonneg; eauto).
    destruct (dist_ok h vis args srcs ord W Ha Hsp Hsrc Ho Hoi ev He Hok Hsend Hbound job c feed strict state init HI Hst Hc) as (setup & fs & Pm & Hfo & Ed & Hrun).
    destruct (ops_wire_ok h vis args srcs ord W Ha Hsp Hsrc Hoi Hok Hsend Hbound ord (incl_refl _)) as (Eops & Elen).
    destruct (pool_ok n workers pool msgs rest Hpool) as (_ & Ht & (bq & Hbq & Hbl & _) & _).
    assert (Hfne : fs <> []) by (intros ->; apply Permutation_nil in Pm; auto).
    exists setup, (fed_groups fs), (fed_list fs), (sent_of h srcs ord), (ops_of h srcs ord). split; auto. split; auto. split.
    { intros answers Hl. rewrite Hrun by lia. eauto. }
    intros junk bs rs envs Hbs Hl Hr Hw.
    pose proof (make_state_fed_full (fun _ => 0%r) n fs Hn Hfne Hfo) as Hfull. set (full := mkBackend n _ _) in Hfull.
    destruct (start_holds n bq pool fs _ junk full bs Hbq Ht Hbl Hfne Hfo Hfull Hbs) as (Fn & Fs & Fa & Fh).
    assert (Hsize : forall w : wid, In w (map fst pool) -> snd (fst w) - fst (fst w) = 2 ^ bq) by (exact (fun w Hin => pool_sizes bq pool Hbl w Hin)).
    assert (Einit : amp (bk_state full) = amp (map (fed_amp n init) (zrange 0 (2 ^ n)))).
    { cbn [bk_state full]. f_equal. apply map_ext. intros x. apply fed_amp_perm. auto. }
    assert (Hfb : full_backend full) by (split; [rewrite Fn; exact Hn|rewrite Fn; auto]).
    assert (H1 : norm_of n (amp (bk_state full)) = 1%r).
    { rewrite Einit. eapply init_norm; eauto. }
    set (dr := fun a : range => map M_Worker.e_rand (envs (a, a))).
    destruct (local_fold h vis args srcs ord W Ha Hsp Hsrc Hoi Hok Hsend Hg ev Hd bq pool Hbq Ht Hbl ord full rs dr (incl_refl _) Hfb Fn H1) as (lops & results & b' & A1 & A2 & A3 & A4 & A5 & A6 & A7); auto.
    { lia. }
    { intros a Hin. destruct (Hw (a, a) Hin) as ((L1 & _) & L2). unfold dr. rewrite map_length. split; [rewrite Hl; exact L1|].
      intros x Hx. apply in_map_iff in Hx. destruct Hx as (e & <- & Hx). apply L2. auto. }
    assert (Elops : length lops = length rs).
    { apply (f_equal (@length _)) in A1. rewrite map_length, combine_length in A1. lia. }
    rewrite Einit in A7.
    assert (Hkeys : map fst (answered h ord results) = ord) by apply answered_keys.
    destruct (run_reaches h vis c l args srcs S Hs Hsd Ha Hsame Hsrc Hok Hg ev feed strict state init He Hsc Hd HI Htot Hst (answered h ord results) (amp (bk_state b'))) as (u & c' & st_ & cm' & Hu & Er & Hso); auto.
    { rewrite Hkeys. auto. }
    { intros i. rewrite Hkeys. auto. }
    destruct (run_top h vis c l args srcs S Hs Hsd Ha Hsame Hsrc Hok (with_draws ev u) feed strict state init He Hsc HI) as (RT & _ & _).
    destruct (RT _ _ _ Er) as (Zst & _ & _ & E2).
    destruct (evolves_fun h vis args srcs W Ha Hsp Hsrc (M_Graph.e_rsqrt ev) Hok _ _ _ A7 _ _ _ E2) as (EV & EC); auto.
    { intros i. rewrite Hkeys. apply Hoi. }
    assert (Est : bk_state b' = st_).
    { destruct A5 as (_ & Z' & _). rewrite A6 in Z'. apply (amp_ext _ _ n); auto. }
    assert (Ecm : answered h ord results = cm').
    { apply EC. intros i k Hi Ek. rewrite Hkeys in Hi. apply Hoi in Hi. specialize (Hsend i Hi). rewrite Ek in Hsend. contradiction. }
    exists results, st_, cm', c', u, bq, lops, full, b'. split; [|split; [|split; [|split; [|split]]]]; auto.
    - split; [symmetry; exact A1|]. split; [exact Hbq|]. split; [exact Ht|]. split; [exact Hbl|]. split; [exact A2|]. split; [exact Fn|]. split; [exact Fs|]. split; [exact Fa|]. split; [exact Fh|]. split; [exact A3|].
      intros w Hin. destruct (Hw w Hin) as ((L1 & L2) & L3). rewrite Hsize in L2 by auto. split; [split; auto|].
      + pose proof (used_all_le (is_diagonal w) (map fst lops)). rewrite map_length in *. lia.
      + intros e Hein. apply L3; auto.
    - lia.
    - rewrite Hrun by lia. rewrite Ecm. f_equal. symmetry. exact (run_cache h vis c l args srcs ord (with_draws ev u) feed strict state init c' (st_, cm') HP Ho Hoi He HI Hst Er).
  Qed.
  Lemma dist_results h vis c l args srcs ev feed strict state init job workers pool msgs rest cfg :
    prepared h vis c l args srcs -> let n := widths h srcs in
    circuit_ok h args srcs n -> sendable h args -> gates_exact h args -> n < 2 ^ 31 ->
    starts h srcs n ev feed state init -> draws_ok ev -> init <> [] -> (forall g v, In (g, v) init -> total v = 1%r) ->
    (strict = true -> incl srcs (fed_nodes feed)) ->
    make_pool n workers = Ok (pool, msgs, rest) -> configured job (map fst pool) cfg -> connected (map fst pool) cfg ->
    exists setup groups feeds sent ops, decode_states setup = Ok (groups, feeds) /\ mmap decode_op sent = Ok ops /\
      (forall answers, length answers = length sent -> exists d cm, dist_run job ev c h args feed strict state answers = mkOut (Some (n, setup)) sent d (Ok (job, cm))) /\
      forall junk (bs : wid -> backend K) rs envs,
        (forall w : wid, In w (map fst pool) ->
           make_state (junk w) n groups feeds (Some (fst (fst w))) (Some (snd (fst w))) (Some (fst (snd w))) (Some (snd (snd w))) = Ok (bs w)) ->
        length rs = length sent -> (forall r, In r rs -> fair r) ->
        (forall w : wid, In w (map fst pool) -> worker_luck (snd (fst w) - fst (fst w)) (length sent) (envs w)) ->
        exists answers st_ cm d u,
          always_ends pid_eqb (fun _ _ => None) (job_net (M_Graph.e_rsqrt ev) n (map fst pool) (combine ops rs) cfg envs bs) (fun s' =>
            procs s' Mgr = Ret (EManager answers (map fst pool)) /\
            forall w : wid, In w (map fst pool) -> exists b, procs s' (Wk w) = Ret (EWorker b) /\ holds n st_ w b) /\
          dist_run job ev c h args feed strict state answers = mkOut (Some (n, setup)) sent d (Ok (job, cm)) /\
          draws_ok (with_draws ev u) /\ run (with_draws ev u) c h args feed strict state = (d, Ok (st_, cm)).
  Proof.
    intros HP n Hok Hsend Hg Hbound Hstart Hd Hne Htot Hst Hpool Hcfg Hcon.
    destruct (dist_job h vis c l args srcs ev feed strict state init job workers pool msgs rest HP Hok Hsend Hg Hbound Hstart Hd Hne Htot Hst Hpool) as (setup & groups & feeds & sent & ops & H1 & H2 & H3 & H4).
    exists setup, groups, feeds, sent, ops. split; [exact H1|]. split; [exact H2|]. split; [intros answers Hl; apply H3; lia|].
    intros junk bs rs envs Hbs Hl Hr Hw. destruct (H4 junk bs rs envs Hbs Hl Hr Hw) as (answers & st_ & cm & d & u & bq & lops & lb & final & (A1 & Hbq & Ht & Hbl & A2 & Fn & Fs & Fa & Fh & A3 & A4) & Est & _ & E1 & E2 & E3).
    exists answers, st_, cm, d, u. split; [|auto]. rewrite A1, <- Est.
    refine (mixed_ends (fun _ _ => None) _ cfg job (length lops * Z.to_nat (2 ^ bq) + 1) n bq pool Hbq Ht Hbl Hcfg Hcon _ _ lops answers envs bs lb final _ A2 Fn Fs Fa Fh A3 A4 _).
    - apply capacities_none. reflexivity.
    - lia.
    - reflexivity.
  Qed.
End Results.
