(** The theorems about distributed jobs, put together from the lemmas about phases. *)
From Verif Require Import Base M_Bits L_Bits M_Kron S_Kron L_Kron L_Kron3 M_Feed S_Feed L_Feed M_Measure M_Pool S_Pool L_Pool2 M_Net S_Net L_Net M_Worker S_Worker L_Worker1 L_Worker2 L_Worker3 L_Worker4 L_Worker5 L_Worker6 L_Worker7.

Section Whole.
  Context {K : Type} {OK : OrdRing K}.
  Notation C := (Cx K).

  Lemma capacities_none cap ws n : (forall a b, cap a b = None) -> capacities cap ws n.
  Proof. intros H w w' _ _. rewrite !H. repeat split. Qed.

  (** a job from the client's feeds to the end *)
  Lemma whole_job cap rsqrt cfg job n workers pool msgs rest (fs : list (list Z * list C)) junk0 junk (start final : backend K) (bs : wid -> backend K)
      (lops : list (mats_arg K * list Z)) (jops : list (wop K * K)) envs :
    make_pool n workers = Ok (pool, msgs, rest) ->
    configured job (map fst pool) cfg -> connected (map fst pool) cfg -> (forall a b, cap a b = None) ->
    fs <> [] -> feeds_ok n fs ->
    make_state junk0 n (fed_groups fs) (fed_list fs) None None None None = Ok start ->
    (forall w : wid, In w (map fst pool) -> make_state (junk w) n (fed_groups fs) (fed_list fs) (Some (fst (fst w))) (Some (snd (fst w))) (Some (fst (snd w))) (Some (snd (snd w))) = Ok (bs w)) ->
    map fst jops = map (fun o => OKron (fst o)) lops ->
    (forall o, In o lops -> mats_wf n (fst o) /\ Permutation (snd o) (zrange 0 (2 ^ n))) ->
    local_run start lops = Ok final ->
    (forall w : wid, In w (map fst pool) -> scheduled (snd (fst w) - fst (fst w)) (2 * length lops) (envs w)) ->
    always_ends pid_eqb cap (job_net rsqrt n (map fst pool) jops cfg envs bs) (fun s' =>
      procs s' Mgr = Ret (EManager (map (fun _ => None) lops) (map fst pool)) /\
      forall w : wid, In w (map fst pool) -> exists b, procs s' (Wk w) = Ret (EWorker b) /\ holds n (bk_state final) w b).
  Proof.
    intros Hp Hcfg Hreg Hcap Hne Hf Hs Hbs Hj Hm Hl He. destruct (pool_ok n workers pool msgs rest Hp) as (_ & Ht & (b & Hb & Hbl & _) & _).
    destruct (start_holds n b pool fs junk0 junk start bs Hb Ht Hbl Hne Hf Hs Hbs) as (E1 & E2 & E3 & Hh).
    apply (job_ends cap rsqrt cfg job (length lops * Z.to_nat (2 ^ b) + 1) n b pool Hb Ht Hbl Hcfg Hreg (capacities_none _ _ _ Hcap) lops jops envs bs start final); auto.
    intros w Hw. specialize (He w Hw). destruct (proj1 (Hws n b pool Hb Ht Hbl w) Hw) as [H1 _]. apply blks_in in H1. destruct H1 as (i & _ & E). rewrite E in He. unfold blk in He. cbn [fst snd] in He.
    replace ((i + 1) * 2 ^ b - i * 2 ^ b) with (2 ^ b) in He by lia. exact He.
  Qed.

  (** a job that feeds nothing and does nothing *)
  Lemma unfed_job cap rsqrt cfg job n workers pool msgs rest junk0 junk (start : backend K) (bs : wid -> backend K) envs :
    make_pool n workers = Ok (pool, msgs, rest) -> (2 <= length pool)%nat ->
    configured job (map fst pool) cfg -> connected (map fst pool) cfg -> (forall a b, cap a b = None) ->
    make_state junk0 n [] [] None None None None = Ok start ->
    (forall w : wid, In w (map fst pool) -> make_state (junk w) n [] [] (Some (fst (fst w))) (Some (snd (fst w))) (Some (fst (snd w))) (Some (snd (snd w))) = Ok (bs w)) ->
    always_ends pid_eqb cap (job_net rsqrt n (map fst pool) [] cfg envs bs) (fun s' =>
      exists (w : wid) b, In w (map fst pool) /\ procs s' (Wk w) = Ret (EWorker b) /\ bk_state b <> slice (fst w) (bk_state start)).
  Proof.
    intros Hp Hlen Hcfg Hreg Hcap Hs Hbs. destruct (pool_ok n workers pool msgs rest Hp) as (_ & Ht & (b & Hb & Hbl & _) & _).
    assert (Hlt : b < n).
    { destruct (Z.eq_dec b n) as [->|]; [|lia]. exfalso. assert (Hnd := Hnd n n pool Hb Ht Hbl). assert (Hall : forall w : wid, In w (map fst pool) -> w = ((0, 2 ^ n), (0, 2 ^ n))).
      { intros w Hw. apply (Hws n n pool Hb Ht Hbl) in Hw. rewrite Z.sub_diag in Hw. change (2 ^ 0) with 1 in Hw. destruct Hw as [H1 H2]. apply blks_in in H1, H2. destruct H1 as (i & Hi & E1), H2 as (j & Hj & E2).
        destruct w as [r1 r2]. cbn [fst snd] in E1, E2. subst. unfold blk. replace i with 0 by lia. replace j with 0 by lia. rewrite Z.mul_0_l, Z.add_0_l, Z.mul_1_l. reflexivity. }
      destruct pool as [|e1 [|e2 pool]]; cbn in Hlen; try lia. cbn [map] in Hnd, Hall. inversion Hnd as [|x l Hx Hn]. apply Hx. rewrite (Hall (fst e1)) by (left; reflexivity). rewrite <- (Hall (fst e2)) by (right; left; reflexivity). left. reflexivity. }
    assert (Hb' : 0 <= b < n) by lia.
    assert (Hu := start_unfed n b pool junk0 junk start bs Hb' Ht Hbl Hs Hbs).
    assert (Hin : In ((blk (2 ^ b) 1, blk (2 ^ b) 0) : wid) (map fst pool)).
    { apply (Hws n b pool Hb Ht Hbl). assert (2 <= 2 ^ (n - b)) by (change 2 with (2 ^ 1) at 1; apply Z.pow_le_mono_r; lia). split; apply blks_in; [exists 1|exists 0]; split; auto; lia. }
    destruct (idle_ends cap rsqrt cfg job (1) n b pool Hb Ht Hbl (capacities_none _ _ _ Hcap) envs bs) as [bound H]. exists bound. intros sched s' Hr. destruct (H sched s' Hr) as [H1 [H2|H2]]; (split; [exact H1|]); [left|right; exact H2].
    destruct H2 as [_ H2]. exists (blk (2 ^ b) 1, blk (2 ^ b) 0), (bs (blk (2 ^ b) 1, blk (2 ^ b) 0)). split; [exact Hin|]. split; [apply H2, Hin|]. intros E. apply (Hu _ Hin) in E. unfold blk in E. cbn [fst snd] in E.
    assert (0 < 2 ^ b) by (apply Z.pow_pos_nonneg; lia). lia.
  Qed.

  Lemma registered_sync (rsqrt : K -> K) cfg job n workers pool msgs rest envs (b : wid -> backend K) :
    make_pool n workers = Ok (pool, msgs, rest) -> configured job (map fst pool) cfg -> connected (map fst pool) cfg ->
    (forall w : wid, In w (map fst pool) -> zlen (bk_state (b w)) = snd (fst w) - fst (fst w)) -> (forall w : wid, In w (map fst pool) -> envs w <> []) ->
    always_ends pid_eqb (fun _ _ => None) (sync_net rsqrt (map fst pool) (Some 0) false cfg envs b) (fun s' =>
      forall w : wid, In w (map fst pool) -> exists vec, procs s' (Wk w) = Ret (EWorker (set_state (b w) vec)) /\
        forall i, znth 0%r vec i = sum (filter (fun v => range_eqb (snd v) (fst w)) (map fst pool)) (fun v => znth 0%r (bk_state (b v)) i)).
  Proof.
    intros Hp Hcfg Hreg Hl He. destruct (pool_ok n workers pool msgs rest Hp) as (_ & Ht & (q & Hb & Hbl & _) & _).
    destruct (sync_ends (fun _ _ => None) rsqrt cfg job (Z.to_nat (2 ^ q) + 1) n q pool Hb Ht Hbl Hcfg Hreg (capacities_none _ _ _ (fun _ _ => eq_refl)) (Some 0) false envs b) as [bound H]; auto.
    { intros w Hw. rewrite Hl by exact Hw. destruct (proj1 (Hws n q pool Hb Ht Hbl w) Hw) as [H1 _]. apply blks_in in H1. destruct H1 as (i & _ & E). rewrite E. unfold blk. cbn [fst snd]. lia. }
    exists bound. intros sched s' Hr. destruct (H sched s' Hr) as [H1 [H2|H2]]; (split; [exact H1|]); [left|right; exact H2].
    intros w Hw. destruct (proj2 H2 w Hw) as (vec & E1 & _ & E2). exists vec. split; [exact E1|]. exact E2.
  Qed.

  (** an execution that has stopped for good determines all others *)
  Lemma stuck_all (cap : pid -> pid -> option nat) (s t : net pid (msg K) (ending K)) sched g : runs pid_eqb cap s sched = Some t -> (forall i, exec pid_eqb cap t i = None \/ exists r, procs s i = Ret r) -> (forall e, procs t g <> Ret e) ->
    forall sched' s', runs pid_eqb cap s sched' = Some s' -> forall e, procs s' g <> Ret e.
  Proof.
    intros E Ht0 Hg sched' s' E' e He. assert (G : forall sched s, runs pid_eqb cap s sched = Some t -> go pid_eqb cap s t).
    { clear. induction sched as [|i sched IH]; intros s E; cbn in E; [injection E as ->; apply go_refl, eqv_refl|]. destruct (exec pid_eqb cap s i) as [a|] eqn:Ei; [|discriminate].
      destruct (IH a E) as [l G]. exists (i :: l). cbn. exists a. split; [exact Ei|exact G]. }
    assert (Ht : forall i, exec pid_eqb cap t i = None).
    { intros i. destruct (Ht0 i) as [H|[r Hr]]; [exact H|]. unfold exec. rewrite (ended_go pid_eqb pid_eqb_ok cap s t i r Hr (G sched s E)). reflexivity. }
    destruct (join pid_eqb pid_eqb_ok cap sched' s t s' (G sched s E) E') as (u & [l Gu] & Gs). destruct l as [|i l]; cbn in Gu; [|destruct Gu as (a & Ea & _); rewrite Ht in Ea; discriminate].
    assert (Eu := ended_go pid_eqb pid_eqb_ok cap s' u g e He Gs). destruct Gu as [Hp _]. specialize (Hp g). rewrite Eu in Hp. inversion Hp as [r' E1 E2| | |]. apply (Hg e). symmetry. congruence.
  Qed.
  Lemma stuck_check (cap : pid -> pid -> option nat) rsqrt n ws (jops : list (wop K * K)) cfg envs bs sched :
    option_map (fun t => (forallb (fun p => match exec pid_eqb cap t p with None => true | _ => false end) (Mgr :: map Wk ws), match procs t Mgr with Ret _ => true | _ => false end))
      (runs pid_eqb cap (job_net rsqrt n ws jops cfg envs bs) sched) = Some (true, false) ->
    forall sched' s', runs pid_eqb cap (job_net rsqrt n ws jops cfg envs bs) sched' = Some s' -> forall e, procs s' Mgr <> Ret e.
  Proof.
    destruct (runs pid_eqb cap (job_net rsqrt n ws jops cfg envs bs) sched) as [t|] eqn:E; [|discriminate]. cbn [option_map]. intros H.
    destruct (forallb _ (Mgr :: map Wk ws)) eqn:H1; [|discriminate]. assert (H2 : match procs t Mgr with Ret _ => true | _ => false end = false) by (injection H as H; exact H).
    apply (stuck_all cap _ t sched Mgr E).
    - rewrite forallb_forall in H1. intros i. assert (Hi : In i (Mgr :: map Wk ws) \/ exists r, procs (job_net rsqrt n ws jops cfg envs bs) i = Ret r).
      { destruct i as [|w]; [left; left; reflexivity|]. destruct (existsb (wid_eqb w) ws) eqn:Ew.
        - left. right. apply existsb_exists in Ew. destruct Ew as (x & Hx & Ex). apply wid_eqb_ok in Ex. subst. apply in_map, Hx.
        - right. cbn [job_net procs]. rewrite Ew. eexists. reflexivity. }
      destruct Hi as [Hi|Hi]; [left|right; exact Hi]. specialize (H1 i Hi). destruct (exec pid_eqb cap t i); [discriminate|reflexivity].
    - intros e Ee. rewrite Ee in H2. discriminate.
  Qed.
End Whole.
