(** Distributed measurement. *)
From Coq Require Import Sorted.
From Verif Require Import Base M_Bits S_Bits L_Bits M_Kron S_Kron L_Kron L_Kron2 L_Kron3 M_Feed M_Measure S_Measure L_Measure1 L_Measure2 L_Measure3 L_Measure4 M_Pool S_Pool M_Net S_Net L_Net M_Worker S_Worker L_Worker1 L_Worker2 L_Worker3 L_Worker4 L_Worker5 L_Worker6.

(** ** The diagonal workers in order *)
Lemma insert_wid_perm w l : Permutation (w :: l) (insert_wid w l).
Proof. induction l as [|x l IH]; cbn [insert_wid]; [apply Permutation_refl|]. destruct (wid_ltb w x); [apply Permutation_refl|]. eapply perm_trans; [apply perm_swap|]. apply perm_skip, IH. Qed.
Lemma sort_wids_perm l : Permutation l (sort_wids l).
Proof.
  unfold sort_wids. assert (G : forall l acc, Permutation (acc ++ l) (fold_left (fun acc w => insert_wid w acc) l acc)).
  { clear. induction l as [|x l IH]; intros acc; cbn [fold_left]; [rewrite app_nil_r; apply Permutation_refl|]. eapply perm_trans; [|apply IH]. eapply perm_trans; [apply Permutation_sym, Permutation_middle|]. change (x :: acc ++ l) with ((x :: acc) ++ l). apply Permutation_app_tail, insert_wid_perm. }
  exact (G l []).
Qed.
Section Sorting.
  Context (size : Z).
  Hypothesis Hs : 0 < size.
  Definition dkey (w : wid) : Z := fst (fst w).
  Definition diag_at (w : wid) : Prop := exists i, w = (blk size i, blk size i).
  Lemma dkey_ltb w x : diag_at w -> diag_at x -> wid_ltb w x = (dkey w <? dkey x).
  Proof.
    intros [i ->] [j ->]. unfold wid_ltb, range_ltb, range_eqb, dkey, blk. cbn [fst snd]. destruct (Z.ltb_spec (i * size) (j * size)) as [H|H]; [reflexivity|]. cbn [orb].
    destruct (Z.eqb_spec (i * size) (j * size)) as [E|E]; [|reflexivity]. assert (i = j) by nia. subst. rewrite Z.ltb_irrefl. rewrite !andb_false_r. reflexivity.
  Qed.
  Lemma insert_sorted w l : diag_at w -> Forall diag_at l -> ~ In w l -> StronglySorted (fun a b => dkey a < dkey b) l -> StronglySorted (fun a b => dkey a < dkey b) (insert_wid w l).
  Proof.
    intros Hw Hl Hn H. induction H as [|x l H IH Hx]; cbn [insert_wid]; [constructor; constructor|]. inversion Hl; subst.
    rewrite dkey_ltb by assumption. destruct (Z.ltb_spec (dkey w) (dkey x)) as [E|E].
    - constructor; [constructor; assumption|]. constructor; [exact E|]. eapply Forall_impl; [|exact Hx]. intros a Ha. cbn beta in Ha. lia.
    - assert (dkey x < dkey w). { destruct (Z.eq_dec (dkey x) (dkey w)) as [E2|]; [|lia]. exfalso. apply Hn. left. destruct Hw as [i ->], H2 as [j ->]. unfold dkey, blk in E2. cbn in E2. assert (i = j) by nia. subst. reflexivity. }
      constructor; [apply IH; [assumption|intros Hin; apply Hn; right; exact Hin]|]. eapply Permutation_Forall; [apply insert_wid_perm|]. constructor; assumption.
  Qed.
  Lemma sort_sorted l : Forall diag_at l -> NoDup l -> StronglySorted (fun a b => dkey a < dkey b) (sort_wids l).
  Proof.
    unfold sort_wids. assert (G : forall l acc, Forall diag_at (acc ++ l) -> NoDup (acc ++ l) -> StronglySorted (fun a b => dkey a < dkey b) acc -> StronglySorted (fun a b => dkey a < dkey b) (fold_left (fun acc w => insert_wid w acc) l acc)).
    { clear - Hs. induction l as [|x l IH]; intros acc Ha Hn H; cbn [fold_left]; [exact H|].
      assert (Pm : Permutation (acc ++ x :: l) (insert_wid x acc ++ l)) by (eapply perm_trans; [apply Permutation_sym, Permutation_middle|]; change (x :: acc ++ l) with ((x :: acc) ++ l); apply Permutation_app_tail, insert_wid_perm).
      apply IH; [eapply Permutation_Forall; eassumption|eapply Permutation_NoDup; eassumption|]. rewrite Forall_app in Ha. destruct Ha as [Ha Hx]. inversion Hx; subst. apply insert_sorted; auto.
      apply NoDup_remove_2 in Hn. intros Hin. apply Hn, in_or_app. auto. }
    intros H1 H2. apply (G l []); auto. constructor.
  Qed.
  Lemma sorted_unique (l l' : list wid) : StronglySorted (fun a b => dkey a < dkey b) l -> StronglySorted (fun a b => dkey a < dkey b) l' -> Permutation l l' -> l = l'.
  Proof.
    intros H. revert l'. induction H as [|x l H IH Hx]; intros l' H' Pm; [apply Permutation_nil in Pm; auto|]. destruct H' as [|y l' H' Hy]; [apply Permutation_sym, Permutation_nil in Pm; discriminate|].
    assert (E : x = y).
    { assert (H1 : In x (y :: l')) by (eapply Permutation_in; [exact Pm|left; reflexivity]). assert (H2 : In y (x :: l)) by (eapply Permutation_in; [apply Permutation_sym; exact Pm|left; reflexivity]).
      destruct H1 as [->|H1]; [reflexivity|]. destruct H2 as [->|H2]; [reflexivity|]. rewrite Forall_forall in Hx, Hy. specialize (Hx y H2). specialize (Hy x H1). cbn beta in *. lia. }
    subst y. f_equal. apply IH; [exact H'|]. eapply Permutation_cons_inv. exact Pm.
  Qed.
End Sorting.

Section Parts.
  Context {K : Type} {OK : OrdRing K}.
  Notation C := (Cx K).
  Add Ring KRingW9 : (@rth K _).
  Add Ring CRingW9 : (@rth (Cx K) _).

  Lemma tprob_app (a b : list C) : tprob (a ++ b) = (tprob a + tprob b)%r.
  Proof. unfold tprob. apply sum_app. Qed.
  Lemma tprob_nonneg (a : list C) : rle 0%r (tprob a).
  Proof. apply sum_nonneg. intros; apply cnorm2_nonneg. Qed.
  Lemma prefix_split (vec : list C) a b : 0 <= a <= b -> b <= zlen vec -> slice (0, b) vec = slice (0, a) vec ++ slice (a, b) vec.
  Proof.
    intros H1 H2. unfold slice, pyslice. cbn [fst snd skipn]. rewrite !Z.sub_0_r. change (Z.to_nat 0) with O. cbn [skipn].
    rewrite <- (firstn_skipn (Z.to_nat a) (firstn (Z.to_nat b) vec)). rewrite firstn_firstn, Nat.min_l by lia. f_equal. rewrite skipn_firstn_comm. f_equal. lia.
  Qed.
  Lemma prefix_sum (vec : list C) size N : 0 < size -> zlen vec = N * size -> forall k, Z.of_nat k <= N -> tprob (slice (0, Z.of_nat k * size) vec) = sum (blks size (Z.of_nat k)) (fun a => tprob (slice a vec)).
  Proof.
    intros Hs Hv. induction k as [|k IH]; intros Hk; [reflexivity|]. replace (Z.of_nat (S k)) with (Z.of_nat k + 1) by lia.
    rewrite (prefix_split vec (Z.of_nat k * size)) by nia. rewrite tprob_app, IH by lia. unfold blks at 2. rewrite zrange_snoc by lia. rewrite map_app, sum_app. cbn [map sum]. replace (Z.of_nat k + 1 - 1) with (Z.of_nat k) by lia.
    unfold blks. change (Z.of_nat k * size, (Z.of_nat k + 1) * size) with (blk size (Z.of_nat k)). ring.
  Qed.
  Lemma slice_nth (vec : list C) size N i x : 0 < size -> zlen vec = N * size -> 0 <= i < N -> amp_at (fst (blk size i)) (slice (blk size i) vec) x = if (i * size <=? x) && (x <? (i + 1) * size) then znth 0%r vec x else 0%r.
  Proof.
    intros Hs Hv Hi. unfold amp_at, blk. cbn [fst]. unfold slice, pyslice, znth. cbn [fst snd].
    destruct (Z.leb_spec (i * size) x) as [H1|H1]; cbn [andb]; [|destruct (Z.ltb_spec (x - i * size) 0); [reflexivity|lia]].
    destruct (Z.ltb_spec (x - i * size) 0) as [H2|H2]; [lia|]. destruct (Z.ltb_spec x 0) as [H3|H3]; [nia|]. destruct (Z.ltb_spec x ((i + 1) * size)) as [H4|H4].
    - assert (Hl : (Z.to_nat (x - i * size) < Z.to_nat ((i + 1) * size - i * size))%nat) by lia.
      assert (E : nth (Z.to_nat (x - i * size)) (firstn (Z.to_nat ((i + 1) * size - i * size)) (skipn (Z.to_nat (i * size)) vec)) 0%r = nth (Z.to_nat (x - i * size)) (skipn (Z.to_nat (i * size)) vec) 0%r).
      { rewrite <- (firstn_skipn (Z.to_nat ((i + 1) * size - i * size)) (skipn (Z.to_nat (i * size)) vec)) at 2. rewrite app_nth1; [reflexivity|]. rewrite firstn_length, skipn_length. unfold zlen in Hv. nia. }
      rewrite E. rewrite <- (firstn_skipn (Z.to_nat (i * size)) vec) at 2. rewrite app_nth2; rewrite firstn_length; unfold zlen in Hv; [f_equal; nia|nia].
    - apply nth_overflow. rewrite firstn_length. lia.
  Qed.
  Lemma marginal_parts n g (vec : list C) size N m : 0 < size -> 0 <= N -> N * size = 2 ^ n -> zlen vec = 2 ^ n ->
    sum (blks size N) (fun a => marginal n g (amp_at (fst a) (slice a vec)) m) = marginal n g (amp_at 0 vec) m.
  Proof.
    intros Hs HN HE Hv. unfold marginal. rewrite sum_swap. apply sum_ext. intros x Hx. apply in_zrange in Hx. unfold blks. rewrite sum_map.
    destruct (reg n g x =? m); [|apply sum_zero; reflexivity]. rewrite (sum_single _ (x / size)).
    - rewrite (slice_nth vec size N) by (first [lia|split; [apply Z.div_pos; lia|apply Z.div_lt_upper_bound; nia]]).
      pose proof (Z.mul_div_le x size Hs). pose proof (Z.mul_succ_div_gt x size Hs).
      destruct (Z.leb_spec (x / size * size) x); [|lia]. destruct (Z.ltb_spec x ((x / size + 1) * size)); [|lia]. cbn [andb]. unfold amp_at. rewrite Z.sub_0_r. reflexivity.
    - apply zrange_nodup.
    - apply in_zrange. split; [apply Z.div_pos; lia|apply Z.div_lt_upper_bound; nia].
    - intros i Hi Hne. apply in_zrange in Hi. rewrite (slice_nth vec size N) by lia. destruct (Z.leb_spec (i * size) x); cbn [andb]; [|apply cnorm2_0]. destruct (Z.ltb_spec x ((i + 1) * size)); [|apply cnorm2_0].
      exfalso. apply Hne. apply Z.div_unique with (r := x - size * i); lia.
  Qed.
End Parts.

Section MeasL.
  Context {K : Type} {OK : OrdRing K}.
  Notation C := (Cx K).
  Notation msg := (msg K).
  Add Ring KRingW9m : (@rth K _).
  Variable cap : pid -> pid -> option nat.
  Notation go := (go pid_eqb cap).
  Context (rsqrt : K -> K) (cfg : wid -> worker_cfg) (job : Z) (room : nat) (n bq : Z) (pool : list entry).
  Let ws : list wid := map fst pool.
  Let size := 2 ^ bq.
  Let N := 2 ^ (n - bq).
  Let rs := blks size N.
  Let sz := Z.to_nat size.
  Hypothesis Hbq : 0 <= bq <= n.
  Hypothesis Ht : tiles (2 ^ n) pool.
  Hypothesis Hb : blocks (2 ^ bq) pool.
  Hypothesis Hcfg : configured job ws cfg.
  Hypothesis Hreg : connected ws cfg.
  Hypothesis Hcap : capacities cap ws room.
  Notation phase := (phase ws job).
  Let Hnd : NoDup ws := Hnd n bq pool Hbq Ht Hb.
  Let Hws : forall w : wid, In w ws <-> In (fst w) rs /\ In (snd w) rs := Hws n bq pool Hbq Ht Hb.
  Let Hnr : NoDup rs := Hnr n bq Hbq.
  Let Hsp : 0 < size := size_pos n bq Hbq.
  Let HN : N * size = 2 ^ n := Nsize n bq Hbq.
  Let HNp : 0 < N := N_pos n bq Hbq.

  Definition dg : list wid := map (fun a : range => (a, a)) rs.
  Lemma dg_in w : In w dg <-> In w ws /\ fst w = snd w.
  Proof.
    unfold dg. rewrite in_map_iff, Hws. destruct w as [i o]. cbn [fst snd]. split.
    - intros (a & E & H). inversion E. subst. auto.
    - intros ((H1 & H2) & ->). eauto.
  Qed.
  Lemma dg_nodup : NoDup dg.
  Proof. apply FinFun.Injective_map_NoDup; [|exact Hnr]. intros a b E. inversion E. reflexivity. Qed.
  Lemma dg_diag : Forall (diag_at size) dg.
  Proof. apply Forall_forall. intros w Hw. unfold dg in Hw. apply in_map_iff in Hw. destruct Hw as (a & <- & Ha). apply blks_in in Ha. destruct Ha as (i & _ & ->). exists i. reflexivity. Qed.
  Lemma dg_sorted : StronglySorted (fun a b => dkey a < dkey b) dg.
  Proof.
    unfold dg, rs, blks. rewrite map_map. generalize 0 at 1. intros lo. assert (G : forall k lo, StronglySorted (fun a b => dkey a < dkey b) (map (fun i => (blk size i, blk size i)) (zrange lo (lo + Z.of_nat k)))).
    { clear lo. induction k as [|k IH]; intros lo; [rewrite zrange_empty by lia; constructor|]. rewrite zrange_cons by lia. cbn [map]. constructor; [replace (lo + Z.of_nat (S k)) with (lo + 1 + Z.of_nat k) by lia; apply IH|].
      apply Forall_forall. intros w Hw. apply in_map_iff in Hw. destruct Hw as (i & <- & Hi). apply in_zrange in Hi. unfold dkey, blk. cbn [fst]. nia. }
    destruct (Z.leb_spec lo N); [|rewrite zrange_empty by lia; constructor]. specialize (G (Z.to_nat (N - lo)) lo). replace (lo + Z.of_nat (Z.to_nat (N - lo))) with N in G by lia. exact G.
  Qed.
  Lemma diagonal_is : diagonal_workers ws = dg.
  Proof.
    assert (Pm : Permutation (filter (fun w => range_eqb (fst w) (snd w)) ws) dg).
    { apply NoDup_Permutation; [apply NoDup_filter, Hnd|apply dg_nodup|]. intros w. rewrite filter_In, range_eqb_ok, dg_in. reflexivity. }
    unfold diagonal_workers. apply sorted_unique.
    - apply (sort_sorted size Hsp); [eapply Permutation_Forall; [apply Permutation_sym; exact Pm|apply dg_diag]|apply NoDup_filter, Hnd].
    - apply dg_sorted.
    - eapply perm_trans; [apply Permutation_sym, sort_wids_perm|exact Pm].
  Qed.

  Lemma select_ok (f : wid -> K) (pre : list wid) w post : forall i r, (forall w', In w' (pre ++ w :: post) -> rle 0%r (f w')) ->
    rlt (sum pre f) r -> rle r (sum pre f + f w)%r -> select i (map (fun w => CProb 0 (f w)) (pre ++ w :: post)) r = Some (i + length pre)%nat.
  Proof.
    induction pre as [|x pre IH]; intros i r Hp H1 H2; cbn [app map select conf_prob length sum] in *.
    - rewrite Nat.add_0_r. assert (E : rleb (r - f w)%r 0%r = true); [|rewrite E; reflexivity]. apply rle_sub_0. replace (f w) with (0 + f w)%r by ring. exact H2.
    - assert (Hx : rle 0%r (sum pre f)) by (apply sum_nonneg; intros w' Hw'; apply Hp; right; apply in_or_app; auto).
      assert (E : rleb (r - f x)%r 0%r = false).
      { destruct (rleb (r - f x)%r 0%r) eqn:E; [|reflexivity]. exfalso. apply (rle_sub_0 r (f x)) in E. apply (rlt_irrefl r). eapply rle_lt_trans; [exact E|]. eapply rle_lt_trans; [|exact H1].
        replace (f x) with (f x + 0)%r at 1 by ring. apply rle_add_l. exact Hx. }
      rewrite E. rewrite IH; [f_equal; lia|intros w' Hw'; apply Hp; right; exact Hw'| |].
      + apply rlt_not_le. intros H. apply rlt_not_le in H1. apply H1. replace r with (f x + (r - f x))%r by ring. apply rle_add_l. exact H.
      + apply rle_add_cancel_l with (c := f x). replace (f x + (r - f x))%r with r by ring. replace (f x + (sum pre f + f w))%r with (f x + sum pre f + f w)%r by ring. exact H2.
  Qed.

  Lemma bind_single op (w : wid) (A : Type) (F : conf K -> proc pid msg A) : peq (pbind (Send (Wk w) (MOp op) (Ret tt)) (fun _ => pbind (recv_conf w) F)) (pbind (map_workers_via_op op [w]) (fun cs => F (hd CDone cs))).
  Proof.
    unfold map_workers_via_op, send_to_each_of, receive_from_each_of, recv_conf. cbn [pfold pbind]. constructor. constructor. intros m. destruct m; cbn [pbind app hd]; try apply peq_fail. apply peq_refl.
  Qed.

  (** the workers' parts in the order of the blocks *)
  Lemma dg_split a : In a rs -> exists pre post, rs = pre ++ a :: post /\ (forall vec : list C, zlen vec = 2 ^ n ->
    tprob (slice (0, fst a) vec) = sum pre (fun x => tprob (slice x vec)) /\ tprob (slice (0, snd a) vec) = (sum pre (fun x => tprob (slice x vec)) + tprob (slice a vec))%r).
  Proof.
    intros Ha. apply blks_in in Ha. destruct Ha as (j & Hj & ->). exists (blks size j), (map (blk size) (zrange (j + 1) N)). split.
    - unfold rs, blks. rewrite (zrange_app 0 j N) by lia. rewrite map_app. f_equal. rewrite zrange_cons by lia. reflexivity.
    - intros vec Hv. assert (E := prefix_sum vec size N Hsp ltac:(lia) (Z.to_nat j) ltac:(lia)). rewrite Z2Nat.id in E by lia. unfold blk at 1. cbn [fst]. split; [exact E|].
      unfold blk at 1. cbn [snd]. rewrite (prefix_split vec (j * size)) by nia. rewrite tprob_app, E. reflexivity.
  Qed.
End MeasL.
