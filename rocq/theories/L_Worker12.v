(** The distribution of the outcome of a distributed measurement. *)
From Coq Require Import Reals Lra.
From Verif Require Import Base BaseR M_Bits S_Bits L_Bits M_Kron S_Kron M_Feed M_Measure S_Measure L_Measure1 L_Measure2 L_Measure3 L_Measure4 M_Pool S_Pool M_Net S_Net M_Worker S_Worker L_Worker1 L_Worker2 L_Worker3 L_Worker4 L_Worker5 L_Worker6 L_Worker9 L_Worker10 L_Worker11.

Section Possible.
  Context {K : Type} {OK : OrdRing K}.
  Add Ring KRingW12 : (@rth K _).
  Lemma sum_le {A} (f g : A -> K) l : (forall x, In x l -> rle (f x) (g x)) -> rle (sum l f) (sum l g).
  Proof. induction l as [|x l IH]; intros H; cbn [sum]; [apply rle_refl|]. apply rle_add; [apply H; left; reflexivity|apply IH; intros y Hy; apply H; right; exact Hy]. Qed.
  Lemma possible (rsqrt : K -> K) n bq pool (b : backend K) indices r (r2 : range -> K) :
    0 <= bq <= n -> tiles (2 ^ n) pool -> blocks (2 ^ bq) pool -> full_backend b -> bk_n b = n -> qubits_ok n indices -> tprob (bk_state b) = 1%r ->
    rlt 0%r r -> rle r 1%r -> (forall a, In (a, a) (map fst pool) -> rlt 0%r (tprob (slice a (bk_state b))) -> draw_ok (r2 a) (tprob (slice a (bk_state b)))) ->
    exists a m p b1, In (a, a) (map fst pool) /\ drawn n indices (bk_state b) r a (r2 a) m /\
      bk_measure rsqrt 0%r 0%r b indices (Some m) None 0 0 = Ok ((m, p), b1) /\ rlt 0%r p /\ rle p 1%r /\
      forall a' m', In (a', a') (map fst pool) -> drawn n indices (bk_state b) r a' (r2 a') m' -> a' = a /\ m' = m.
  Proof.
    intros Hbq Ht Hb HB En HI H1 Hr Hr1 H2. assert (HB' := HB). destruct HB' as (Hn & Hst & Har). rewrite En in *.
    destruct (drawn_exists n bq pool Hbq Ht Hb indices (bk_state b) r r2 HI Hst Hr) as (a & m & Ha & Hd & Hp); [rewrite H1; exact Hr1|exact H2|].
    assert (Hm : 0 <= m < 2 ^ zlen indices) by apply Hd.
    set (p := marginal n (measured_order n indices) (amp_at 0 (bk_state b)) m) in *.
    assert (Hp1 : rle p 1%r).
    { rewrite <- H1. assert (HS : slice_ok n 0 (bk_state b)) by (split; lia). rewrite <- (B_all n indices 0 (bk_state b) Hn HI HS).
      eapply rle_trans; [|apply below_mono with (v := m + 1); lia]. rewrite below_succ by lia. fold p. replace (below n (measured_order n indices) (amp_at 0 (bk_state b)) m + p)%r with (p + below n (measured_order n indices) (amp_at 0 (bk_state b)) m)%r by ring.
      apply rle_plus. apply sum_nonneg. intros; apply marginal_nonneg. }
    assert (Hm' : exists b1, bk_measure rsqrt 0%r 0%r b indices (Some m) None 0 0 = Ok ((m, p), b1)).
    { unfold bk_measure. rewrite En. rewrite (measure_ok n indices Hn HI rsqrt _ _ 0 0 (bk_state b) (bk_arena b) (Some m) None m p).
      - cbn [bind fst snd]. eauto.
      - split; lia. - split; lia.
      - cbn [bad_measured]. destruct (Z.leb_spec 0 m); [|lia]. destruct (Z.ltb_spec m (2 ^ zlen indices)); [reflexivity|lia].
      - reflexivity.
      - cbn [choose]. apply soft_forced; auto. split; lia.
      - exact Hm.
      - intros E. rewrite E in Hp. exact (rlt_irrefl _ Hp). }
    destruct Hm' as [b1 Eb]. exists a, m, p, b1. repeat split; auto; try apply Hd.
    - eapply (drawn_unique n bq pool Hbq Ht Hb indices (bk_state b) r r2 a' a m' m); auto.
    - eapply (drawn_unique n bq pool Hbq Ht Hb indices (bk_state b) r r2 a' a m' m); auto.
  Qed.
  Lemma unnormalised cap (rsqrt : K -> K) cfg n bq pool indices r rest envs bs (local : backend K) :
    0 <= bq <= n -> tiles (2 ^ n) pool -> blocks (2 ^ bq) pool -> capacities cap (map fst pool) 1 ->
    full_backend local -> bk_n local = n -> qubits_ok n indices ->
    (forall w : wid, In w (map fst pool) -> holds n (bk_state local) w (bs w)) ->
    (forall w : wid, In w (map fst pool) -> exists e es, envs w = e :: es /\ e_acc0 e = 0%r) ->
    draw_ok r (tprob (bk_state local)) -> rlt (tprob (bk_state local)) r ->
    (exists m p b, bk_measure rsqrt r 0%r local indices None None 0 0 = Ok ((m, p), b)) /\
    always_ends pid_eqb cap (job_net rsqrt n (map fst pool) ((wop_of (LMeasure indices), r) :: rest) cfg envs bs) (fun s' =>
      procs s' Mgr = Fail AttributeError /\ forall w : wid, In w (map fst pool) -> procs s' (Wk w) = Ret (EWorker (bs w))).
  Proof.
    intros Hbq Ht Hb Hcap HB En HI Hh He Hd Hr. split.
    - destruct (measure_total rsqrt r local indices HB ltac:(rewrite En; exact HI) Hd) as (m & p & b & _ & E & _). eauto.
    - apply (no_worker cap rsqrt cfg 0 n bq pool Hbq Ht Hb Hcap indices r rest envs bs (bk_state local)); auto. destruct HB as (_ & H & _). congruence.
  Qed.
End Possible.

Section Area.
  Local Open Scope R_scope.
  Lemma rltR (a b : R) : rlt a b <-> a < b.
  Proof. rewrite rlt_not_le. unfold rle. cbn [rleb ROrdRing]. rewrite Rleb_le. lra. Qed.
  Lemma rleR (a b : R) : rle a b <-> a <= b.
  Proof. unfold rle. cbn [rleb ROrdRing]. apply Rleb_le. Qed.

  (** the draws that lead to block a and outcome m form a rectangle, and the rectangles of an outcome add up to its probability *)
  Lemma born_area n bq pool indices (vec : list (Cx R)) :
    (0 <= bq <= n)%Z -> tiles (2 ^ n)%Z pool -> blocks (2 ^ bq)%Z pool -> qubits_ok n indices -> zlen vec = (2 ^ n)%Z ->
    exists (lo len : range -> R) (lo2 len2 : range -> Z -> R),
      (forall r a r2 m, In (a, a) (map fst pool) -> (0 <= m < 2 ^ zlen indices)%Z ->
         (drawn n indices vec r a r2 m <-> lo a < r <= lo a + len a /\ lo2 a m < r2 <= lo2 a m + len2 a m)) /\
      forall m, sum (filter is_diagonal (map fst pool)) (fun w => len (fst w) * len2 (fst w) m) = marginal n (measured_order n indices) (amp_at 0 vec) m.
  Proof.
    intros Hbq Ht Hb HI Hv.
    set (T := fun a : range => tprob (slice a vec) : R).
    set (B := fun (a : range) m => below n (measured_order n indices) (amp_at (fst a) (slice a vec)) m : R).
    set (M := fun (a : range) m => marginal n (measured_order n indices) (amp_at (fst a) (slice a vec)) m : R).
    set (Pf := fun a : range => tprob (slice (0%Z, fst a) vec) : R).
    exists Pf, T, (fun a m => B a m / T a), (fun a m => M a m / T a).
    assert (Hws := L_Worker5.Hws n bq pool Hbq Ht Hb).
    assert (HT : forall a, 0 <= T a) by (intros a; apply rleR; exact (tprob_nonneg (K := R) (slice a vec))).
    split.
    - intros r a r2 m Ha Hm. apply Hws in Ha. destruct Ha as [Ha _]. cbn [fst] in Ha.
      assert (E2 : tprob (slice (0%Z, snd a) vec) = Pf a + T a).
      { destruct (dg_split n bq Hbq a Ha) as (pre & post & _ & X). destruct (X vec Hv) as [X1 X2]. unfold Pf. rewrite X1. exact X2. }
      assert (E3 : B a (m + 1)%Z = B a m + M a m) by (unfold B, M; rewrite below_succ by lia; reflexivity).
      unfold drawn. rewrite E2. fold (B a m). fold (Pf a) (T a).
      change (below n (measured_order n indices) (amp_at (fst a) (slice a vec))) with (B a). rewrite E3. rewrite !rltR, !rleR. change (@rmul R (@or_ring R ROrdRing) r2 (T a)) with (Rmult r2 (T a)).
      split.
      + intros ((P1 & P2) & _ & Q1 & Q2). assert (0 < T a) by lra. split; [lra|]. split; [apply Rmult_lt_reg_r with (T a); auto|apply Rmult_le_reg_r with (T a); auto]; unfold Rdiv; [rewrite Rmult_assoc, Rinv_l by lra; lra|].
        rewrite Rmult_plus_distr_r, !Rmult_assoc, Rinv_l by lra. lra.
      + intros ((P1 & P2) & Q1 & Q2). assert (0 < T a) by lra. split; [lra|]. split; [exact Hm|].
        apply (Rmult_lt_compat_r (T a)) in Q1; auto. apply (Rmult_le_compat_r (T a)) in Q2; [|lra]. unfold Rdiv in Q1, Q2. rewrite Rmult_assoc, Rinv_l in Q1 by lra. rewrite Rmult_plus_distr_r, !Rmult_assoc, Rinv_l in Q2 by lra. lra.
    - intros m. rewrite <- (marginal_parts n _ vec (2 ^ bq) (2 ^ (n - bq)) m (size_pos n bq Hbq) (Z.lt_le_incl _ _ (N_pos n bq Hbq)) (Nsize n bq Hbq) Hv).
      rewrite (sum_perm _ (dg n bq)).
      2:{ apply NoDup_Permutation; [apply NoDup_filter, (L_Worker5.Hnd n bq pool Hbq Ht Hb)|apply dg_nodup, Hbq|]. intros w. rewrite filter_In, (dg_in n bq pool Hbq Ht Hb). unfold is_diagonal. rewrite range_eqb_ok. reflexivity. }
      unfold dg. rewrite sum_map. apply sum_ext. intros a Ha. cbn [fst]. fold (M a m).
      destruct (Req_dec (T a) 0) as [E|E]; [|field; exact E]. rewrite E, Rmult_0_l.
      (* a block without probability *)
      assert (Hs : slice_ok n (fst a) (slice a vec)) by (apply (slice_inside n bq Hbq a vec Ha Hv)).
      assert (H0 : 0 <= M a m) by (apply rleR; exact (marginal_nonneg (K := R) n (measured_order n indices) (amp_at (fst a) (slice a vec)) m)).
      assert (H1 : M a m <= T a).
      { unfold M, T. rewrite <- (tprob_slice n (fst a)) by (auto; lia). apply rleR. unfold marginal. apply sum_le. intros x _. destruct (_ =? _)%Z; [apply rle_refl|apply cnorm2_nonneg]. }
      cbn [rO ROrdRing RCRing or_ring] in *. lra.
  Qed.
End Area.
