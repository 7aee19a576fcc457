(** The swaps of qip/qfft.py, and splitting and merging registers. *)
From Coq Require Import Sorted.
From Verif Require Import Base S_Bits L_Bits M_Kron S_Kron M_Ops S_Ops L_Ops4 M_Feed S_Feed M_Func S_Func
  M_Measure S_Measure L_Alg M_Graph S_Graph L_Graph1 L_Graph2 L_Graph3 L_Graph5 L_Graph6 L_Graph7 L_Graph8 L_Graph9 L_Graph10 L_Graph11
  M_Context S_Context L_Fourier L_Sinks L_Grow1 L_Grow2 L_Context1 L_Context2 L_Context3 L_Context5 L_QFFT1 L_QFFT2.

Section Swaps.
  Context {K : Type} {OK : OrdRing K}.
  Notation C := (Cx K).
  Variable srcs : list nat.
  Variable cn : consts K.

  Lemma qbit_swap n a b r p : 0 <= a < n -> 0 <= b < n -> a <> b -> 0 <= p < n ->
    qbit n (setreg n [a; b] r (reg n [b; a] r)) p = if p =? a then qbit n r b else if p =? b then qbit n r a else qbit n r p.
  Proof.
    intros Ha Hb Hab Hp.
    assert (Hok : qubits_ok n [a; b]).
    { split; [constructor; [intros [->|[]]; auto|repeat constructor; auto]|intros q [<-|[<-|[]]]; auto]. }
    destruct (Z.eqb_spec p a) as [->|Na]; [|destruct (Z.eqb_spec p b) as [->|Nb]].
    - pose proof (qbit_setreg_in n [a; b] r (reg n [b; a] r) 0 Hok ltac:(change (zlen [a; b]) with 2; lia)) as E.
      change (znth 0 [a; b] 0) with a in E. rewrite E.
      pose proof (reg_testbit n [b; a] r 0 ltac:(change (zlen [b; a]) with 2; lia)) as E2. change (zlen [b; a]) with 2 in *.
      change (zlen [a; b]) with 2. rewrite E2. reflexivity.
    - pose proof (qbit_setreg_in n [a; b] r (reg n [b; a] r) 1 Hok ltac:(change (zlen [a; b]) with 2; lia)) as E.
      change (znth 0 [a; b] 1) with b in E. rewrite E.
      pose proof (reg_testbit n [b; a] r 1 ltac:(change (zlen [b; a]) with 2; lia)) as E2. change (zlen [b; a]) with 2 in *.
      change (zlen [a; b]) with 2. rewrite E2. reflexivity.
    - apply qbit_setreg_out; auto. intros [->|[->|[]]]; auto.
  Qed.

  (** qubits at distance less than [m] from the ends exchanged with their mirror images *)
  Definition mirror (n : Z) (qs : list Z) (m r : Z) : Z :=
    mkstate n (fun p => match idx p qs with
                        | Some j => if (j <? m) || (zlen qs - m <=? j) then qbit n r (znth 0 qs (zlen qs - 1 - j)) else qbit n r p
                        | None => qbit n r p
                        end).
  Lemma mkstate_range n f : 0 <= n -> 0 <= mkstate n f < 2 ^ n.
  Proof. intros Hn. unfold mkstate. pose proof (val_range (map f (zrange 0 n))) as H. rewrite zlen_map, zlen_zrange in H by lia. rewrite Z.sub_0_r in H. auto. Qed.
  Lemma mirror_range n qs m r : 0 <= n -> 0 <= mirror n qs m r < 2 ^ n.
  Proof. intros. apply mkstate_range. auto. Qed.

  Lemma swaps_mirror n qs : qubits_ok n qs -> 0 <= n -> forall m, 0 <= m <= zlen qs / 2 -> forall (v : Z -> C) r, 0 <= r < 2 ^ n ->
    fold_left (fun v i => op_acts n (OSwap 1) [[znth 0 qs i]; [znth 0 qs (zlen qs - 1 - i)]] v) (zrange 0 m) v r = v (mirror n qs m r).
  Proof.
    intros Hqs Hn m Hm. destruct Hm as [Hm0 Hm1]. revert m Hm0 Hm1. apply (natlike_ind (fun m => m <= zlen qs / 2 -> forall (v : Z -> C) r, 0 <= r < 2 ^ n ->
      fold_left (fun v i => op_acts n (OSwap 1) [[znth 0 qs i]; [znth 0 qs (zlen qs - 1 - i)]] v) (zrange 0 m) v r = v (mirror n qs m r))).
    - intros _ v r Hr. rewrite zrange_empty by lia. cbn [fold_left]. f_equal. apply (qbit_ext n); auto using mirror_range.
      intros p Hp. unfold mirror. rewrite qbit_mkstate by auto. destruct (idx p qs) as [j|] eqn:E; auto. apply idx_some in E. destruct E as [Hj Ej].
      destruct (Z.ltb_spec j 0); [lia|]. destruct (Z.leb_spec (zlen qs - 0) j); [lia|]. reflexivity.
    - intros m Hm IH Hm1 v r Hr. assert (Hk : 2 * m + 2 <= zlen qs) by (pose proof (Z.mul_div_le (zlen qs) 2); lia).
      replace (Z.succ m) with (m + 1) in * by lia. rewrite (zrange_snoc 0 (m + 1)) by lia. replace (m + 1 - 1) with m by lia.
      rewrite fold_left_app. cbn [fold_left op_acts hd tl app]. set (a := znth 0 qs m). set (b := znth 0 qs (zlen qs - 1 - m)).
      destruct Hqs as [Hnd Hin].
      assert (Ha : 0 <= a < n) by (apply Hin, znth_in; lia). assert (Hb : 0 <= b < n) by (apply Hin, znth_in; lia).
      assert (Inj : forall i j, 0 <= i < zlen qs -> 0 <= j < zlen qs -> znth 0 qs i = znth 0 qs j -> i = j) by (intros; eapply znth_nodup; eauto).
      assert (Hab : a <> b) by (intros H; apply Inj in H; lia).
      rewrite IH by (try lia; apply setreg_range; auto). f_equal. apply (qbit_ext n); auto using mirror_range.
      intros p Hp. unfold mirror. rewrite !qbit_mkstate by auto. destruct (idx p qs) as [j|] eqn:E.
      + apply idx_some in E. destruct E as [Hj Ej].
        assert (Hmir : 0 <= znth 0 qs (zlen qs - 1 - j) < n) by (apply Hin, znth_in; lia).
        assert (Hmir' : 0 <= znth 0 qs (zlen qs - 1 - (zlen qs - 1 - j)) < n) by (apply Hin, znth_in; lia).
        assert (Ema : znth 0 qs (zlen qs - 1 - j) =? a = (zlen qs - 1 - j =? m)).
        { destruct (Z.eqb_spec (zlen qs - 1 - j) m) as [Ej'|Nj]; [rewrite Ej'; apply Z.eqb_refl|]. apply Z.eqb_neq. intros H. apply Inj in H; lia. }
        assert (Emb : znth 0 qs (zlen qs - 1 - j) =? b = (j =? m)).
        { destruct (Z.eqb_spec j m) as [Ej'|Nj]; [subst j; apply Z.eqb_refl|]. apply Z.eqb_neq. intros H. apply Inj in H; lia. }
        assert (Epa : p =? a = (j =? m)).
        { rewrite <- Ej. destruct (Z.eqb_spec j m) as [Ej'|Nj]; [subst j; apply Z.eqb_refl|]. apply Z.eqb_neq. intros H. apply Inj in H; lia. }
        assert (Epb : p =? b = (zlen qs - 1 - j =? m)).
        { rewrite <- Ej. destruct (Z.eqb_spec (zlen qs - 1 - j) m) as [Ej'|Nj]; [unfold b; rewrite <- Ej'; apply Z.eqb_eq; f_equal; lia|]. apply Z.eqb_neq. intros H. apply Inj in H; lia. }
        rewrite !qbit_swap by auto. rewrite Ema, Emb, Epa, Epb.
        destruct (Z.ltb_spec j m), (Z.ltb_spec j (m + 1)), (Z.leb_spec (zlen qs - m) j), (Z.leb_spec (zlen qs - (m + 1)) j), (Z.eqb_spec (zlen qs - 1 - j) m), (Z.eqb_spec j m);
          cbn [orb]; try lia; auto.
        * unfold b. subst m. auto.
        * unfold a. f_equal. f_equal. lia.
      + apply idx_none in E. rewrite qbit_swap by auto. destruct (Z.eqb_spec p a) as [->|]; [exfalso; apply E, znth_in; lia|].
        destruct (Z.eqb_spec p b) as [->|]; [exfalso; apply E, znth_in; lia|]. auto.
  Qed.
  Lemma znth_rev (qs : list Z) j : 0 <= j < zlen qs -> znth 0 (rev qs) j = znth 0 qs (zlen qs - 1 - j).
  Proof. intros Hj. rewrite !znth_nth by lia. unfold zlen in *. rewrite rev_nth by lia. f_equal. lia. Qed.
  Lemma mirror_all n qs r : qubits_ok n qs -> 0 <= n -> 0 <= r < 2 ^ n -> mirror n qs (zlen qs / 2) r = setreg n qs r (reg n (rev qs) r).
  Proof.
    intros Hqs Hn Hr. apply (qbit_ext n); auto using mirror_range, setreg_range. intros p Hp. unfold mirror. rewrite qbit_mkstate by auto.
    assert (Hl : zlen (rev qs) = zlen qs) by (unfold zlen; rewrite rev_length; auto).
    destruct (idx p qs) as [j|] eqn:E.
    - apply idx_some in E. destruct E as [Hj Ej]. rewrite <- Ej at 2. rewrite qbit_setreg_in by auto.
      rewrite <- Hl. rewrite reg_testbit by lia. rewrite znth_rev, Hl by auto.
      pose proof (Z.div_mod (zlen qs) 2 ltac:(lia)). pose proof (Z.mod_pos_bound (zlen qs) 2 ltac:(lia)).
      destruct (Z.ltb_spec j (zlen qs / 2)); cbn [orb]; auto. destruct (Z.leb_spec (zlen qs - zlen qs / 2) j); auto.
      rewrite <- Ej. f_equal. f_equal. lia.
    - apply idx_none in E. rewrite qbit_setreg_out; auto.
  Qed.
  Lemma swap_phase qs : phase srcs (sing qs) (sing qs)
    (fun w q => sloop (fun w qarr i => apply_at2 cn w (Wrap BSwap no_kw) qarr i (-1 - i)) (zrange 0 (zlen qs / 2)) w q)
    (fun n v => fold_left (fun v i => op_acts n (OSwap 1) [[znth 0 qs i]; [znth 0 qs (zlen qs - 1 - i)]] v) (zrange 0 (zlen qs / 2)) v).
  Proof.
    apply (phase_loop srcs (sing qs) (fun w qarr i => apply_at2 cn w (Wrap BSwap no_kw) qarr i (-1 - i))
      (fun i n => op_acts n (OSwap 1) [[znth 0 qs i]; [znth 0 qs (zlen qs - 1 - i)]])). intros i Hi. apply in_zrange in Hi.
    pose proof (Z.mul_div_le (zlen qs) 2 ltac:(lia)). assert (Hz : zlen (sing qs) = zlen qs) by (unfold zlen; rewrite sing_len; auto).
    pose proof (at2_phase srcs cn (sing qs) i (-1 - i) i (zlen qs - 1 - i) (Wrap BSwap no_kw) (OSwap 1)) as P2.
    rewrite !sing_nth in P2 by (unfold zlen in *; lia). rewrite !znth_nth by lia. apply P2; try lia; [apply sing_ne|].
    apply (denotes_swap cn [_] [_]). reflexivity.
  Qed.
  Lemma rev_fourier n qs (z s : C) v r : qubits_ok n qs -> 0 <= n -> 0 <= r < 2 ^ n ->
    fourier n z s qs (rev qs) v (setreg n qs r (reg n (rev qs) r)) = fourier n z s qs qs v r.
  Proof.
    intros Hqs Hn Hr. unfold fourier. f_equal.
    assert (Hl : zlen (rev qs) = zlen qs) by (unfold zlen; rewrite rev_length; auto).
    set (r' := setreg n qs r (reg n (rev qs) r)).
    assert (E : reg n (rev qs) r' = reg n qs r).
    { assert (G : map (qbit n r') qs = map (qbit n r) (rev qs)).
      { apply val_inj; [rewrite !zlen_map; auto|]. change (reg n qs r' = reg n (rev qs) r). apply reg_setreg; auto. rewrite <- Hl. apply reg_range. }
      unfold reg. rewrite map_rev, G, <- map_rev, rev_involutive. auto. }
    apply sum_ext. intros x _. rewrite E. f_equal. f_equal. unfold r'. apply setreg_idem; auto.
  Qed.
End Swaps.
