(** The Fourier transform keeps the total probability. *)
From Verif Require Import Base S_Bits L_Bits M_Kron S_Kron M_Ops S_Ops L_Ops4 M_Feed S_Feed M_Measure S_Measure L_Alg M_Graph S_Graph
  M_Context S_Context L_Fourier L_QFFT1 L_QFFT2 L_QFFT3 L_QFFT4 L_QFFT5 S_Born L_Born.

Section DftNorm.
  Context {K : Type} {OK : OrdRing K}.
  Notation C := (Cx K).
  Variable cn : consts K.
  Variable root : Z -> C.
  Hypothesis root1 : root 1 = (- (1))%r.
  Hypothesis root2 : forall m, 1 <= m -> (root (m + 1) * root (m + 1))%r = root m.
  Hypothesis root_unit : forall m, 2 <= m -> cnorm2 (root m) = 1%r.
  Hypothesis Hh : op_scalars_ok (OH (c_h cn)).
  Variable n : Z.
  Hypothesis Hn : 0 <= n.

  Lemma phases_norm t : 0 <= t < n -> forall cs m v, 2 <= m -> ~ In t cs -> (forall c, In c cs -> 0 <= c < n) -> norm_of n (phases root n t cs m v) = norm_of n v.
  Proof.
    intros Ht. induction cs as [|c cs IH]; intros m v Hm Hni Hc; cbn [phases]; auto.
    rewrite IH; [|lia|intros H; apply Hni; right; auto|intros; apply Hc; right; auto].
    transitivity (norm_of n (op_acts n (OC (OR (root m))) [[c]; [t]] v)).
    - apply norm_ext. intros r Hr. symmetry. apply cphase_acts.
    - apply op_acts_norm; auto.
      + exists c, [[t]]. split; auto. cbn. discriminate.
      + split.
        * cbn [concat app]. constructor; [|constructor; [intros []|constructor]]. intros [->|[]]. apply Hni. left; auto.
        * intros q [<-|[<-|[]]]; auto. apply Hc. left; auto.
      + cbn [op_scalars_ok]. auto.
  Qed.
  Lemma qft_norm : forall qs v, qubits_ok n qs -> norm_of n (qft root n (c_h cn) qs v) = norm_of n v.
  Proof.
    induction qs as [|q qs IH]; intros v [Hd Hr]; cbn [qft]; auto. inversion Hd as [|x y Hni Hd']; subst.
    rewrite IH by (split; auto; intros; apply Hr; right; auto).
    rewrite phases_norm; [|apply Hr; left; auto|lia|auto|intros; apply Hr; right; auto].
    transitivity (norm_of n (op_acts n (OH (c_h cn)) [[q]] v)).
    - apply norm_ext. intros r _. reflexivity.
    - apply op_acts_norm; auto; [cbn; discriminate|]. split; [cbn; constructor; [intros []|constructor]|]. intros x [<-|[]]. apply Hr. left; auto.
  Qed.
  Lemma dft_norm rev_ qs v : qubits_ok n qs -> norm_of n (dft cn root rev_ qs n v) = norm_of n v.
  Proof.
    intros Hq. rewrite <- (qft_norm qs v Hq).
    assert (E0 : norm_of n (dft cn root false qs n v) = norm_of n (qft root n (c_h cn) qs v)).
    { apply norm_ext. intros r Hr. unfold dft. symmetry. apply (qft_fourier root root1 root2 n Hn); auto. }
    destruct rev_; auto.
    assert (G : forall m, 0 <= m <= zlen qs / 2 -> forall w : Z -> C,
      norm_of n (fold_left (fun v i => op_acts n (OSwap 1) [[znth 0 qs i]; [znth 0 qs (zlen qs - 1 - i)]] v) (zrange 0 m) w) = norm_of n w).
    { intros m [H0 H1]. revert m H0 H1. apply (natlike_ind (fun m => m <= zlen qs / 2 -> forall w : Z -> C,
        norm_of n (fold_left (fun v i => op_acts n (OSwap 1) [[znth 0 qs i]; [znth 0 qs (zlen qs - 1 - i)]] v) (zrange 0 m) w) = norm_of n w)).
      - intros _ w. rewrite zrange_empty by lia. reflexivity.
      - intros m Hm IH Hle w. pose proof (Z.mul_div_le (zlen qs) 2 ltac:(lia)). replace (Z.succ m) with (m + 1) in * by lia.
        rewrite (zrange_snoc 0 (m + 1)) by lia. replace (m + 1 - 1) with m by lia. rewrite fold_left_app. cbn [fold_left].
        destruct Hq as [Hd Hin]. rewrite op_acts_norm; auto.
        + apply IH. lia.
        + cbn [op_fits]. eexists _, _. split; [reflexivity|]. split; reflexivity.
        + split.
          * cbn [concat app]. constructor; [|constructor; [intros []|constructor]]. intros [E|[]]. apply (znth_nodup 0 qs) in E; auto; lia.
          * intros q [<-|[<-|[]]]; apply Hin, znth_in; lia.
        + exact I. }
    pose proof (zlen_nonneg qs). rewrite <- (G (zlen qs / 2) ltac:(split; [apply Z.div_pos; lia|lia]) (qft root n (c_h cn) qs v)).
    apply norm_ext. intros r Hr. symmetry. rewrite swaps_mirror; auto; [|split; [apply Z.div_pos; lia|lia]].
    rewrite mirror_all by auto. rewrite (qft_fourier root root1 root2 n Hn) by (auto; apply setreg_range; auto). unfold dft. apply rev_fourier; auto.
  Qed.
End DftNorm.
