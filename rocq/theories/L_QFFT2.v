(** The recursion and the swaps of qip/qfft.py. *)
From Coq Require Import Sorted.
From Verif Require Import Base S_Bits L_Bits M_Kron S_Kron M_Ops S_Ops L_Ops4 M_Feed S_Feed M_Func S_Func
  M_Measure S_Measure L_Alg M_Graph S_Graph L_Graph1 L_Graph2 L_Graph3 L_Graph5 L_Graph6 L_Graph7 L_Graph8 L_Graph9 L_Graph10 L_Graph11
  M_Context S_Context L_Fourier L_Sinks L_Grow1 L_Grow2 L_Context1 L_Context2 L_Context3 L_Context5 L_QFFT1.

Lemma nth_skip {A} (d : A) : forall k l i, nth i (skipn k l) d = nth (k + i) l d.
Proof. induction k as [|k IH]; intros [|a l] i; cbn [skipn nth Nat.add]; auto. destruct i; auto. Qed.
Lemma fold_map {A B I} (f : A -> B -> A) (g : I -> B) : forall l a, fold_left f (map g l) a = fold_left (fun a i => f a (g i)) l a.
Proof. induction l as [|i l IH]; intros a; cbn [map fold_left]; auto. Qed.

Section Rec.
  Context {K : Type} {OK : OrdRing K}.
  Notation C := (Cx K).
  Add Ring Cring2 : (@rth C _).
  Local Notation U := ((Z -> C) -> Z -> C).
  Variable srcs : list nat.
  Variable cn : consts K.
  Variable root : Z -> C.
  Hypothesis root_rm : forall m, 2 <= m -> c_rm cn m false = root m.

  Lemma sing_nth qs p : (p < length qs)%nat -> nth p (sing qs) [] = [nth p qs 0].
  Proof. intros H. unfold sing. rewrite (nth_indep _ [] [0]) by (rewrite map_length; auto). apply (map_nth (fun q => [q])). Qed.
  Lemma sing_ne qs g : In g (sing qs) -> g <> [].
  Proof. intros H. apply in_map_iff in H. destruct H as (q & <- & _). discriminate. Qed.

  Lemma cphase_acts n m c t v r : op_acts n (OC (OR (root m))) [[c]; [t]] v r = cphase root n m c t v r.
  Proof.
    unfold cphase. cbn [op_acts hd tl concat app forallb apply_each fold_right]. rewrite andb_true_r. unfold apply1, gate_R.
    destruct (qbit n r c); auto. destruct (qbit n r t); ring.
  Qed.
  Lemma phases_fold n t : forall cs m v (f : Z -> Z), (forall j, 0 <= j < zlen cs -> f (m + j) = znth 0 cs j) ->
    fold_left (fun v i => cphase root n i (f i) t v) (zrange m (m + zlen cs)) v = phases root n t cs m v.
  Proof.
    induction cs as [|c cs IH]; intros m v f Hf; cbn [phases].
    - change (zlen (@nil Z)) with 0. rewrite zrange_empty by lia. reflexivity.
    - rewrite zlen_cons. pose proof (zlen_nonneg cs). rewrite zrange_cons by lia. cbn [fold_left].
      assert (E0 : f m = c) by (rewrite <- (Z.add_0_r m), Hf by (rewrite zlen_cons; lia); reflexivity). rewrite E0.
      replace (m + (zlen cs + 1)) with (m + 1 + zlen cs) by lia. apply IH. intros j Hj.
      replace (m + 1 + j) with (m + (j + 1)) by lia. rewrite Hf by (rewrite zlen_cons; lia). rewrite !znth_nth by lia.
      replace (Z.to_nat (j + 1)) with (S (Z.to_nat j)) by lia. reflexivity.
  Qed.

  Lemma fold_ext_in {I} (f g : (Z -> C) -> I -> Z -> C) n qs : forall l, (forall i v r, In i l -> 0 <= r < 2 ^ n -> f v i r = g v i r) ->
    (forall i, In i l -> local n qs (fun v => g v i)) -> forall v v', eqn n v v' -> eqn n (fold_left f l v) (fold_left g l v').
  Proof.
    induction l as [|i l IH]; intros H HL v v' Hv; cbn [fold_left]; auto. apply IH.
    - intros; apply H; auto. right; auto.
    - intros; apply HL. right; auto.
    - intros r Hr. rewrite H by (auto; left; auto). apply (local_eqn n qs (fun v => g v i) v v'); auto. apply HL. left; auto.
  Qed.

  Lemma rec_phase qs : forall fuel o, 0 <= o <= zlen qs -> zlen qs - o < Z.of_nat fuel ->
    phase srcs (sing qs) (sing qs) (fun w q => recQFFT cn fuel w q o) (fun n => qft root n (c_h cn) (skipn (Z.to_nat o) qs)).
  Proof.
    induction fuel as [|fuel IH]; intros o Ho Hf; [lia|].
    assert (Lz : forall l : list nat, length l = length (sing qs) -> zlen l = zlen qs) by (intros l H; rewrite sing_len in H; unfold zlen; lia).
    cbn [recQFFT]. destruct (Z.eq_dec o (zlen qs)) as [->|Hne].
    - eapply phase_body; [eapply phase_ext; [apply phase_id|]|].
      + intros n Hn Hq v r Hr. rewrite skipn_all2 by (unfold zlen; lia). reflexivity.
      + intros w l H. cbn beta. rewrite (Lz l H), Z.ltb_irrefl. reflexivity.
    - set (p := Z.to_nat o). assert (Hp : (p < length qs)%nat) by (unfold zlen in *; lia).
      assert (Esk : skipn p qs = nth p qs 0 :: skipn (S p) qs).
      { clear - Hp. revert qs Hp. induction p as [|p IHp]; intros [|q qs] Hp; cbn in Hp; try lia; auto. cbn [skipn nth]. apply IHp. lia. }
      set (t := nth p qs 0) in *.
      pose proof (at1_phase srcs cn (sing qs) o (Wrap BH no_kw) (OH (c_h cn))) as P1.
      specialize (P1 ltac:(unfold zlen in *; rewrite sing_len; lia) (sing_ne qs) (denotes_h _ _)). fold p in P1. rewrite sing_nth in P1 by auto. fold t in P1.
      assert (P2 : phase srcs (sing qs) (sing qs)
        (fun w q => sloop (fun w qarr i => apply_at2 cn w (C_ctor (MakeR (1 + i - o))) qarr i o) (zrange (o + 1) (zlen qs)) w q)
        (fun n v => fold_left (fun v i => op_acts n (OC (OR (root (1 + i - o)))) [[nth (Z.to_nat i) qs 0]; [t]] v) (zrange (o + 1) (zlen qs)) v)).
      { apply (phase_loop srcs (sing qs) (fun w qarr i => apply_at2 cn w (C_ctor (MakeR (1 + i - o))) qarr i o)
          (fun i n => op_acts n (OC (OR (root (1 + i - o)))) [[nth (Z.to_nat i) qs 0]; [t]])). intros i Hi. apply in_zrange in Hi.
        pose proof (at2_phase srcs cn (sing qs) i o i o (C_ctor (MakeR (1 + i - o))) (OC (OR (root (1 + i - o))))) as P2.
        assert (zlen (sing qs) = zlen qs) by (unfold zlen; rewrite sing_len; auto).
        fold p in P2. rewrite !sing_nth in P2 by (unfold zlen in *; lia). fold t in P2. apply P2; auto; try lia; [apply sing_ne|].
        rewrite <- (root_rm (1 + i - o)) by lia. apply denotes_c; [reflexivity|discriminate|apply denotes_r]. }
      eapply phase_body; [eapply phase_ext; [eapply phase_seq; [exact P1|eapply phase_seq; [exact P2|apply (IH (o + 1)); lia|reflexivity]|reflexivity]|]|].
      + intros n Hn Hq v r Hr. rewrite concat_sing in Hq. cbn beta. rewrite Esk. cbn [qft].
        replace (Z.to_nat (o + 1)) with (S p) by lia.
        set (v1 := op_acts n (OH (c_h cn)) [[t]] v).
        assert (HL : local n qs (qft root n (c_h cn) (skipn (S p) qs))).
        { destruct (IH (o + 1) ltac:(lia) ltac:(lia)) as [HL _]. replace (Z.to_nat (o + 1)) with (S p) in HL by lia.
          specialize (HL n Hn). rewrite concat_sing in HL. auto. }
        apply (local_eqn n qs _ _ _ HL); auto. intros r' Hr'.
        rewrite <- (phases_fold n t (skipn (S p) qs) 2 _ (fun m => nth (Z.to_nat (m - 1 + o)) qs 0)).
        2:{ intros j Hj. rewrite znth_nth by lia. rewrite nth_skip. f_equal. lia. }
        assert (Lsk : zlen (skipn (S p) qs) = zlen qs - o - 1) by (unfold zlen; rewrite skipn_length; unfold zlen in *; lia). rewrite Lsk.
        assert (Esh : zrange (o + 1) (zlen qs) = map (fun i => i + (o - 1)) (zrange 2 (2 + (zlen qs - o - 1)))).
        { rewrite <- zrange_shift. f_equal; lia. }
        rewrite Esh. rewrite fold_map.
        apply (fold_ext_in _ _ n qs); auto.
        * intros i v0 r0 Hi Hr0. apply in_zrange in Hi. rewrite cphase_acts. f_equal; [lia|f_equal; lia].
        * intros i Hi. apply in_zrange in Hi. intros v0 v0' r0 Hr0 Hv0. rewrite <- !cphase_acts.
          assert (HLc : local n qs (op_acts n (OC (OR (root i))) [[nth (Z.to_nat (i - 1 + o)) qs 0]; [t]])).
          { eapply (local_incl n (concat [[nth (Z.to_nat (i - 1 + o)) qs 0]; [t]])).
            - cbn [concat app]. intros x [<-|[<-|[]]]; apply nth_In; unfold zlen in *; lia.
            - apply op_acts_local; auto. cbn [concat app]. intros x [<-|[<-|[]]]; apply Hq, nth_In; unfold zlen in *; lia. }
          apply HLc; auto.
        * intros r0 Hr0. unfold v1. cbn [op_acts concat app apply_each fold_right]. reflexivity.
      + intros w l H. cbn beta. rewrite (Lz l H). rewrite (proj2 (Z.ltb_lt _ _)) by lia.
        destruct (apply_at1 cn w (Wrap BH no_kw) l o) as [w1 [l1|e]] eqn:E1; cbn [sbind]; auto.
        assert (L1 : length l1 = length l).
        { unfold apply_at1, lift in E1. destruct (pyget l o); cbn [sbind] in E1; [|discriminate].
          destruct (one_output _) as [w0 [x|]]; cbn [sbind] in E1; [|discriminate]. unfold pyset in E1.
          destruct (_ || _); [discriminate|]. inversion E1. rewrite upd_len. auto. }
        rewrite (Lz l1) by congruence. reflexivity.
  Qed.
End Rec.
