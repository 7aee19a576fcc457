(** F(f) on a backend. *)
From Coq Require Import Permutation.
From Verif Require Import Base S_Bits M_Bits L_Bits M_Kron S_Kron L_Kron L_Alg L_Measure1 L_Measure2 M_Feed M_Func S_Func S_Measure L_Measure4 L_Func.

Section FB.
  Context {K : Type} {OK : OrdRing K}.
  Notation C := (Cx K).

  Lemma fxor_range n reg1 reg2 f x : 0 <= n -> 0 <= fxor n reg1 reg2 f x < 2 ^ n.
  Proof. intros. apply setreg_range; auto. Qed.
  Lemma fxor_xor_range n reg2 x v : 0 <= Z.lxor (reg n reg2 x) (v mod 2 ^ zlen reg2) < 2 ^ zlen reg2.
  Proof.
    assert (P2 := zlen_nonneg reg2). assert (R2 := reg_range n reg2 x).
    assert (M2 : 0 <= v mod 2 ^ zlen reg2 < 2 ^ zlen reg2) by (apply Z.mod_pos_bound; lia).
    split; [apply Z.lxor_nonneg; lia|]. apply bits_bound; auto; [apply Z.lxor_nonneg; lia|].
    intros i Hi. rewrite Z.lxor_spec, !(testbit_high _ (zlen reg2)) by lia. reflexivity.
  Qed.
  Lemma fxor_regs n reg1 reg2 f x : 0 <= n -> qubits_ok n (reg1 ++ reg2) ->
    reg n reg1 (fxor n reg1 reg2 f x) = reg n reg1 x /\
    reg n reg2 (fxor n reg1 reg2 f x) = Z.lxor (reg n reg2 x) (f (reg n reg1 x) mod 2 ^ zlen reg2) /\
    (forall q, 0 <= q < n -> ~ In q reg2 -> qbit n (fxor n reg1 reg2 f x) q = qbit n x q).
  Proof.
    intros Hn HI. pose proof (reg1_ok n reg1 reg2 HI) as O1. pose proof (reg2_ok n reg1 reg2 HI) as O2.
    unfold fxor. split; [|split].
    - apply reg_ext. intros q Hq. apply qbit_setreg_out; [apply O1; auto|]. apply (reg12_disj n reg1 reg2 HI); auto.
    - apply reg_setreg; auto. apply fxor_xor_range.
    - intros q Hq Hi. apply qbit_setreg_out; auto.
  Qed.
  Lemma fxor_invol n reg1 reg2 f x : 0 <= n -> qubits_ok n (reg1 ++ reg2) -> 0 <= x < 2 ^ n ->
    fxor n reg1 reg2 f (fxor n reg1 reg2 f x) = x.
  Proof.
    intros Hn HI Hx. destruct (fxor_regs n reg1 reg2 f x Hn HI) as (E1 & E2 & E3).
    pose proof (reg2_ok n reg1 reg2 HI) as O2. apply (qbit_ext n); auto; [apply fxor_range; auto|].
    intros q Hq. set (y := fxor n reg1 reg2 f x) in *. unfold fxor. rewrite E1, E2.
    rewrite Z.lxor_assoc, Z.lxor_nilpotent, Z.lxor_0_r.
    destruct (in_dec Z.eq_dec q reg2) as [I|I].
    - apply (in_znth 0) in I. destruct I as (i & Hi & <-). rewrite qbit_setreg_in; auto. apply reg_testbit; auto.
    - rewrite qbit_setreg_out; auto.
  Qed.

  Lemma bk_func_drop m sched (b : backend K) reg1 reg2 f func io oo :
    full_backend b -> qubits_ok (bk_n b) (reg1 ++ reg2) ->
    zlen reg2 <= zlen (others (bk_n b) reg1 reg2) \/ harmless m (bk_n b) (others (bk_n b) reg1 reg2) ->
    Permutation sched (zrange 0 (2 ^ zlen reg1)) ->
    (forall x, 0 <= x < 2 ^ zlen reg1 -> func x = Ok (f x)) ->
    bk_func_apply m sched b reg1 reg2 func io oo
    = Ok (mkBackend (bk_n b)
            (map (fun t => if (reg (bk_n b) (skipn (Z.to_nat (zlen reg2)) (others (bk_n b) reg1 reg2)) t =? 0)
                           then amp_at 0 (bk_state b) (fxor (bk_n b) reg1 reg2 f t) else 0%r)
                 (zrange 0 (2 ^ bk_n b))) (bk_state b)).
  Proof.
    intros (Hn & Hs & Ha) HI HL HP HF. unfold bk_func_apply.
    rewrite (func_apply_ok (bk_n b) reg1 reg2 f (bk_state b) Hn HI Hs m HL) by auto. cbn [bind]. do 2 f_equal.
    apply map_ext. intros t. unfold amp_at. rewrite Z.sub_0_r. reflexivity.
  Qed.
  Lemma bk_func_ok m sched (b : backend K) reg1 reg2 f func io oo :
    full_backend b -> qubits_ok (bk_n b) (reg1 ++ reg2) ->
    zlen (others (bk_n b) reg1 reg2) = zlen reg2 \/ zlen (others (bk_n b) reg1 reg2) <= zlen reg2 /\ harmless m (bk_n b) (others (bk_n b) reg1 reg2) ->
    Permutation sched (zrange 0 (2 ^ zlen reg1)) ->
    (forall x, 0 <= x < 2 ^ zlen reg1 -> func x = Ok (f x)) ->
    exists b', bk_func_apply m sched b reg1 reg2 func io oo = Ok b' /\ full_backend b' /\ bk_n b' = bk_n b /\
      (forall x, 0 <= x < 2 ^ bk_n b ->
         amp_at 0 (bk_state b') (fxor (bk_n b) reg1 reg2 f x) = amp_at 0 (bk_state b) x) /\
      tprob (bk_state b') = tprob (bk_state b).
  Proof.
    intros HB HI HL HP HF. assert (Hle : zlen (others (bk_n b) reg1 reg2) <= zlen reg2) by (destruct HL as [->|[HL _]]; lia). eexists. split; [apply (bk_func_drop m sched b reg1 reg2 f); auto; destruct HL as [HL|[_ HL]]; [left; lia|right; exact HL]|].
    destruct HB as (Hn & Hs & Ha). set (n := bk_n b) in *.
    assert (0 <= 2 ^ n) by (apply Z.pow_nonneg; lia).
    match goal with |- context [mkBackend n ?st _] => set (s' := st) end. cbn [bk_state bk_n].
    assert (Es : s' = map (fun t => amp_at 0 (bk_state b) (fxor n reg1 reg2 f t)) (zrange 0 (2 ^ n))).
    { unfold s'. apply map_ext. intros t. rewrite skipn_all2 by (fold n in Hle; unfold zlen in Hle |- *; lia).
      change (reg n [] t) with 0. reflexivity. }
    assert (A : forall x, 0 <= x < 2 ^ n -> amp_at 0 s' (fxor n reg1 reg2 f x) = amp_at 0 (bk_state b) x).
    { intros x Hx. rewrite Es. unfold amp_at at 1. rewrite Z.sub_0_r.
      pose proof (fxor_range n reg1 reg2 f x Hn). rewrite znth_map_zrange by lia. rewrite Z.add_0_l.
      rewrite fxor_invol; auto. }
    assert (L' : zlen s' = 2 ^ n) by (rewrite Es, zlen_map, zlen_zrange; lia).
    split; [split; [auto|cbn [bk_state bk_arena bk_n]; auto]|]. split; [auto|]. split; [exact A|].
    rewrite <- (tprob_slice n 0 s') by (auto; split; lia). rewrite <- (tprob_slice n 0 (bk_state b)) by (auto; split; lia).
    rewrite (sum_perm (zrange 0 (2 ^ n)) (map (fxor n reg1 reg2 f) (zrange 0 (2 ^ n)))).
    - rewrite sum_map. apply sum_ext. intros x Hx. apply in_zrange in Hx. rewrite A; auto.
    - apply NoDup_Permutation.
      + apply zrange_nodup.
      + apply NoDup_map_inj; [apply zrange_nodup|]. intros x y Hx Hy E. apply in_zrange in Hx, Hy.
        rewrite <- (fxor_invol n reg1 reg2 f x), <- (fxor_invol n reg1 reg2 f y) by auto. rewrite E. reflexivity.
      + intros x. rewrite in_map_iff, in_zrange. split.
        * intros Hx. exists (fxor n reg1 reg2 f x). split; [apply fxor_invol; auto|]. apply in_zrange, fxor_range; auto.
        * intros (y & <- & _). apply fxor_range; auto.
  Qed.
  Lemma bk_func_oob sched (b : backend K) reg1 reg2 f func io oo :
    full_backend b -> qubits_ok (bk_n b) (reg1 ++ reg2) ->
    zlen (others (bk_n b) reg1 reg2) < zlen reg2 ->
    Permutation sched (zrange 0 (2 ^ zlen reg1)) ->
    (forall x, 0 <= x < 2 ^ zlen reg1 -> func x = Ok (f x)) ->
    bk_func_apply strict sched b reg1 reg2 func io oo = Raise OOB.
  Proof.
    intros (Hn & Hs & Ha) HI HL HP HF. unfold bk_func_apply, func_apply. set (n := bk_n b) in *.
    rewrite Hs, Ha, !Z.eqb_refl, !Z.add_0_r. cbn [negb orb]. destruct (Z.ltb_spec (2 ^ n) (2 ^ n)); [lia|].
    assert (P1 := zlen_nonneg reg1). assert (P2 := zlen_nonneg reg2).
    assert (Q1 : 0 < 2 ^ zlen reg1) by (apply Z.pow_pos_nonneg; lia).
    assert (Q2 : 0 < 2 ^ zlen reg2) by (apply Z.pow_pos_nonneg; lia).
    rewrite (mmap_ok func f) by (intros x Hx; apply in_zrange in Hx; auto). cbn [bind].
    rewrite other_indices_spec. destruct sched as [|x sched].
    { apply Permutation_nil in HP. rewrite zrange_cons in HP by lia. discriminate. }
    assert (Hx : In x (zrange 0 (2 ^ zlen reg1))) by (apply (Permutation_in x HP); left; auto).
    apply in_zrange in Hx. cbn [mfold]. rewrite (cget_ok 0) by (rewrite zlen_map, zlen_zrange; lia). cbn [bind].
    pose proof (reg1_ok n reg1 reg2 HI) as O1. pose proof (reg2_ok n reg1 reg2 HI) as O2.
    pose proof (others_ok n reg1 reg2) as O3. unfold func_apply_x.
    destruct (scatter_ok n reg1 (zlen reg1) x (zlen reg1)) as (zx & Ex & _); auto; try lia. rewrite Ex. cbn [bind].
    rewrite zrange_cons with (hi := 2 ^ zlen reg2) by lia. cbn [mfold].
    match goal with |- context [Z.lxor ?y 0] =>
      destruct (scatter_ok n reg2 (zlen reg2) (Z.lxor y 0) (zlen reg2)) as (zf & Ef & _); auto; try lia end.
    destruct (scatter_ok n reg2 (zlen reg2) 0 (zlen reg2)) as (zq & Eq & _); auto; try lia.
    rewrite Ef, Eq. cbn [bind].
    rewrite zrange_cons with (hi := 2 ^ zlen (others n reg1 reg2))
      by (apply Z.pow_pos_nonneg; [lia|apply zlen_nonneg]). cbn [mfold].
    rewrite <- (others_len n reg1 reg2) by auto. rewrite scatter_strict; auto.
  Qed.
  Lemma tame_harmless m n : tame m -> harmless m n [].
  Proof.
    intros (H1 & H2 & H3). split.
    - intros j _. destruct (H1 j) as [q Eq]. destruct (H3 (n - 1 - q)) as [k Ek]. exists q, k. split; [exact Eq|]. split; [exact Ek|]. intros p [].
    - intros r b Hr _. change (2 ^ zlen []) with 1 in Hr. replace r with 0 by lia. apply H2.
  Qed.

  (** the memory behind other_indices holds the number of another qubit p: bit p is cleared, amplitudes are lost *)
  Definition unlucky (p : Z) : machine := mkMachine (fun _ => Ok p) (fun _ _ => Ok 0) (fun b => Ok (2 ^ b)).
  Lemma mfold_all {S I} (f : S -> I -> res S) (Inv : S -> Prop) l : (forall s i, In i l -> Inv s -> exists s', f s i = Ok s' /\ Inv s') ->
    forall s, Inv s -> exists s', mfold f l s = Ok s' /\ Inv s'.
  Proof.
    induction l as [|i l IH]; intros H s Hs; cbn [mfold]; [eauto|]. destruct (H s i (or_introl eq_refl) Hs) as (s1 & E & H1). rewrite E. cbn [bind].
    apply IH; auto. intros; apply H; auto. right. auto.
  Qed.
  Lemma lor_range n a b : 0 <= n -> 0 <= a < 2 ^ n -> 0 <= b < 2 ^ n -> 0 <= Z.lor a b < 2 ^ n.
  Proof.
    intros Hn Ha Hb. split; [apply Z.lor_nonneg; lia|]. apply bits_bound; auto; [apply Z.lor_nonneg; lia|].
    intros i Hi. rewrite Z.lor_spec, !(testbit_high _ n) by lia. reflexivity.
  Qed.
  Lemma scatter_unlucky n indices value count p : 0 <= n -> qubits_ok n indices -> zlen indices < count -> In p indices ->
    exists z, scatter_other (unlucky p) indices n (zlen indices) value count = Ok z /\ 0 <= z < 2 ^ n /\ qbit n z p = false.
  Proof.
    intros Hn HI Hc Hp. pose proof (zlen_nonneg indices) as Hz. assert (Hpn : 0 <= p < n) by (apply HI; auto).
    destruct (scatter_ok n indices (zlen indices) value (zlen indices)) as (z & E & (R & _)); auto; [lia|lia|].
    rewrite <- (scatter_other_in (unlucky p)) in E by (auto; lia). unfold scatter_other in *.
    rewrite (zrange_app 0 (zlen indices) count) by lia. rewrite mfold_app, E. cbn [bind].
    match goal with |- context [mfold ?s _ _] => set (stp := s) end.
    assert (G : forall acc j, zlen indices <= j -> 0 <= acc < 2 ^ n -> exists z, stp acc j = Ok z /\ 0 <= z < 2 ^ n /\ qbit n z p = false).
    { intros acc j Hj Ha. unfold stp. destruct (Z.ltb_spec j (zlen indices)); [lia|]. cbn [unlucky u_read u_bit u_mask bind].
      destruct (Z.ltb_spec (zlen indices - 1 - j) 0); [|lia]. cbn [bind]. destruct (Z.leb_spec (zlen indices) j); [|lia]. cbn [orb Z.eqb Z.opp]. rewrite Z.lxor_0_l.
      eexists. split; [reflexivity|]. split.
      - split; [apply Z.lxor_nonneg; rewrite Z.land_nonneg; lia|]. apply bits_bound; auto; [apply Z.lxor_nonneg; rewrite Z.land_nonneg; lia|].
        intros i Hi. rewrite Z.lxor_spec, Z.land_spec, (testbit_high _ n) by lia. reflexivity.
      - unfold qbit. rewrite Z.lxor_spec, Z.land_spec, Z.pow2_bits_true by lia. destruct (Z.testbit acc _); reflexivity. }
    rewrite zrange_cons by lia. cbn [mfold]. destruct (G z (zlen indices) (Z.le_refl _) R) as (z1 & E1 & H1). rewrite E1. cbn [bind].
    apply (mfold_all stp (fun z => 0 <= z < 2 ^ n /\ qbit n z p = false)); auto. intros s i Hi [Hs _]. apply in_zrange in Hi. apply G; auto. lia.
  Qed.
  Lemma bk_func_unlucky sched (b : backend K) reg1 reg2 f func io oo p :
    full_backend b -> qubits_ok (bk_n b) (reg1 ++ reg2) ->
    zlen (others (bk_n b) reg1 reg2) < zlen reg2 -> In p (others (bk_n b) reg1 reg2) ->
    Permutation sched (zrange 0 (2 ^ zlen reg1)) ->
    (forall x, 0 <= x < 2 ^ zlen reg1 -> func x = Ok (f x)) ->
    exists b', bk_func_apply (unlucky p) sched b reg1 reg2 func io oo = Ok b' /\
      forall x, 0 <= x < 2 ^ bk_n b -> qbit (bk_n b) x p = true -> amp_at 0 (bk_state b') (fxor (bk_n b) reg1 reg2 f x) = 0%r.
  Proof.
    intros (Hn & Hs & Ha) HI HL Hp HP HF. unfold bk_func_apply, func_apply. set (n := bk_n b) in *.
    rewrite Hs, Ha, !Z.eqb_refl, !Z.add_0_r. cbn [negb orb]. destruct (Z.ltb_spec (2 ^ n) (2 ^ n)); [lia|].
    assert (P1 := zlen_nonneg reg1). assert (P2 := zlen_nonneg reg2).
    rewrite (mmap_ok func f) by (intros x Hx; apply in_zrange in Hx; auto). cbn [bind]. rewrite other_indices_spec.
    pose proof (reg1_ok n reg1 reg2 HI) as O1. pose proof (reg2_ok n reg1 reg2 HI) as O2. pose proof (others_ok n reg1 reg2) as O3.
    assert (Hp' := Hp). apply others_in in Hp'. destruct Hp' as (Hpn & Hp1 & Hp2).
    pose (Inv := fun out : list C => zlen out = 2 ^ n /\ forall t, 0 <= t < 2 ^ n -> qbit n t p = true -> znth 0%r out t = 0%r).
    assert (X : exists out', mfold (fun output x => do y <- cget (map f (zrange 0 (2 ^ zlen reg1))) x; func_apply_x (unlucky p) reg1 reg2 (others n reg1 reg2) n (bk_state b) x y output) sched (map (fun _ => 0%r) (bk_arena b)) = Ok out' /\ Inv out').
    { apply mfold_all.
      2:{ split; [rewrite zlen_map; auto|]. intros t Ht _. rewrite (znth_map _ 0%r) by lia. reflexivity. }
      intros out x Hx HInv. apply (Permutation_in x HP) in Hx. apply in_zrange in Hx.
      rewrite (cget_ok 0) by (rewrite zlen_map, zlen_zrange; lia). cbn [bind]. unfold func_apply_x. rewrite <- (others_len n reg1 reg2 Hn HI).
      destruct (scatter_ok n reg1 (zlen reg1) x (zlen reg1)) as (zx & Ex & Sx); auto; try lia. rewrite Ex. cbn [bind].
      apply mfold_all; [|exact HInv]. clear out HInv. intros out q Hq HInv. cbv zeta.
      match goal with |- context [Z.lxor ?y q] => destruct (scatter_ok n reg2 (zlen reg2) (Z.lxor y q) (zlen reg2)) as (zf & Ef & Sf); auto; try lia end.
      destruct (scatter_ok n reg2 (zlen reg2) q (zlen reg2)) as (zq & Eq & Sq); auto; try lia. rewrite Ef, Eq. cbn [bind].
      apply mfold_all; [|exact HInv]. clear out HInv. intros out r Hr [HL1 HZ].
      destruct (scatter_unlucky n (others n reg1 reg2) r (zlen reg2) p) as (zr & Er & Rr & Br); auto. rewrite Er. cbn [bind].
      destruct Sx as (Rx & _ & Bx), Sf as (Rf & _ & Bf), Sq as (Rq & _ & Bq).
      rewrite (cget_ok 0%r) by (rewrite Hs; apply lor_range; auto; apply lor_range; auto). cbn [bind].
      assert (RT : 0 <= Z.lor (Z.lor zx zf) zr < 2 ^ n) by (apply lor_range; auto; apply lor_range; auto).
      rewrite cset_ok by (rewrite HL1; exact RT). eexists. split; [reflexivity|]. split; [rewrite zlen_upd; auto|]. intros t Ht Hb. rewrite znth_upd by lia.
      destruct (Z.eqb_spec t (Z.lor (Z.lor zx zf) zr)) as [->|]; [|auto]. exfalso. unfold qbit in *. rewrite !Z.lor_spec, Br, (Bx p Hpn), (Bf p Hpn) in Hb; [discriminate| |]; apply not_in_znth; auto. }
    destruct X as (out' & E & HL1 & HZ). rewrite E. cbn [bind]. eexists. split; [reflexivity|]. cbn [bk_state]. intros x Hx Hb. unfold amp_at. rewrite Z.sub_0_r. apply HZ; [apply fxor_range; auto|].
    rewrite (proj2 (proj2 (fxor_regs n reg1 reg2 f x Hn HI)) p Hpn Hp2). exact Hb.
  Qed.
  Lemma bk_func_all m sched (b : backend K) reg1 reg2 f func io oo :
    full_backend b -> qubits_ok (bk_n b) (reg1 ++ reg2) -> others (bk_n b) reg1 reg2 = [] -> tame m ->
    Permutation sched (zrange 0 (2 ^ zlen reg1)) -> (forall x, 0 <= x < 2 ^ zlen reg1 -> func x = Ok (f x)) ->
    exists b', bk_func_apply m sched b reg1 reg2 func io oo = Ok b' /\ full_backend b' /\ bk_n b' = bk_n b /\
      (forall x, 0 <= x < 2 ^ bk_n b -> amp_at 0 (bk_state b') (fxor (bk_n b) reg1 reg2 f x) = amp_at 0 (bk_state b) x) /\
      tprob (bk_state b') = tprob (bk_state b).
  Proof.
    intros HB HI HL Hm HP HF. apply bk_func_ok; auto. rewrite HL. right. split; [apply zlen_nonneg|apply tame_harmless, Hm].
  Qed.
End FB.
