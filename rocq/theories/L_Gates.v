From Coq Require Import Reals Lra.
From Verif Require Import Base BaseR S_Bits M_Kron S_Kron M_Ops M_Gates S_Ops L_Ops1 L_Ops2 L_Ops3 L_Ops4.

Lemma H_scalar : op_scalars_ok H_op.
Proof.
  change (((1 + 1) * (1 / sqrt 2 * (1 / sqrt 2)) = 1)%R). assert (E : (sqrt 2 * sqrt 2 = 2)%R) by (apply sqrt_sqrt; lra).
  assert (sqrt 2 <> 0)%R by (intros H; rewrite H in E; lra).
  replace ((1 + 1) * (1 / sqrt 2 * (1 / sqrt 2)))%R with (2 / (sqrt 2 * sqrt 2))%R by (field; auto).
  rewrite E. lra.
Qed.
Lemma R_scalar phi : op_scalars_ok (R_op phi).
Proof. change (cos phi * cos phi + sin phi * sin phi = 1)%R. pose proof (sin2_cos2 phi) as E. unfold Rsqr in E. lra. Qed.
Lemma Rm_scalar m negate : op_scalars_ok (Rm_op m negate).
Proof. apply R_scalar. Qed.

Section Inv.
  Context {K : Type} {OK : OrdRing K}.
  Notation C := (Cx K).
  Add Ring CRing_lg : (@rth C _).
  Add Ring KRing_lg : (@rth K _).
  Lemma cxi_sq : (cxi * cxi = - (1) :> C)%r.
  Proof.
    change (cxmul cxi cxi = cxopp (@cx1 K _)). unfold cxmul, cxopp, cx1, cxi. cbn [fst snd]. f_equal; ring.
  Qed.
  Lemma self_inverse2 (o : op K) g : self_inverse o -> op_scalars_ok o -> gate_of o = Some g -> inverse2 g g.
  Proof.
    destruct o; cbn; intros HS HH E; try contradiction; inversion E; subst; cbn.
    - repeat split; ring.
    - repeat split; try ring; transitivity (- (cxi * cxi) : C)%r; try ring; rewrite cxi_sq; ring.
    - repeat split; ring.
    - assert (creal h * creal h + creal h * creal h = 1)%r as E3.
      { rewrite <- creal_mul, <- creal_add, <- creal_1. f_equal. rewrite <- HH. ring. }
      repeat split; try ring; rewrite <- E3; ring.
  Qed.
  Lemma involution n (o : op K) groups mats v W X :
    0 <= n -> self_inverse o -> op_scalars_ok o -> qubits_ok n (concat groups) ->
    op_ms o false groups = Ok mats -> applied n mats v W -> applied n mats W X -> X = v.
  Proof.
    intros Hn HS HO HQ Hm HA HB. destruct (gate_of o) as [g|] eqn:Eg; [|destruct o; cbn in *; contradiction || discriminate].
    eapply (gate_undo n o o g g); eauto. eapply self_inverse2; eauto.
  Qed.
  Lemma phase_undo n (e e' : C) groups mats mats' v W X :
    0 <= n -> (e' * e = 1)%r -> qubits_ok n (concat groups) ->
    op_ms (OR e) false groups = Ok mats -> op_ms (OR e') false groups = Ok mats' ->
    applied n mats v W -> applied n mats' W X -> X = v.
  Proof.
    intros Hn HE HQ Hm Hm' HA HB. eapply (gate_undo n (OR e) (OR e') (gate_R e) (gate_R e')); eauto.
    cbn. repeat split; try ring. rewrite <- HE. ring.
  Qed.
  Lemma unitary_gate (o : op K) groups mats :
    gate_of o <> None -> op_scalars_ok o -> NoDup (concat groups) -> op_ms o false groups = Ok mats -> all_unitary mats.
  Proof.
    intros Hg HS ND Hm. destruct (gate_of o) as [g|] eqn:Eg; [|contradiction]. apply op_ms_plain in Hm.
    rewrite (gate_mats o g) in Hm by auto. rewrite per_index_nodup in Hm by auto. inversion Hm; subst.
    intros k m Hin. apply in_map_iff in Hin as (i & E & _). inversion E; subst. cbn [key_group].
    apply unitary2_ok. eapply gates_unitary2; eauto.
  Qed.
End Inv.

Lemma R_undo n phi groups mats mats' v W X :
  0 <= n -> qubits_ok n (concat groups) ->
  op_ms (R_op phi) false groups = Ok mats -> op_ms (R_op (- phi)%R) false groups = Ok mats' ->
  applied n mats v W -> applied n mats' W X -> X = v.
Proof.
  intros. eapply (phase_undo n (cos phi, sin phi) (cos (- phi)%R, sin (- phi)%R)); eauto.
  rewrite cos_neg, sin_neg.
  change ((cos phi * cos phi - - sin phi * sin phi, cos phi * sin phi + - sin phi * cos phi) = (1, 0))%R. pose proof (sin2_cos2 phi) as E. unfold Rsqr in E. f_equal; lra.
Qed.

(** R(phi) multiplies each amplitude by exp(i phi k), k the number of listed qubits that are 1 *)
Definition cis (x : R) : Cx R := (cos x, sin x).
Lemma cis_add x y : cis (x + y)%R = (cis x * cis y)%r.
Proof.
  change (cos (x + y) = cos x * cos y - sin x * sin y /\ sin (x + y) = cos x * sin y + sin x * cos y)%R
    || (unfold cis; rewrite cos_plus, sin_plus;
        change ((cos x * cos y - sin x * sin y, sin x * cos y + cos x * sin y)
         = (cos x * cos y - sin x * sin y, cos x * sin y + sin x * cos y))%R; f_equal; ring).
Qed.
Lemma cis_0 : cis 0%R = 1%r.
Proof. unfold cis. rewrite cos_0, sin_0. reflexivity. Qed.
Lemma apply_each_R n phi qs v r :
  apply_each n (gate_R (cis phi)) qs v r = (cis (phi * IZR (ones n qs r)) * v r)%r.
Proof.
  revert r. induction qs as [|q qs IH]; intros r.
  - cbn [apply_each fold_right]. unfold ones. cbn [filter]. change (zlen (@nil Z)) with 0. rewrite Rmult_0_r, cis_0.
    symmetry. apply (Rmul_1_l (@rth (Cx R) _)).
  - cbn [apply_each fold_right]. unfold apply1 at 1. cbn [gate_R]. 
    change (fold_right (apply1 n (gate_R (cis phi))) v qs) with (apply_each n (gate_R (cis phi)) qs v).
    rewrite !IH. unfold ones. cbn [filter]. destruct (qbit n r q).
    + rewrite zlen_cons, plus_IZR.
      replace (phi * (IZR (zlen (filter (qbit n r) qs)) + 1))%R with (phi + phi * IZR (zlen (filter (qbit n r) qs)))%R by ring.
      rewrite cis_add. generalize (cis (phi * IZR (zlen (filter (qbit n r) qs)))), (cis phi), (v r). intros a b c.
      unfold ones. match goal with |- context [(0 * ?x)%r] => generalize x end. intros d.
      destruct a, b, c, d. cbv [rmul radd rO CxRing cxmul cxadd cx0 fst snd or_ring ROrdRing RCRing rsub]. f_equal; ring.
    + match goal with |- context [(0 * ?x)%r] => generalize x end. intros d.
      generalize (cis (phi * IZR (zlen (filter (qbit n r) qs)))), (v r). intros a c.
      destruct a, c, d. cbv [rmul radd rO rI CxRing cxmul cxadd cx0 cx1 fst snd or_ring ROrdRing RCRing rsub]. f_equal; ring.
Qed.
Lemma R_phase n phi groups mats v W :
  0 <= n -> qubits_ok n (concat groups) -> op_ms (R_op phi) false groups = Ok mats -> applied n mats v W ->
  forall r, 0 <= r < 2 ^ n ->
  amp W r = ((cos (phi * IZR (ones n (concat groups) r)), sin (phi * IZR (ones n (concat groups) r)))%R * amp v r)%r.
Proof.
  intros Hn HQ Hm HA r Hr. rewrite (gate_action n (R_op phi) (gate_R (cis phi)) groups mats v W) by auto.
  apply apply_each_R.
Qed.
Lemma Rm_phase n m (negate : bool) groups mats v W :
  0 <= n -> qubits_ok n (concat groups) -> op_ms (Rm_op m negate) false groups = Ok mats -> applied n mats v W ->
  forall r, 0 <= r < 2 ^ n ->
  let phi := ((if negate then -2 else 2) * PI / powerRZ 2 m * IZR (ones n (concat groups) r))%R in
  amp W r = ((cos phi, sin phi) * amp v r)%r.
Proof. intros Hn HQ Hm HA r Hr. apply (R_phase n _ groups mats v W); auto. Qed.
Lemma H_action n groups mats v W :
  0 <= n -> qubits_ok n (concat groups) -> op_ms H_op false groups = Ok mats -> applied n mats v W ->
  forall r, 0 <= r < 2 ^ n -> amp W r = apply_each n (gate_H (1 / sqrt 2)%R) (concat groups) (amp v) r.
Proof. intros Hn HQ Hm HA r Hr. rewrite (gate_action n H_op (gate_H (1 / sqrt 2)%R) groups mats v W) by auto. reflexivity. Qed.
