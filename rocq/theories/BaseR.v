(** The real numbers as an ordered ring (uses the axioms of Coq's standard library reals). *)
From Coq Require Import Reals Lra.
From Verif Require Import Base.

Definition Rleb (a b : R) : bool := if Rle_dec a b then true else false.
Lemma Rleb_le a b : Rleb a b = true <-> (a <= b)%R.
Proof. unfold Rleb. destruct (Rle_dec a b); split; intros; auto; try discriminate; contradiction. Qed.

#[global] Instance RCRing : CRing R :=
  {| rO := 0%R; rI := 1%R; radd := Rplus; rmul := Rmult; rsub := Rminus; ropp := Ropp; rth := RTheory |}.

#[global] Instance ROrdRing : OrdRing R.
Proof.
  refine {| or_ring := RCRing; rleb := Rleb |}.
  - intros. apply Rleb_le. lra.
  - intros a b c. rewrite !Rleb_le. lra.
  - intros a b. rewrite !Rleb_le. lra.
  - intros a b. rewrite !Rleb_le. lra.
  - intros a b c. rewrite !Rleb_le. cbv [radd RCRing]. lra.
  - intros a b. rewrite !Rleb_le. cbv [rmul rO RCRing]. intros. apply Rmult_le_pos; auto.
  - cbv [rO rI RCRing]. lra.
Defined.
