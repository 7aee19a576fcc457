(** Base: rings, complex numbers, finite sums, Python values as Coq values.

    Nothing in this file models a particular function of the repository; it fixes the
    vocabulary the model is written in. *)
From Coq Require Export List ZArith Lia Bool Ring Permutation.
From Coq Require Import ZifyBool.
Export ListNotations.
Global Open Scope Z_scope.

(** ** Commutative rings (with Leibniz equality) *)
Class CRing (A : Type) := {
  rO : A; rI : A;
  radd : A -> A -> A; rmul : A -> A -> A; rsub : A -> A -> A; ropp : A -> A;
  rth : ring_theory rO rI radd rmul rsub ropp (@eq A)
}.

Declare Scope r_scope.
Delimit Scope r_scope with r.
Notation "0" := rO : r_scope.
Notation "1" := rI : r_scope.
Infix "+" := radd : r_scope.
Infix "*" := rmul : r_scope.
Infix "-" := rsub : r_scope.
Notation "- x" := (ropp x) : r_scope.

(** Totally ordered commutative rings; [rleb] is the comparison the code branches on. *)
Class OrdRing (K : Type) := {
  or_ring :> CRing K;
  rleb : K -> K -> bool;
  rleb_refl : forall a, rleb a a = true;
  rleb_trans : forall a b c, rleb a b = true -> rleb b c = true -> rleb a c = true;
  rleb_antisym : forall a b, rleb a b = true -> rleb b a = true -> a = b;
  rleb_total : forall a b, rleb a b = true \/ rleb b a = true;
  rleb_add : forall a b c, rleb a b = true -> rleb (c + a)%r (c + b)%r = true;
  rleb_mul : forall a b, rleb 0%r a = true -> rleb 0%r b = true -> rleb 0%r (a * b)%r = true;
  rO_neq_rI : (0 <> 1 :> K)%r
}.

Definition rle {K} `{OrdRing K} (a b : K) : Prop := rleb a b = true.
Definition rlt {K} `{OrdRing K} (a b : K) : Prop := rleb b a = false.
Definition reqb {K} `{OrdRing K} (a b : K) : bool := rleb a b && rleb b a.

(** ** Complex numbers over a ring: pairs (real part, imaginary part) *)
Definition Cx (K : Type) : Type := (K * K)%type.

Section Complex.
  Context {K : Type} {RK : CRing K}.
  Add Ring KRing0 : (@rth K RK).
  Definition cx0 : Cx K := (0, 0)%r.
  Definition cx1 : Cx K := (1, 0)%r.
  Definition cxi : Cx K := (0, 1)%r.
  Definition cxadd (x y : Cx K) : Cx K := (fst x + fst y, snd x + snd y)%r.
  Definition cxmul (x y : Cx K) : Cx K :=
    (fst x * fst y - snd x * snd y, fst x * snd y + snd x * fst y)%r.
  Definition cxopp (x : Cx K) : Cx K := (- fst x, - snd x)%r.
  Definition cxsub (x y : Cx K) : Cx K := (fst x - fst y, snd x - snd y)%r.
  Definition cconj (x : Cx K) : Cx K := (fst x, - snd x)%r.
  (** abs(x)**2 of the Python/Cython code *)
  Definition cnorm2 (x : Cx K) : K := (fst x * fst x + snd x * snd x)%r.
  (** embedding of real scalars *)
  Definition creal (a : K) : Cx K := (a, 0)%r.

  Lemma cx_ring : ring_theory cx0 cx1 cxadd cxmul cxsub cxopp (@eq (Cx K)).
  Proof.
    constructor; intros; repeat match goal with x : Cx K |- _ => destruct x end;
      unfold cxadd, cxmul, cxsub, cxopp, cx0, cx1; cbn [fst snd]; f_equal; ring.
  Qed.
  Global Instance CxRing : CRing (Cx K) :=
    {| rO := cx0; rI := cx1; radd := cxadd; rmul := cxmul; rsub := cxsub; ropp := cxopp;
       rth := cx_ring |}.

  Lemma cconj_add x y : cconj (x + y)%r = (cconj x + cconj y)%r.
  Proof. destruct x, y; unfold cconj; cbn; unfold cxadd; cbn; f_equal; ring. Qed.
  Lemma cconj_mul x y : cconj (x * y)%r = (cconj x * cconj y)%r.
  Proof. destruct x, y; unfold cconj; cbn; unfold cxmul; cbn; f_equal; ring. Qed.
  Lemma cconj_0 : cconj 0%r = 0%r.
  Proof. unfold cconj; cbn; unfold cx0; cbn; f_equal; ring. Qed.
  Lemma cconj_1 : cconj 1%r = 1%r.
  Proof. unfold cconj; cbn; unfold cx1; cbn; f_equal; ring. Qed.
  Lemma cconj_invol x : cconj (cconj x) = x.
  Proof. destruct x; unfold cconj; cbn; f_equal; ring. Qed.
  Lemma cconj_norm x : (cconj x * x)%r = creal (cnorm2 x).
  Proof. destruct x; unfold cconj, creal, cnorm2; cbn; unfold cxmul; cbn; f_equal; ring. Qed.
  Lemma cnorm2_mul x y : cnorm2 (x * y)%r = (cnorm2 x * cnorm2 y)%r.
  Proof. destruct x, y; unfold cnorm2; cbn; unfold cxmul; cbn; ring. Qed.
  Lemma cnorm2_0 : cnorm2 0%r = 0%r.
  Proof. unfold cnorm2; cbn; unfold cx0; cbn; ring. Qed.
  Lemma cnorm2_1 : cnorm2 1%r = 1%r.
  Proof. unfold cnorm2; cbn; unfold cx1; cbn; ring. Qed.
  Lemma creal_add a b : creal (a + b)%r = (creal a + creal b)%r.
  Proof. unfold creal; cbn; unfold cxadd; cbn; f_equal; ring. Qed.
  Lemma creal_mul a b : creal (a * b)%r = (creal a * creal b)%r.
  Proof. unfold creal; cbn; unfold cxmul; cbn; f_equal; ring. Qed.
  Lemma creal_0 : creal 0%r = 0%r.
  Proof. reflexivity. Qed.
  Lemma creal_1 : creal 1%r = 1%r.
  Proof. reflexivity. Qed.
  Lemma creal_inj a b : creal a = creal b -> a = b.
  Proof. unfold creal; congruence. Qed.
  Lemma cnorm2_creal a : cnorm2 (creal a) = (a * a)%r.
  Proof. unfold creal, cnorm2; cbn; ring. Qed.
End Complex.

(** ** Ordered ring facts *)
Section Ord.
  Context {K : Type} {OK : OrdRing K}.
  Add Ring KRing1 : (@rth K _).
  Lemma rle_refl (a : K) : rle a a.
  Proof. apply rleb_refl. Qed.
  Lemma rle_trans (a b c : K) : rle a b -> rle b c -> rle a c.
  Proof. apply rleb_trans. Qed.
  Lemma rle_antisym (a b : K) : rle a b -> rle b a -> a = b.
  Proof. apply rleb_antisym. Qed.
  Lemma rle_lt_dec (a b : K) : {rle a b} + {rlt b a}.
  Proof. unfold rle, rlt. destruct (rleb a b); auto. Qed.
  Lemma rlt_le (a b : K) : rlt a b -> rle a b.
  Proof.
    unfold rlt, rle; intros H. destruct (rleb_total a b) as [E|E]; auto. congruence.
  Qed.
  Lemma rlt_not_le (a b : K) : rlt a b <-> ~ rle b a.
  Proof. unfold rlt, rle. destruct (rleb b a); split; congruence. Qed.
  Lemma rlt_irrefl (a : K) : ~ rlt a a.
  Proof. intros H. apply rlt_not_le in H. apply H, rle_refl. Qed.
  Lemma rle_lt_trans (a b c : K) : rle a b -> rlt b c -> rlt a c.
  Proof.
    intros H1 H2. apply rlt_not_le. intros H3. apply rlt_not_le in H2. apply H2.
    eapply rle_trans; eauto.
  Qed.
  Lemma rlt_le_trans (a b c : K) : rlt a b -> rle b c -> rlt a c.
  Proof.
    intros H1 H2. apply rlt_not_le. intros H3. apply rlt_not_le in H1. apply H1.
    eapply rle_trans; eauto.
  Qed.
  Lemma rlt_trans (a b c : K) : rlt a b -> rlt b c -> rlt a c.
  Proof. intros. eapply rle_lt_trans; eauto. apply rlt_le; auto. Qed.
  Lemma rle_add_l (a b c : K) : rle a b -> rle (c + a)%r (c + b)%r.
  Proof. apply rleb_add. Qed.
  Lemma rle_add_r (a b c : K) : rle a b -> rle (a + c)%r (b + c)%r.
  Proof.
    intros. replace (a + c)%r with (c + a)%r by ring. replace (b + c)%r with (c + b)%r by ring.
    apply rle_add_l; auto.
  Qed.
  Lemma rle_add (a b c d : K) : rle a b -> rle c d -> rle (a + c)%r (b + d)%r.
  Proof. intros. eapply rle_trans; [apply rle_add_r; eassumption | apply rle_add_l; auto]. Qed.
  Lemma rle_add_cancel_l (a b c : K) : rle (c + a)%r (c + b)%r -> rle a b.
  Proof.
    intros H. apply (rle_add_l _ _ (- c)%r) in H.
    replace (- c + (c + a))%r with a in H by ring.
    replace (- c + (c + b))%r with b in H by ring. exact H.
  Qed.
  Lemma rlt_add_l (a b c : K) : rlt a b -> rlt (c + a)%r (c + b)%r.
  Proof.
    intros H. apply rlt_not_le. intros H'. apply rle_add_cancel_l in H'.
    apply rlt_not_le in H; auto.
  Qed.
  Lemma rle_sub_0 (a b : K) : rle (a - b)%r 0%r <-> rle a b.
  Proof.
    split; intros H.
    - apply (rle_add_l _ _ b) in H. replace (b + (a - b))%r with a in H by ring.
      replace (b + 0)%r with b in H by ring. exact H.
    - apply (rle_add_l _ _ (- b)%r) in H. replace (- b + a)%r with (a - b)%r in H by ring.
      replace (- b + b)%r with (0:K)%r in H by ring. exact H.
  Qed.
  Lemma rle_mul_nonneg (a b : K) : rle 0%r a -> rle 0%r b -> rle 0%r (a * b)%r.
  Proof. apply rleb_mul. Qed.
  Lemma rle_opp_nonneg (a : K) : rle a 0%r -> rle 0%r (- a)%r.
  Proof.
    intros H. apply (rle_add_l _ _ (- a)%r) in H. replace (- a + a)%r with (0:K)%r in H by ring.
    replace (- a + 0)%r with (- a)%r in H by ring. exact H.
  Qed.
  Lemma rle_square (a : K) : rle 0%r (a * a)%r.
  Proof.
    destruct (rleb_total 0%r a) as [H|H].
    - apply rle_mul_nonneg; auto.
    - apply rle_opp_nonneg in H. replace (a * a)%r with ((- a) * (- a))%r by ring.
      apply rle_mul_nonneg; auto.
  Qed.
  Lemma rle_add_nonneg (a b : K) : rle 0%r a -> rle 0%r b -> rle 0%r (a + b)%r.
  Proof.
    intros. replace (0:K)%r with ((0 + 0)%r:K) by ring. apply rle_add; auto.
  Qed.
  Lemma cnorm2_nonneg (x : Cx K) : rle 0%r (cnorm2 x).
  Proof. apply rle_add_nonneg; apply rle_square. Qed.
  Lemma rle_mul_l (a b c : K) : rle 0%r c -> rle a b -> rle (c * a)%r (c * b)%r.
  Proof.
    intros Hc H. apply (rle_add_l _ _ (- a)%r) in H.
    replace (- a + a)%r with (0:K)%r in H by ring.
    pose proof (rle_mul_nonneg _ _ Hc H) as H2.
    apply (rle_add_l _ _ (c * a)%r) in H2.
    replace (c * a + 0)%r with (c * a)%r in H2 by ring.
    replace (c * a + c * (- a + b))%r with (c * b)%r in H2 by ring. exact H2.
  Qed.
  Lemma rle_0_1 : rle (0:K)%r (1:K)%r.
  Proof. replace (1:K)%r with ((1 * 1)%r:K) by ring. apply rle_square. Qed.
  Lemma rlt_0_1 : rlt (0:K)%r (1:K)%r.
  Proof.
    apply rlt_not_le. intros H. apply rO_neq_rI. apply rle_antisym; auto. apply rle_0_1.
  Qed.
  Lemma reqb_eq (a b : K) : reqb a b = true <-> a = b.
  Proof.
    unfold reqb. rewrite andb_true_iff. split.
    - intros [H1 H2]. apply rleb_antisym; auto.
    - intros ->. split; apply rleb_refl.
  Qed.
  Lemma reqb_neq (a b : K) : reqb a b = false <-> a <> b.
  Proof. rewrite <- reqb_eq. destruct (reqb a b); split; congruence. Qed.
  Lemma rsq_zero_sum (a b : K) : rle 0%r a -> rle 0%r b -> (a + b = 0)%r -> a = 0%r.
  Proof.
    intros Ha Hb H. apply rle_antisym; auto. rewrite <- H.
    replace a with (a + 0)%r at 1 by ring. apply rle_add_l; auto.
  Qed.
  Lemma rlt_le_neq (a b : K) : rlt a b <-> rle a b /\ a <> b.
  Proof.
    split.
    - intros H. split; [apply rlt_le; auto|]. intros ->. eapply rlt_irrefl; eauto.
    - intros [H1 H2]. apply rlt_not_le. intros H3. apply H2. apply rle_antisym; auto.
  Qed.
End Ord.

(** complex zero test, the C expression [z == 0.0] *)
Definition cx_is0 {K} `{OrdRing K} (x : Cx K) : bool := reqb (fst x) 0%r && reqb (snd x) 0%r.
Lemma cx_is0_spec {K} `{OrdRing K} (x : Cx K) : cx_is0 x = true <-> x = 0%r.
Proof.
  unfold cx_is0. rewrite andb_true_iff, !reqb_eq. destruct x as [a b]; cbn. unfold cx0.
  split; [intros [-> ->]; reflexivity | intros E; inversion E; auto].
Qed.

(** ** Ring instances *)
Global Instance ZCRing : CRing Z :=
  {| rO := 0; rI := 1; radd := Z.add; rmul := Z.mul; rsub := Z.sub; ropp := Z.opp; rth := Zth |}.
Global Instance ZOrdRing : OrdRing Z.
Proof.
  refine {| or_ring := ZCRing; rleb := Z.leb |}; cbn; intros; try lia.
Defined.

(** ** Python results *)
Inductive exn :=
| ValueError | GenericException | IndexError | KeyError | TypeError | AttributeError
| ZeroDivisionError | AssertionError | NameError | IOErrorExn | OverflowError
| InsufficientResourcesExn  (* subclass of ValueError *)
| OOB        (* C memory access outside the array: undefined behaviour under boundscheck(False) *)
| OutOfFuel. (* the model's own: excluded by every theorem that mentions fuel *)

Inductive res (A : Type) := Ok (a : A) | Raise (e : exn).
Arguments Ok {A} a.
Arguments Raise {A} e.
Definition bind {A B} (x : res A) (f : A -> res B) : res B :=
  match x with Ok a => f a | Raise e => Raise e end.
Notation "'do' x <- e ; k" := (bind e (fun x => k)) (at level 200, x pattern, e at level 100, k at level 200).

(** a [for] loop whose body may raise *)
Fixpoint mfold {S I} (f : S -> I -> res S) (l : list I) (s : S) : res S :=
  match l with
  | [] => Ok s
  | i :: l => do s' <- f s i; mfold f l s'
  end.
(** a list comprehension whose body may raise *)
Fixpoint mmap {A B} (f : A -> res B) (l : list A) : res (list B) :=
  match l with
  | [] => Ok []
  | a :: l => do b <- f a; do bs <- mmap f l; Ok (b :: bs)
  end.

Lemma mfold_ok {S I} (f : S -> I -> res S) (g : S -> I -> S) l s :
  (forall s i, In i l -> f s i = Ok (g s i)) -> mfold f l s = Ok (fold_left g l s).
Proof.
  revert s. induction l as [|i l IH]; cbn; intros s H; auto.
  rewrite (H s i) by auto. cbn. apply IH. intros; apply H; auto.
Qed.
(** version with an invariant on the loop state *)
Lemma mfold_ok_inv {S I} (Inv : S -> Prop) (f : S -> I -> res S) (g : S -> I -> S) l s :
  Inv s ->
  (forall s i, In i l -> Inv s -> f s i = Ok (g s i) /\ Inv (g s i)) ->
  mfold f l s = Ok (fold_left g l s) /\ Inv (fold_left g l s).
Proof.
  revert s. induction l as [|i l IH]; cbn; intros s Hs H; auto.
  destruct (H s i (or_introl eq_refl) Hs) as [E HI]. rewrite E. cbn. apply IH; auto.
Qed.
Lemma mfold_app {S I} (f : S -> I -> res S) l1 l2 s :
  mfold f (l1 ++ l2) s = (do s' <- mfold f l1 s; mfold f l2 s').
Proof.
  revert s. induction l1 as [|i l1 IH]; cbn; intros s; auto.
  destruct (f s i); cbn; auto.
Qed.
Lemma mmap_ok {A B} (f : A -> res B) (g : A -> B) l :
  (forall a, In a l -> f a = Ok (g a)) -> mmap f l = Ok (map g l).
Proof.
  induction l as [|a l IH]; cbn; intros H; auto.
  rewrite (H a) by auto. cbn. rewrite IH by auto. reflexivity.
Qed.

(** ** Integer ranges and arrays *)
(** range(lo, hi) *)
Definition zrange (lo hi : Z) : list Z :=
  map (fun i => lo + Z.of_nat i) (seq 0 (Z.to_nat (hi - lo))).
Definition zlen {A} (l : list A) : Z := Z.of_nat (length l).
(** C array read, unchecked in the code: out of range is [OOB] *)
Definition cget {A} (l : list A) (i : Z) : res A :=
  if (i <? 0) then Raise OOB
  else match nth_error l (Z.to_nat i) with Some a => Ok a | None => Raise OOB end.
(** Python list/tuple read: negative indices count from the end, IndexError outside *)
Definition pyget {A} (l : list A) (i : Z) : res A :=
  let j := if (i <? 0) then i + zlen l else i in
  if (j <? 0) then Raise IndexError
  else match nth_error l (Z.to_nat j) with Some a => Ok a | None => Raise IndexError end.
Fixpoint upd {A} (l : list A) (i : nat) (v : A) : list A :=
  match l, i with
  | [], _ => []
  | _ :: l, O => v :: l
  | a :: l, S i => a :: upd l i v
  end.
(** C array write *)
Definition cset {A} (l : list A) (i : Z) (v : A) : res (list A) :=
  if (i <? 0) || (zlen l <=? i) then Raise OOB else Ok (upd l (Z.to_nat i) v).
(** Python list item assignment *)
Definition pyset {A} (l : list A) (i : Z) (v : A) : res (list A) :=
  let j := if (i <? 0) then i + zlen l else i in
  if (j <? 0) || (zlen l <=? j) then Raise IndexError else Ok (upd l (Z.to_nat j) v).
(** total read used in specifications only *)
Definition znth {A} (d : A) (l : list A) (i : Z) : A :=
  if (i <? 0) then d else nth (Z.to_nat i) l d.

Lemma zlen_nonneg {A} (l : list A) : 0 <= zlen l.
Proof. unfold zlen; lia. Qed.
Lemma zlen_app {A} (l l' : list A) : zlen (l ++ l') = zlen l + zlen l'.
Proof. unfold zlen. rewrite app_length. lia. Qed.
Lemma zlen_cons {A} (a : A) l : zlen (a :: l) = zlen l + 1.
Proof. unfold zlen. cbn [length]. lia. Qed.
Lemma zlen_nil {A} : zlen (@nil A) = 0.
Proof. reflexivity. Qed.
Lemma zlen_snoc {A} (l : list A) a : zlen (l ++ [a]) = zlen l + 1.
Proof. unfold zlen. rewrite app_length. cbn [length]. lia. Qed.
Lemma zlen_map {A B} (f : A -> B) l : zlen (map f l) = zlen l.
Proof. unfold zlen. rewrite map_length. auto. Qed.
Lemma zlen_rev {A} (l : list A) : zlen (rev l) = zlen l.
Proof. unfold zlen. rewrite rev_length. auto. Qed.

Lemma in_zrange lo hi i : In i (zrange lo hi) <-> lo <= i < hi.
Proof.
  unfold zrange. rewrite in_map_iff. split.
  - intros (k & <- & Hk). apply in_seq in Hk. lia.
  - intros H. exists (Z.to_nat (i - lo)). split; [lia|]. apply in_seq. lia.
Qed.
Lemma zrange_length lo hi : length (zrange lo hi) = Z.to_nat (hi - lo).
Proof. unfold zrange. rewrite map_length, seq_length. auto. Qed.
Lemma zlen_zrange lo hi : lo <= hi -> zlen (zrange lo hi) = hi - lo.
Proof. unfold zlen. rewrite zrange_length. lia. Qed.
Lemma zrange_nodup lo hi : NoDup (zrange lo hi).
Proof.
  unfold zrange. apply FinFun.Injective_map_NoDup; [|apply seq_NoDup].
  intros x y H. lia.
Qed.
Lemma zrange_empty lo hi : hi <= lo -> zrange lo hi = [].
Proof. intros. unfold zrange. replace (Z.to_nat (hi - lo)) with O by lia. auto. Qed.
Lemma zrange_cons lo hi : lo < hi -> zrange lo hi = lo :: zrange (lo + 1) hi.
Proof.
  intros. unfold zrange. replace (Z.to_nat (hi - lo)) with (S (Z.to_nat (hi - (lo + 1)))) by lia.
  cbn [seq map]. f_equal; [lia|]. rewrite <- seq_shift, map_map. apply map_ext. intros; lia.
Qed.
Lemma zrange_snoc lo hi : lo < hi -> zrange lo hi = zrange lo (hi - 1) ++ [hi - 1].
Proof.
  intros. unfold zrange. replace (Z.to_nat (hi - lo)) with (S (Z.to_nat (hi - 1 - lo))) by lia.
  rewrite seq_S, map_app. cbn. f_equal. f_equal. lia.
Qed.
Lemma zrange_app lo mid hi : lo <= mid <= hi -> zrange lo hi = zrange lo mid ++ zrange mid hi.
Proof.
  intros. unfold zrange.
  replace (Z.to_nat (hi - lo)) with (Z.to_nat (mid - lo) + Z.to_nat (hi - mid))%nat by lia.
  rewrite seq_app, map_app. f_equal.
  rewrite <- (map_id (seq (0 + _) _)) at 1.
  assert (E : forall k m, map (fun i => lo + Z.of_nat i) (map (fun x => x) (seq (k) m))
            = map (fun i => lo + Z.of_nat k + Z.of_nat i) (seq 0 m)).
  { intros k m. rewrite map_id. revert k. induction m; intros; cbn; auto. f_equal; [lia|].
    rewrite IHm. rewrite <- seq_shift. rewrite map_map. apply map_ext. intros; lia. }
  cbn [Nat.add]. rewrite E. apply map_ext. intros; lia.
Qed.
Lemma zrange_shift lo hi d : zrange (lo + d) (hi + d) = map (fun i => i + d) (zrange lo hi).
Proof.
  unfold zrange. rewrite map_map. replace (hi + d - (lo + d)) with (hi - lo) by lia.
  apply map_ext. intros; lia.
Qed.
Lemma nth_error_zrange lo hi i :
  0 <= i < hi - lo -> nth_error (zrange lo hi) (Z.to_nat i) = Some (lo + i).
Proof.
  intros. unfold zrange. rewrite nth_error_map.
  erewrite nth_error_nth' with (d:=O) by (rewrite seq_length; lia).
  rewrite seq_nth by lia. cbn. f_equal. lia.
Qed.
Lemma map_zrange_ext {B} (f g : Z -> B) lo hi :
  (forall i, lo <= i < hi -> f i = g i) -> map f (zrange lo hi) = map g (zrange lo hi).
Proof. intros. apply map_ext_in. intros i Hi. apply in_zrange in Hi. auto. Qed.

Lemma znth_nth {A} (d : A) l i : 0 <= i -> znth d l i = nth (Z.to_nat i) l d.
Proof. intros. unfold znth. destruct (Z.ltb_spec i 0); [lia|auto]. Qed.
Lemma znth_out {A} (d : A) l i : i < 0 \/ zlen l <= i -> znth d l i = d.
Proof.
  intros H. unfold znth. destruct (Z.ltb_spec i 0); auto. apply nth_overflow.
  unfold zlen in H. lia.
Qed.
Lemma znth_map_zrange {B} (d : B) f lo hi i :
  0 <= i < hi - lo -> znth d (map f (zrange lo hi)) i = f (lo + i).
Proof.
  intros. rewrite znth_nth by lia.
  apply nth_error_nth. rewrite nth_error_map, nth_error_zrange by lia. reflexivity.
Qed.
Lemma znth_indep {A} (d d' : A) l i : 0 <= i < zlen l -> znth d l i = znth d' l i.
Proof. intros. rewrite !znth_nth by lia. apply nth_indep. unfold zlen in *. lia. Qed.
Lemma znth_map {A B} (f : A -> B) d d' l i :
  0 <= i < zlen l -> znth d' (map f l) i = f (znth d l i).
Proof.
  intros. rewrite !znth_nth by lia. rewrite nth_indep with (d' := f d).
  - apply map_nth.
  - rewrite map_length. unfold zlen in *. lia.
Qed.
Lemma cget_ok {A} (d : A) l i : 0 <= i < zlen l -> cget l i = Ok (znth d l i).
Proof.
  intros. unfold cget, znth. destruct (Z.ltb_spec i 0); [lia|].
  erewrite nth_error_nth'; eauto. unfold zlen in *. lia.
Qed.
Lemma cget_oob {A} (l : list A) i : i < 0 \/ zlen l <= i -> cget l i = Raise OOB.
Proof.
  intros H. unfold cget. destruct (Z.ltb_spec i 0); auto.
  replace (nth_error l (Z.to_nat i)) with (@None A); auto.
  symmetry. apply nth_error_None. unfold zlen in *. lia.
Qed.
Lemma pyget_ok {A} (d : A) l i : 0 <= i < zlen l -> pyget l i = Ok (znth d l i).
Proof.
  intros. unfold pyget, znth. destruct (Z.ltb_spec i 0); [lia|].
  destruct (Z.ltb_spec i 0); [lia|].
  erewrite nth_error_nth'; eauto. unfold zlen in *. lia.
Qed.
Lemma upd_length {A} (l : list A) i v : length (upd l i v) = length l.
Proof. revert i; induction l; destruct i; cbn; auto. Qed.
Lemma zlen_upd {A} (l : list A) i v : zlen (upd l i v) = zlen l.
Proof. unfold zlen. rewrite upd_length. auto. Qed.
Lemma nth_upd {A} (l : list A) i v j d :
  nth j (upd l i v) d = if (Nat.eqb i j && Nat.ltb i (length l))%bool then v else nth j l d.
Proof.
  revert i j; induction l as [|a l IH]; intros i j.
  - destruct j; rewrite andb_false_r; destruct i; reflexivity.
  - destruct i, j; cbn; auto. rewrite IH. reflexivity.
Qed.
Lemma znth_upd {A} (d : A) l i v j :
  0 <= i < zlen l -> znth d (upd l (Z.to_nat i) v) j = if (j =? i) then v else znth d l j.
Proof.
  intros H. unfold znth. destruct (Z.ltb_spec j 0).
  - destruct (Z.eqb_spec j i); [lia|auto].
  - rewrite nth_upd. unfold zlen in H.
    destruct (Z.eqb_spec j i), (Nat.eqb_spec (Z.to_nat i) (Z.to_nat j)),
      (Nat.ltb_spec (Z.to_nat i) (length l)); cbn; auto; lia.
Qed.
Lemma cset_ok {A} (l : list A) i v : 0 <= i < zlen l -> cset l i v = Ok (upd l (Z.to_nat i) v).
Proof. intros. unfold cset. destruct (Z.ltb_spec i 0); [lia|]. destruct (Z.leb_spec (zlen l) i); [lia|auto]. Qed.
Lemma cset_oob {A} (l : list A) i v : i < 0 \/ zlen l <= i -> cset l i v = Raise OOB.
Proof.
  intros. unfold cset. destruct (Z.ltb_spec i 0), (Z.leb_spec (zlen l) i); cbn; auto. lia.
Qed.
Lemma pyset_ok {A} (l : list A) i v : 0 <= i < zlen l -> pyset l i v = Ok (upd l (Z.to_nat i) v).
Proof.
  intros. unfold pyset. destruct (Z.ltb_spec i 0); [lia|]. destruct (Z.ltb_spec i 0); [lia|].
  destruct (Z.leb_spec (zlen l) i); [lia|auto].
Qed.
Lemma list_eq_znth {A} (d : A) (l l' : list A) :
  zlen l = zlen l' -> (forall i, 0 <= i < zlen l -> znth d l i = znth d l' i) -> l = l'.
Proof.
  intros HL H. apply nth_ext with (d:=d) (d':=d); [unfold zlen in HL; lia|].
  intros k Hk. specialize (H (Z.of_nat k)). rewrite !znth_nth, !Nat2Z.id in H by lia.
  apply H. unfold zlen. lia.
Qed.
Lemma list_as_map {A} (d : A) (l : list A) : l = map (znth d l) (zrange 0 (zlen l)).
Proof.
  apply list_eq_znth with (d:=d).
  - rewrite zlen_map, zlen_zrange; [lia | apply zlen_nonneg].
  - intros i Hi. rewrite znth_map_zrange by lia. f_equal.
Qed.

Lemma NoDup_map_inj {A B} (h : A -> B) (m : list A) :
  NoDup m -> (forall j j', In j m -> In j' m -> h j = h j' -> j = j') -> NoDup (map h m).
Proof.
  induction 1 as [|a m Ha Nm IH]; cbn; intros H; constructor.
  - rewrite in_map_iff. intros (j & E & Hj). assert (j = a) by (apply H; auto). congruence.
  - apply IH. intros; apply H; auto.
Qed.

(** ** Finite sums and products over lists *)
Section Sums.
  Context {A : Type} {RA : CRing A}.
  Add Ring ARing2 : (@rth A RA).

  Fixpoint sum {I} (l : list I) (f : I -> A) : A :=
    match l with [] => 0%r | i :: l => (f i + sum l f)%r end.
  Fixpoint prod {I} (l : list I) (f : I -> A) : A :=
    match l with [] => 1%r | i :: l => (f i * prod l f)%r end.

  Lemma sum_ext {I} (l : list I) f g : (forall i, In i l -> f i = g i) -> sum l f = sum l g.
  Proof. induction l; cbn; intros H; auto. rewrite (H a), IHl by auto. auto. Qed.
  Lemma sum_0 {I} (l : list I) : sum l (fun _ => 0%r) = 0%r.
  Proof. induction l; cbn; auto. rewrite IHl. ring. Qed.
  Lemma sum_zero {I} (l : list I) f : (forall i, In i l -> f i = 0%r) -> sum l f = 0%r.
  Proof. intros. rewrite (sum_ext _ f (fun _ => 0%r)); auto. apply sum_0. Qed.
  Lemma sum_app {I} (l l' : list I) f : sum (l ++ l') f = (sum l f + sum l' f)%r.
  Proof. induction l; cbn; [ring|]. rewrite IHl. ring. Qed.
  Lemma sum_add {I} (l : list I) f g : sum l (fun i => (f i + g i)%r) = (sum l f + sum l g)%r.
  Proof. induction l; cbn; [ring|]. rewrite IHl. ring. Qed.
  Lemma sum_mul_l {I} (l : list I) c f : sum l (fun i => (c * f i)%r) = (c * sum l f)%r.
  Proof. induction l; cbn; [ring|]. rewrite IHl. ring. Qed.
  Lemma sum_mul_r {I} (l : list I) c f : sum l (fun i => (f i * c)%r) = (sum l f * c)%r.
  Proof. induction l; cbn; [ring|]. rewrite IHl. ring. Qed.
  Lemma sum_swap {I J} (l : list I) (m : list J) f :
    sum l (fun i => sum m (fun j => f i j)) = sum m (fun j => sum l (fun i => f i j)).
  Proof.
    induction l; cbn; [symmetry; apply sum_0|]. rewrite IHl. rewrite sum_add. auto.
  Qed.
  Lemma sum_map {I J} (h : J -> I) l f : sum (map h l) f = sum l (fun j => f (h j)).
  Proof. induction l; cbn; auto. rewrite IHl. auto. Qed.
  Lemma sum_perm {I} (l l' : list I) f : Permutation l l' -> sum l f = sum l' f.
  Proof. induction 1; cbn; try congruence. ring. Qed.
  Lemma sum_filter {I} (p : I -> bool) l f :
    sum (filter p l) f = sum l (fun i => if p i then f i else 0%r).
  Proof. induction l; cbn; auto. destruct (p a); cbn; rewrite IHl; ring. Qed.
  Lemma sum_flat_map {I J} (h : I -> list J) l f :
    sum (flat_map h l) f = sum l (fun i => sum (h i) f).
  Proof. induction l; cbn; auto. rewrite sum_app, IHl. auto. Qed.
  Lemma sum_single {I} (l : list I) i f :
    NoDup l -> In i l -> (forall j, In j l -> j <> i -> f j = 0%r) -> sum l f = f i.
  Proof.
    intros ND. induction ND as [|a l Ha ND IH]; cbn; [tauto|].
    intros [->|Hi] H.
    - rewrite sum_zero; [ring|]. intros j Hj. apply H; auto. intros ->; auto.
    - rewrite IH; auto. rewrite (H a); [ring|auto|]. intros ->; auto.
  Qed.
  (** reindexing along a bijection of duplicate-free lists *)
  Lemma sum_reindex {I J} (l : list I) (m : list J) (h : J -> I) f :
    NoDup l -> NoDup m ->
    (forall j, In j m -> In (h j) l) ->
    (forall j j', In j m -> In j' m -> h j = h j' -> j = j') ->
    (forall i, In i l -> exists j, In j m /\ h j = i) ->
    sum l f = sum m (fun j => f (h j)).
  Proof.
    intros Nl Nm H1 H2 H3. rewrite <- (sum_map h m f). apply sum_perm.
    apply NoDup_Permutation; auto.
    - apply NoDup_map_inj; auto.
    - intros x. rewrite in_map_iff. split.
      + intros Hx. destruct (H3 x Hx) as (j & Hj & <-). eauto.
      + intros (j & <- & Hj). auto.
  Qed.
  (** the sum over [l] is the sum over [m] of [f . h] if [h] maps [m] bijectively onto the
      elements of [l] satisfying [p], and [f] vanishes on the others *)
  Lemma sum_reindex_supp {I J} (l : list I) (p : I -> bool) (m : list J) (h : J -> I) f :
    NoDup l -> NoDup m ->
    (forall j, In j m -> In (h j) l /\ p (h j) = true) ->
    (forall j j', In j m -> In j' m -> h j = h j' -> j = j') ->
    (forall i, In i l -> p i = true -> exists j, In j m /\ h j = i) ->
    (forall i, In i l -> p i = false -> f i = 0%r) ->
    sum l f = sum m (fun j => f (h j)).
  Proof.
    intros Nl Nm H1 H2 H3 H4.
    rewrite (sum_ext l f (fun i => if p i then f i else 0%r)).
    2:{ intros i Hi. destruct (p i) eqn:E; auto. }
    rewrite <- sum_filter. apply sum_reindex; auto.
    - apply NoDup_filter; auto.
    - intros j Hj. apply filter_In. auto.
    - intros i Hi. apply filter_In in Hi as [Hi Hp]. auto.
  Qed.
  Lemma fold_left_sum {I} (l : list I) f a :
    fold_left (fun s i => (s + f i)%r) l a = (a + sum l f)%r.
  Proof. revert a; induction l; cbn; intros; [ring|]. rewrite IHl. ring. Qed.
  Lemma fold_left_prod {I} (l : list I) f a :
    fold_left (fun s i => (s * f i)%r) l a = (a * prod l f)%r.
  Proof. revert a; induction l; cbn; intros; [ring|]. rewrite IHl. ring. Qed.
  Lemma prod_ext {I} (l : list I) f g : (forall i, In i l -> f i = g i) -> prod l f = prod l g.
  Proof. induction l; cbn; intros H; auto. rewrite (H a), IHl by auto. auto. Qed.
  Lemma prod_app {I} (l l' : list I) f : prod (l ++ l') f = (prod l f * prod l' f)%r.
  Proof. induction l; cbn; [ring|]. rewrite IHl. ring. Qed.
  Lemma prod_map {I J} (h : J -> I) l f : prod (map h l) f = prod l (fun j => f (h j)).
  Proof. induction l; cbn; auto. rewrite IHl. auto. Qed.
  Lemma prod_perm {I} (l l' : list I) f : Permutation l l' -> prod l f = prod l' f.
  Proof. induction 1; cbn; try congruence. ring. Qed.
  Lemma prod_zero {I} (l : list I) f i : In i l -> f i = 0%r -> prod l f = 0%r.
  Proof. induction l; cbn; [tauto|]. intros [->|H] E; [rewrite E; ring|]. rewrite IHl; auto. ring. Qed.
  Lemma prod_1 {I} (l : list I) f : (forall i, In i l -> f i = 1%r) -> prod l f = 1%r.
  Proof. induction l; cbn; auto. intros H. rewrite H, IHl by auto. ring. Qed.
  Lemma prod_mul {I} (l : list I) f g : prod l (fun i => (f i * g i)%r) = (prod l f * prod l g)%r.
  Proof. induction l; cbn; [ring|]. rewrite IHl. ring. Qed.
End Sums.

Section OrdSums.
  Context {K : Type} {OK : OrdRing K}.
  Add Ring KRing3 : (@rth K _).
  Lemma sum_nonneg {I} (l : list I) (f : I -> K) :
    (forall i, In i l -> rle 0%r (f i)) -> rle 0%r (sum l f).
  Proof.
    induction l; cbn; intros H; [apply rle_refl|]. apply rle_add_nonneg; auto.
  Qed.
  Lemma sum_zero_inv {I} (l : list I) (f : I -> K) :
    (forall i, In i l -> rle 0%r (f i)) -> sum l f = 0%r -> forall i, In i l -> f i = 0%r.
  Proof.
    induction l as [|a l IH]; cbn; intros H E i; [tauto|]. intros [->|Hi].
    - apply (rsq_zero_sum (f i) (sum l f)); auto. apply sum_nonneg; auto.
    - apply IH; auto. rewrite (rsq_zero_sum (sum l f) (f a)); auto.
      + apply sum_nonneg; auto.
      + rewrite <- E. ring.
  Qed.
End OrdSums.

Lemma sum_creal {K} {RK : CRing K} {I} (l : list I) (f : I -> K) :
  sum l (fun i => creal (f i)) = creal (sum l f).
Proof. induction l; cbn -[creal]; [reflexivity|]. rewrite IHl. symmetry. apply creal_add. Qed.
Lemma sum_cconj {K} {RK : CRing K} {I} (l : list I) (f : I -> Cx K) :
  cconj (sum l f) = sum l (fun i => cconj (f i)).
Proof.
  induction l as [|a l IH]; [apply cconj_0|].
  change (sum (a :: l) f) with (f a + sum l f)%r. rewrite cconj_add, IH. reflexivity.
Qed.

(** ** Loops over ranges *)
Lemma fold_zrange_inv {S} (P : Z -> S -> Prop) (f : S -> Z -> S) lo hi s :
  lo <= hi -> P lo s -> (forall j s, lo <= j < hi -> P j s -> P (j + 1) (f s j)) ->
  P hi (fold_left f (zrange lo hi) s).
Proof.
  intros Hle. remember (Z.to_nat (hi - lo)) as k eqn:Ek. revert lo s Hle Ek.
  induction k as [|k IH]; intros lo s Hle Ek H0 HS.
  - assert (lo = hi) by lia. subst. rewrite zrange_empty by lia. exact H0.
  - rewrite zrange_cons by lia. cbn. apply IH; try lia; auto.
    + apply HS; auto. lia.
    + intros; apply HS; auto. lia.
Qed.
Lemma mfold_zrange_inv {S} (P : Z -> S -> Prop) (f : S -> Z -> res S) lo hi s :
  lo <= hi -> P lo s ->
  (forall j s, lo <= j < hi -> P j s -> exists s', f s j = Ok s' /\ P (j + 1) s') ->
  exists s', mfold f (zrange lo hi) s = Ok s' /\ P hi s'.
Proof.
  intros Hle. remember (Z.to_nat (hi - lo)) as k eqn:Ek. revert lo s Hle Ek.
  induction k as [|k IH]; intros lo s Hle Ek H0 HS.
  - assert (lo = hi) by lia. subst. rewrite zrange_empty by lia. exists s; auto.
  - rewrite zrange_cons by lia. cbn.
    destruct (HS lo s) as (s' & E & Hs'); auto; [lia|]. rewrite E. cbn.
    apply IH; try lia; auto. intros; apply HS; auto. lia.
Qed.

Lemma mfold_map {S I J} (f : S -> J -> res S) (h : I -> J) l s :
  mfold f (map h l) s = mfold (fun s i => f s (h i)) l s.
Proof. revert s. induction l as [|a l IH]; cbn; intros; auto. destruct (f s (h a)); cbn; auto. Qed.
Lemma mfold_ext {S I} (f g : S -> I -> res S) l s :
  (forall s i, In i l -> f s i = g s i) -> mfold f l s = mfold g l s.
Proof.
  revert s. induction l as [|a l IH]; cbn; intros s H; auto. rewrite H by auto.
  destruct (g s a); cbn; auto.
Qed.
Lemma mmap_map {A B D} (f : B -> res D) (h : A -> B) l : mmap f (map h l) = mmap (fun a => f (h a)) l.
Proof. induction l as [|a l IH]; cbn; auto. rewrite IH. auto. Qed.
Lemma mmap_ext {A B} (f g : A -> res B) l : (forall a, In a l -> f a = g a) -> mmap f l = mmap g l.
Proof. induction l as [|a l IH]; cbn; intros H; auto. rewrite H, IH by auto. auto. Qed.
Lemma combine_map_same {A B D} (f : A -> B) (g : A -> D) l :
  combine (map f l) (map g l) = map (fun a => (f a, g a)) l.
Proof. induction l; cbn; congruence. Qed.
Lemma map_znth {A B} (d : A) (h : A -> B) l :
  map h l = map (fun j => h (znth d l j)) (zrange 0 (zlen l)).
Proof. rewrite (list_as_map d l) at 1. apply map_map. Qed.
Global Arguments rO : simpl never.
Global Arguments rI : simpl never.
Global Arguments radd : simpl never.
Global Arguments rmul : simpl never.
Global Arguments rsub : simpl never.
Global Arguments ropp : simpl never.
Global Arguments zlen : simpl never.
Global Arguments zrange : simpl never.
Global Arguments znth : simpl never.

(** decidable check that a list is a permutation of a range, for the examples *)
Definition perm_range (l : list Z) (len : Z) : bool :=
  (Z.of_nat (length l) =? Z.max 0 len) && forallb (fun i => existsb (Z.eqb i) l) (zrange 0 len).
Lemma perm_range_ok l len : perm_range l len = true -> Permutation l (zrange 0 len).
Proof.
  unfold perm_range. rewrite andb_true_iff, forallb_forall. intros [HL H].
  apply Permutation_sym. apply NoDup_Permutation_bis.
  - apply zrange_nodup.
  - rewrite zrange_length. lia.
  - intros i Hi. apply H in Hi. apply existsb_exists in Hi as (x & Hx & E).
    apply Z.eqb_eq in E. subst; auto.
Qed.
