(** Specification of the combination of top-k replies. *)
From Verif Require Import Base S_Measure M_Top.

Section TopSpec.
  Context {K : Type} {OK : OrdRing K}.
  (** a reply lists distinct outcomes, one probability each, at least one *)
  Definition reply_ok (c : reply K) : Prop := NoDup (fst c) /\ length (snd c) = length (fst c) /\ fst c <> [].
  (** probability a reply gives for outcome m, 0 when it is not listed *)
  Definition reply_prob (c : reply K) (m : Z) : K :=
    sum (combine (fst c) (snd c)) (fun ip => if fst ip =? m then snd ip else 0%r).
  (** [M] is the largest outcome of a reply *)
  Definition largest (c : reply K) (M : Z) : Prop := In M (fst c) /\ forall m, In m (fst c) -> m <= M.
  (** some reply lists m *)
  Definition listed (cs : list (reply K)) (m : Z) : Prop := exists c, In c cs /\ In m (fst c).
  (** [mn] is the smallest probability of a reply *)
  Definition is_min (c : reply K) (mn : K) : Prop := In mn (snd c) /\ forall p, In p (snd c) -> rle mn p.
  (** the error bound reported for outcome m: the sum of the smallest reported probability of each worker not listing it *)
  Definition err_of (m : Z) (cm : reply K * K) : K := if existsb (Z.eqb m) (fst (fst cm)) then 0%r else snd cm.
End TopSpec.
