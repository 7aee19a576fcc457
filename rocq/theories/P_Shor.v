(** Property C52: the continued fractions of examples/shors.py. *)
From Verif Require Import Base M_Shor S_Shor L_Shor.

(** for numbers below 2^53 the yields are the values of the prefixes of the continued fraction of c/q ... *)
Theorem C52_convergents_partial : forall fuel c q, 0 < c < 2 ^ 53 -> 0 < q < 2 ^ 53 -> (Z.to_nat (c + 2 * q) <= fuel)%nat ->
  exists l fs, cf_of c q l /\ gen_continued_fractions fuel c q = Ok fs /\ fs = map (fun i => cf_value (firstn (S i) l)) (seq 0 (length l)).
Proof. exact fractions_ok. Qed.
Print Assumptions C52_convergents_partial.
(** ... and the last one is c/q *)
Theorem C52_last_partial : forall fuel c q, 0 < c < 2 ^ 53 -> 0 < q < 2 ^ 53 -> (Z.to_nat (c + 2 * q) <= fuel)%nat ->
  exists fs d r, gen_continued_fractions fuel c q = Ok (fs ++ [(d, r)]) /\ d * q = r * c /\ 0 < r.
Proof. exact last_ok. Qed.
Print Assumptions C52_last_partial.
(** for all numbers: determinant identity, lowest terms *)
Theorem C52_reduced : forall fuel c q fs, gen_continued_fractions fuel c q = Ok fs ->
  (forall i d r d' r', nth_error fs i = Some (d, r) -> nth_error fs (S i) = Some (d', r') -> d' * r - d * r' = (-1) ^ Z.of_nat i) /\
  (forall d r, In (d, r) fs -> Z.gcd d r = 1).
Proof. exact det_ok. Qed.
Print Assumptions C52_reduced.
Example C52_ex : gen_continued_fractions 60 11 21 = Ok [(0, 1); (1, 1); (1, 2); (11, 21)] /\
  gen_continued_fractions 600 85 512 = Ok [(0, 1); (1, 6); (42, 253); (85, 512)].
Proof. split; reflexivity. Qed.
(** c/q is computed in floating point: from 2^54 on the last fraction can differ from c/q *)
Theorem C52_large_refuted : forall fuel, (1 <= fuel)%nat -> gen_continued_fractions fuel (2 ^ 54 - 1) (2 ^ 54) = Ok [(1, 1)].
Proof. intros [|[|fuel]] H; [exfalso; apply (Nat.nle_succ_0 0); exact H| |]; reflexivity. Qed.
Print Assumptions C52_large_refuted.
