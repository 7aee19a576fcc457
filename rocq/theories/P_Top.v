(** Property C50: combining the workers' top-k replies. *)
From Verif Require Import Base S_Measure M_Top S_Top L_Top.

(** when all replies have the same largest outcome: every listed outcome once, with the sum of the probabilities the
    replies give it and the error bound, largest probability first, cut to top_k *)
Theorem C50_sums_partial : forall {K} {OK : OrdRing K} M (cs : list (reply K)) top_k,
  cs <> [] -> (forall c, In c cs -> reply_ok c) -> (forall c, In c cs -> largest c M) ->
  exists mins l, Forall2 is_min cs mins /\
    combine_replies cs top_k = Ok (firstn (Z.to_nat top_k) (map (fun t => fst (fst t)) l), firstn (Z.to_nat top_k) (map (fun t => snd (fst t)) l), firstn (Z.to_nat top_k) (map snd l)) /\
    decreasing (map (fun t => snd (fst t)) l) /\ NoDup (map (fun t => fst (fst t)) l) /\
    forall m p e, In (m, p, e) l <-> listed cs m /\ p = sum cs (fun c => reply_prob c m) /\ e = sum (combine cs mins) (err_of m).
Proof. exact @combine_ok. Qed.
Print Assumptions C50_sums_partial.
Example C50_ex : let cs := [([5; 0; 2], [3; 9; 1]); ([2; 5], [4; 1])] in
  (forall c, In c cs -> reply_ok c) /\ (forall c, In c cs -> largest c 5) /\
  combine_replies cs 2 = Ok ([0; 2], [9; 5], [1; 0]) /\ combine_replies cs 9 = Ok ([0; 2; 5], [9; 5; 4], [1; 0; 0]).
Proof.
  split; [|split; [|split; reflexivity]].
  - intros c [<-|[<-|[]]]; (split; [repeat constructor; cbn; intuition discriminate|split; [reflexivity|discriminate]]).
  - intros c [<-|[<-|[]]]; (split; [cbn; auto|]; cbn; intros m H; intuition subst; discriminate).
Qed.
(** when two replies have different largest outcomes, IndexError *)
Theorem C50_refuted : forall {K} {OK : OrdRing K} (cs : list (reply K)) top_k c c' M M',
  (forall c, In c cs -> reply_ok c) -> In c cs -> In c' cs -> largest c M -> largest c' M' -> M <> M' ->
  combine_replies cs top_k = Raise IndexError.
Proof. exact @combine_fails. Qed.
Print Assumptions C50_refuted.
Example C50_refuted_ex : combine_replies [([5; 0; 2], [3; 9; 1]); ([0; 2], [4; 1])] 2 = Raise IndexError.
Proof. reflexivity. Qed.
