(** Properties C15-C17, C55: the initial state. *)
From Verif Require Import Base S_Bits M_Bits M_Feed S_Feed L_Feed L_Feed2.

(** ** Data for the examples: 3 qubits, register (2,0) fed with 4 amplitudes, qubit 1 not fed *)
Definition exf : list (list Z * list (Cx Z)) := [([2; 0], [(1, 0); (0, 2); (3, 1); (0, 0)])].
Definition exf2 : list (list Z * list (Cx Z)) := exf ++ [([1], [(2, 0); (0, 5)])].
Definition exf_junk : Z -> Cx Z := fun i => (i, 7).
Lemma exf2_ok : feeds_ok 3 exf2.
Proof.
  split; [split; [cbn; repeat constructor; cbn; intuition discriminate|cbn; intros q Hq; intuition; subst; lia]|].
  intros g a [E|[E|[]]]; inversion E; reflexivity.
Qed.
Lemma exf_ok : feeds_ok 3 exf.
Proof.
  split; [split; [cbn; repeat constructor; cbn; intuition discriminate|cbn; intros q Hq; intuition; subst; lia]|].
  intros g a [E|[]]; inversion E; reflexivity.
Qed.

(** C15 *)
Theorem C15_product : forall {K} {OK : OrdRing K} junk n (fs : list (list Z * list (Cx K))),
  0 <= n -> fs <> [] -> feeds_ok n fs ->
  make_state junk n (fed_groups fs) (fed_list fs) None None None None
  = Ok (mkBackend n (map (fed_amp n fs) (zrange 0 (2 ^ n))) (map junk (zrange 0 (2 ^ n)))).
Proof. exact @make_state_fed_full. Qed.
Print Assumptions C15_product.
Example C15_ex : exf <> [] /\ feeds_ok 3 exf /\
  make_state exf_junk 3 (fed_groups exf) (fed_list exf) None None None None
  = Ok (mkBackend 3 [(1, 0); (3, 1); (0, 0); (0, 0); (0, 2); (0, 0); (0, 0); (0, 0)] (map exf_junk (zrange 0 8))).
Proof. split; [discriminate|]. split; [exact exf_ok|reflexivity]. Qed.
Theorem C15_nothing_fed : forall {K} {OK : OrdRing K} junk n, 0 <= n ->
  make_state junk n [] [] None None None None
  = Ok (mkBackend n (map (fun x => if x =? 0 then 1%r else 0%r) (zrange 0 (2 ^ n))) (map junk (zrange 0 (2 ^ n)))).
Proof. exact @make_state_empty_full. Qed.
Print Assumptions C15_nothing_fed.

(** C16: proved for a non-empty feed; for an empty feed it holds only of slices that start at 0 *)
Theorem C16_slice_partial : forall {K} {OK : OrdRing K} junk n (fs : list (list Z * list (Cx K))) s e,
  0 <= n -> fs <> [] -> feeds_ok n fs -> 0 <= s <= e -> e <= 2 ^ n ->
  exists full part,
    make_state junk n (fed_groups fs) (fed_list fs) None None None None = Ok full /\
    make_state junk n (fed_groups fs) (fed_list fs) (Some s) (Some e) None None = Ok part /\
    bk_state part = pyslice (bk_state full) s e.
Proof. exact @make_state_slice. Qed.
Print Assumptions C16_slice_partial.
Example C16_ex : feeds_ok 3 exf2 /\
  make_state exf_junk 3 (fed_groups exf2) (fed_list exf2) (Some 1) (Some 4) None None
  = Ok (mkBackend 3 [(6, 2); (0, 5); (-5, 15)] (map exf_junk (zrange 0 8))).
Proof. split; [exact exf2_ok|reflexivity]. Qed.
Theorem C16_empty_refuted : forall {K} {OK : OrdRing K} junk n s e,
  0 <= n -> 0 <= s < e -> e <= 2 ^ n -> exists full part,
    make_state junk n [] [] None None None None = Ok full /\
    make_state junk n [] [] (Some s) (Some e) None None = Ok part /\
    (bk_state part = pyslice (bk_state full) s e <-> s = 0).
Proof. exact @make_state_empty_slice. Qed.
Print Assumptions C16_empty_refuted.
Example C16_empty_ex :
  make_state exf_junk 2 [] [] (Some 2) (Some 4) None None = Ok (mkBackend 2 [(1, 0); (0, 0)] (map exf_junk (zrange 0 4))) /\
  make_state exf_junk 2 [] [] None None None None
  = Ok (mkBackend 2 [(1, 0); (0, 0); (0, 0); (0, 0)] (map exf_junk (zrange 0 4))).
Proof. split; reflexivity. Qed.

(** C17 *)
Theorem C17_total : forall {K} {OK : OrdRing K} junk n (fs : list (list Z * list (Cx K))),
  0 <= n -> fs <> [] -> feeds_ok n fs -> exists b,
  make_state junk n (fed_groups fs) (fed_list fs) None None None None = Ok b /\
  total (bk_state b) = prod fs (fun f => total (snd f)).
Proof. exact @make_state_total. Qed.
Print Assumptions C17_total.
Example C17_ex : feeds_ok 3 exf2 /\ prod exf2 (fun f => total (snd f)) = 15 * 29.
Proof. split; [exact exf2_ok|reflexivity]. Qed.

(** C55: an integer state for any group raises TypeError, whatever its value and whatever the other groups hold *)
Theorem C55_int_refuted : forall {K} {OK : OrdRing K} junk n (pre : list (list Z * list (Cx K))) g i gs fl,
  0 <= n -> qubits_ok n (concat (fed_groups pre ++ g :: gs)) -> (forall g a, In (g, a) pre -> zlen a = 2 ^ zlen g) ->
  make_state junk n (fed_groups pre ++ g :: gs) (fed_list pre ++ FInt i :: fl) None None None None = Raise TypeError.
Proof. exact @make_state_int. Qed.
Print Assumptions C55_int_refuted.
Example C55_ex : qubits_ok 3 (concat (fed_groups exf ++ [[1]])) /\
  make_state exf_junk 3 (fed_groups exf ++ [[1]]) (fed_list exf ++ [FInt 1]) None None None None = Raise TypeError.
Proof.
  split; [split; [cbn; repeat constructor; cbn; intuition discriminate|cbn; intros q Hq; intuition; subst; lia]|reflexivity].
Qed.
