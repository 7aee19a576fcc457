(** Properties C18-C26 and C54: measurements. *)
From Coq Require Import Permutation Sorted Reals.
From Verif Require Import Base BaseR S_Bits M_Feed M_Measure S_Measure L_Measure1 L_Measure2 L_Measure3 L_Measure4 L_Measure5 L_Measure6.
Local Open Scope Z_scope.

(** example: 3 qubits, |000> + |101>, not normalised (amplitudes are integers) *)
Definition exm : backend Z :=
  mkBackend 3 [(1, 0); (0, 0); (0, 0); (0, 0); (0, 0); (0, 1); (0, 0); (0, 0)] (map (fun j => (j, 7)) (zrange 0 8)).
Lemma exm_ok : full_backend exm.
Proof. repeat split; discriminate. Qed.
Lemma exm_idx : qubits_ok 3 [2; 0].
Proof. split; [repeat constructor; cbn; intuition discriminate|]. cbn. intros q [<-|[<-|[]]]; lia. Qed.
Lemma exm_idx1 : qubits_ok 3 [0].
Proof. split; [repeat constructor; cbn; intuition discriminate|]. cbn. intros q [<-|[]]; lia. Qed.
(** |0>|1> on two qubits *)
Definition exm01 : backend Z := mkBackend 2 [(0, 0); (1, 0); (0, 0); (0, 0)] [(9, 9); (9, 9); (9, 9); (9, 9)].
Lemma exm01_ok : full_backend exm01.
Proof. repeat split; discriminate. Qed.

(** C18 *)
Theorem C18_marginal : forall {K} {OK : OrdRing K} (b : backend K) indices,
  full_backend b -> qubits_ok (bk_n b) indices ->
  bk_measure_probabilities b indices 0
  = Ok (inl (map (marginal (bk_n b) (rev indices) (amp_at 0 (bk_state b))) (zrange 0 (2 ^ zlen indices)))).
Proof. exact @probs_ok. Qed.
Print Assumptions C18_marginal.
Theorem C18_distribution : forall {K} {OK : OrdRing K} (b : backend K) indices ps,
  full_backend b -> qubits_ok (bk_n b) indices ->
  bk_measure_probabilities b indices 0 = Ok (inl ps) ->
  (forall p, In p ps -> rle 0%r p) /\ sum ps (fun p => p) = tprob (bk_state b).
Proof. exact @probs_dist. Qed.
Print Assumptions C18_distribution.
Example C18_ex : full_backend exm /\ qubits_ok (bk_n exm) [2; 0] /\
  bk_measure_probabilities exm [2; 0] 0 = Ok (inl [1; 0; 0; 1]) /\
  bk_measure_probabilities exm01 [0; 1] 0 = Ok (inl [0; 0; 1; 0]).
Proof. split; [exact exm_ok|]. split; [exact exm_idx|]. split; reflexivity. Qed.

(** C19: false in general; the two numberings are related by a permutation of the bits and agree when the
    indices are listed in decreasing order *)
Theorem C19_numbering_refuted : exists (b : backend Z) indices ps,
  full_backend b /\ qubits_ok (bk_n b) indices /\ draw_ok 1 (tprob (bk_state b)) /\
  bk_measure_probabilities b indices 0 = Ok (inl ps) /\
  bk_soft_measure 1 0 b indices None 0 = Ok (1, 1) /\ znth 0 ps 1 = 0.
Proof.
  exists exm01, [0; 1], [0; 0; 1; 0]. split; [exact exm01_ok|]. split; [|repeat split; reflexivity].
  split; [repeat constructor; cbn; intuition discriminate|]. cbn. intros q [<-|[<-|[]]]; lia.
Qed.
Print Assumptions C19_numbering_refuted.
Theorem C19_renumbered : forall {K} {OK : OrdRing K} (b : backend K) indices ps x,
  full_backend b -> qubits_ok (bk_n b) indices ->
  bk_measure_probabilities b indices 0 = Ok (inl ps) ->
  znth 0%r ps (reg (bk_n b) (rev indices) x)
  = outcome b indices (reg (bk_n b) (measured_order (bk_n b) indices) x).
Proof. exact @renumbered. Qed.
Print Assumptions C19_renumbered.
Theorem C19_decreasing_partial : forall {K} {OK : OrdRing K} (b : backend K) indices,
  full_backend b -> qubits_ok (bk_n b) indices -> StronglySorted Z.lt (rev indices) ->
  bk_measure_probabilities b indices 0 = Ok (inl (map (outcome b indices) (zrange 0 (2 ^ zlen indices)))).
Proof. exact @decreasing_same. Qed.
Print Assumptions C19_decreasing_partial.
Example C19_ex : full_backend exm /\ qubits_ok (bk_n exm) [2; 0] /\ StronglySorted Z.lt (rev [2; 0]).
Proof. split; [exact exm_ok|]. split; [exact exm_idx|]. repeat constructor; lia. Qed.

(** C20, with the accumulator of the total probability starting at 0 (the code leaves it uninitialised) *)
Theorem C20_born_partial : forall {K} {OK : OrdRing K} n indices off (vec : list (Cx K)) rand m p,
  0 <= n -> qubits_ok n indices -> slice_ok n off vec -> draw_ok rand (tprob vec) ->
  (soft_measure rand 0%r indices n vec None off = Ok (m, p) <->
   0 <= m < 2 ^ zlen indices /\
   p = marginal n (measured_order n indices) (amp_at off vec) m /\
   rlt (below n (measured_order n indices) (amp_at off vec) m) (rand * tprob vec)%r /\
   rle (rand * tprob vec)%r (below n (measured_order n indices) (amp_at off vec) (m + 1))).
Proof. exact @soft_born. Qed.
Print Assumptions C20_born_partial.
Theorem C20_exists_partial : forall {K} {OK : OrdRing K} n indices off (vec : list (Cx K)) rand,
  0 <= n -> qubits_ok n indices -> slice_ok n off vec -> draw_ok rand (tprob vec) ->
  exists m p, soft_measure rand 0%r indices n vec None off = Ok (m, p) /\ rlt 0%r p.
Proof. exact @soft_exists. Qed.
Print Assumptions C20_exists_partial.
Theorem C20_draws : forall {K} {OK : OrdRing K} (rand total : K),
  rle 0%r total -> rlt 0%r (rand * total)%r -> rle rand 1%r -> draw_ok rand total.
Proof. exact @draw_ok_intro. Qed.
Print Assumptions C20_draws.
Theorem C20_uninitialised_refuted : exists (b : backend Z) indices rand acc0,
  full_backend b /\ qubits_ok (bk_n b) indices /\ draw_ok rand (tprob (bk_state b)) /\
  bk_soft_measure rand 0 b indices None 0 = Ok (1, 1) /\
  bk_soft_measure rand acc0 b indices None 0 = Ok (0, 1).
Proof.
  exists exm, [0], 1, (-1). split; [exact exm_ok|]. split; [exact exm_idx1|]. repeat split; reflexivity.
Qed.
Print Assumptions C20_uninitialised_refuted.
Example C20_ex : qubits_ok 3 [2; 0] /\ slice_ok 3 4 [(0, 0); (0, 2); (1, 0)] /\
  draw_ok 1 (tprob [(0, 0); (0, 2); (1, 0)]) /\
  soft_measure 1 0 [2; 0] 3 [(0, 0); (0, 2); (1, 0)] None 4 = Ok (3, 4) /\
  soft_measure 1 0 [1] 3 [(0, 0); (0, 2); (1, 0)] None 4 = Ok (1, 1).
Proof. split; [exact exm_idx|]. repeat split; try reflexivity; discriminate. Qed.

(** C21 *)
Theorem C21_collapse : forall {K} {OK : OrdRing K} rsqrt rand acc0 (b b' : backend K) indices measured m p,
  full_backend b -> qubits_ok (bk_n b) indices ->
  bk_measure rsqrt rand acc0 b indices measured None 0 0 = Ok ((m, p), b') ->
  0 <= m < 2 ^ zlen indices /\ (forall m', measured = Some m' -> m = m') /\
  p = outcome b indices m /\ p <> 0%r /\ full_backend b' /\ bk_n b' = bk_n b /\
  bk_state b' = map (collapsed (bk_n b) indices m (rsqrt p) (amp_at 0 (bk_state b))) (zrange 0 (2 ^ bk_n b)).
Proof. exact @measure_inv. Qed.
Print Assumptions C21_collapse.
Theorem C21_normalised : forall {K} {OK : OrdRing K} rsqrt rand acc0 (b b' : backend K) indices measured m p,
  full_backend b -> qubits_ok (bk_n b) indices ->
  bk_measure rsqrt rand acc0 b indices measured None 0 0 = Ok ((m, p), b') ->
  (rsqrt p * rsqrt p * p = 1)%r ->
  tprob (bk_state b') = 1%r /\
  (forall rand', rlt 0%r rand' -> rle rand' 1%r -> bk_soft_measure rand' 0%r b' indices None 0 = Ok (m, 1%r)).
Proof. exact @measure_normalised. Qed.
Print Assumptions C21_normalised.
Theorem C21_succeeds : forall {K} {OK : OrdRing K} rsqrt rand (b : backend K) indices,
  full_backend b -> qubits_ok (bk_n b) indices -> draw_ok rand (tprob (bk_state b)) ->
  exists m p b', bk_soft_measure rand 0%r b indices None 0 = Ok (m, p) /\
    bk_measure rsqrt rand 0%r b indices None None 0 0 = Ok ((m, p), b') /\ rlt 0%r p.
Proof. exact @measure_total. Qed.
Print Assumptions C21_succeeds.
(** over the reals 1/sqrt p meets the hypothesis of C21_normalised for every positive p *)
Theorem C21_real_scale : forall p : R, rlt 0%r p -> (Rinv (sqrt p) * Rinv (sqrt p) * p = 1)%r.
Proof. exact rsqrt_R. Qed.
Print Assumptions C21_real_scale.
Example C21_ex : full_backend exm /\ qubits_ok (bk_n exm) [0] /\ draw_ok 1 (tprob (bk_state exm)) /\
  bk_measure (fun _ => 1) 1 0 exm [0] None None 0 0
  = Ok ((1, 1), mkBackend 3 [(0, 0); (0, 0); (0, 0); (0, 0); (0, 0); (0, 1); (0, 0); (0, 0)] (bk_state exm)).
Proof. split; [exact exm_ok|]. split; [exact exm_idx1|]. repeat split; reflexivity. Qed.

(** C22: false for the draw 0.0 *)
Theorem C22_zero_draw_refuted : forall {K} {OK : OrdRing K} (b : backend K) indices acc0 rsqrt,
  full_backend b -> qubits_ok (bk_n b) indices -> outcome b indices 0 = 0%r ->
  bk_soft_measure 0%r acc0 b indices None 0 = Ok (0, 0%r) /\
  bk_measure rsqrt 0%r acc0 b indices None None 0 0 = Raise ZeroDivisionError.
Proof. exact @draw_zero. Qed.
Print Assumptions C22_zero_draw_refuted.
Example C22_ex : full_backend exm01 /\ qubits_ok (bk_n exm01) [1] /\ outcome exm01 [1] 0 = 0 /\ tprob (bk_state exm01) = 1.
Proof.
  split; [exact exm01_ok|]. split; [|split; reflexivity].
  split; [repeat constructor; cbn; intuition discriminate|]. cbn. intros q [<-|[]]; lia.
Qed.
Theorem C22_possible_partial : forall {K} {OK : OrdRing K} (b : backend K) rand indices,
  full_backend b -> qubits_ok (bk_n b) indices -> draw_ok rand (tprob (bk_state b)) ->
  (exists m p, bk_soft_measure rand 0%r b indices None 0 = Ok (m, p) /\ rlt 0%r p) /\
  (forall rsqrt, exists m p b', bk_measure rsqrt rand 0%r b indices None None 0 0 = Ok ((m, p), b') /\ rlt 0%r p) /\
  (forall rsqrt, exists m p b', bk_reduce_measure rsqrt rand 0%r b indices None None 0 0 = Ok ((m, p), b') /\ rlt 0%r p).
Proof. exact @soft_positive. Qed.
Print Assumptions C22_possible_partial.
Example C22_possible_ex : full_backend exm /\ qubits_ok (bk_n exm) [0] /\ draw_ok 1 (tprob (bk_state exm)).
Proof. split; [exact exm_ok|]. split; [exact exm_idx1|]. repeat split; reflexivity. Qed.

(** C23 *)
Theorem C23_rejected : forall {K} {OK : OrdRing K} rsqrt rand acc0 (b : backend K) indices measured measured_prob,
  full_backend b -> qubits_ok (bk_n b) indices ->
  (bk_measure rsqrt rand acc0 b indices measured measured_prob 0 0 = Raise ValueError
   <-> bad_arguments indices measured measured_prob) /\
  (bk_reduce_measure rsqrt rand acc0 b indices measured measured_prob 0 0 = Raise ValueError
   <-> bad_arguments indices measured measured_prob).
Proof. exact @forced_checked. Qed.
Print Assumptions C23_rejected.
Theorem C23_used : forall {K} {OK : OrdRing K} rsqrt rand acc0 (b : backend K) indices m p,
  full_backend b -> qubits_ok (bk_n b) indices -> 0 <= m < 2 ^ zlen indices -> rlt 0%r p -> rle p 1%r ->
  bk_measure rsqrt rand acc0 b indices (Some m) (Some p) 0 0
  = Ok ((m, p), mkBackend (bk_n b) (map (collapsed (bk_n b) indices m (rsqrt p) (amp_at 0 (bk_state b)))
                                       (zrange 0 (2 ^ bk_n b))) (bk_state b)).
Proof. exact @forced_used. Qed.
Print Assumptions C23_used.
Example C23_ex :
  bk_measure (fun _ => 1) 1 0 exm [2; 0] (Some 4) None 0 0 = Raise ValueError /\
  bk_measure (fun _ => 1) 1 0 exm [2; 0] (Some 3) (Some 0) 0 0 = Raise ValueError /\
  bk_measure (fun _ => 1) 1 0 exm [2; 0] (Some 3) (Some 2) 0 0 = Raise ValueError /\
  exists b, bk_measure (fun _ => 1) 1 0 exm [2; 0] (Some 3) (Some 1) 0 0 = Ok ((3, 1), b).
Proof. repeat split; try reflexivity. eexists. reflexivity. Qed.

(** C24: proved for the full input vector and any slice of the output; reads run out of an input slice *)
Theorem C24_reduce_partial : forall {K} {OK : OrdRing K} rsqrt rand acc0 n indices oo (vec out out' : list (Cx K)) measured m p,
  0 <= n -> qubits_ok n indices -> zlen vec = 2 ^ n -> 0 <= oo ->
  reduce_measure rsqrt rand acc0 indices n vec out 0 oo measured None = Ok ((m, p), out') ->
  p = marginal n (measured_order n indices) (amp_at 0 vec) m /\ zlen out' = zlen out /\
  forall x i, 0 <= x < 2 ^ n -> 0 <= i < zlen out ->
    reg n (measured_order n indices) x = m ->
    reg n (unmeasured_order n indices) x = (i + oo) mod 2 ^ (n - zlen indices) ->
    znth 0%r out' i = (znth 0%r vec x * creal (rsqrt p))%r.
Proof. exact @reduce_slice. Qed.
Print Assumptions C24_reduce_partial.
Theorem C24_succeeds : forall {K} {OK : OrdRing K} rsqrt rand (b : backend K) indices,
  full_backend b -> qubits_ok (bk_n b) indices -> draw_ok rand (tprob (bk_state b)) ->
  exists m p b', bk_soft_measure rand 0%r b indices None 0 = Ok (m, p) /\
    bk_reduce_measure rsqrt rand 0%r b indices None None 0 0 = Ok ((m, p), b').
Proof. exact @reduce_total. Qed.
Print Assumptions C24_succeeds.
Example C24_ex : qubits_ok 3 [0] /\
  reduce_measure (fun _ => 1) 1 0 [0] 3 (bk_state exm) [(5, 5); (5, 5); (5, 5)] 0 1 None None
  = Ok ((1, 1), [(0, 1); (0, 0); (0, 0)]).
Proof. split; [exact exm_idx1|reflexivity]. Qed.
Theorem C24_slice_refuted : exists (vec out : list (Cx Z)),
  slice_ok 2 0 vec /\ slice_ok 2 0 out /\ qubits_ok 2 [0] /\
  reduce_measure (fun _ => 1) 1 0 [0] 2 vec out 0 0 (Some 1) (Some 1) = Raise OOB.
Proof.
  exists [(1, 0); (0, 0)], [(0, 0); (0, 0)]. repeat split; try discriminate; try reflexivity.
  - repeat constructor; cbn; intuition discriminate.
  - destruct H as [<-|[]]; lia.
  - destruct H as [<-|[]]; lia.
Qed.
Print Assumptions C24_slice_refuted.

(** C25: with 1 <= top_k < 2^k the loop runs past the heap *)
Theorem C25_out_of_bounds_refuted : forall {K} {OK : OrdRing K} (b : backend K) indices top_k,
  full_backend b -> qubits_ok (bk_n b) indices -> 1 <= top_k < 2 ^ zlen indices ->
  bk_measure_probabilities b indices top_k = Raise OOB.
Proof. exact @top_some_bk. Qed.
Print Assumptions C25_out_of_bounds_refuted.
Theorem C25_top_partial : forall {K} {OK : OrdRing K} (b : backend K) indices top_k,
  full_backend b -> qubits_ok (bk_n b) indices -> 2 ^ zlen indices <= top_k ->
  exists l, bk_measure_probabilities b indices top_k = Ok (inr (map fst l, map snd l)) /\
    Permutation l (map (fun m => (m, outcome b indices m)) (zrange 0 (2 ^ zlen indices))) /\ decreasing (map snd l).
Proof. exact @top_all_bk. Qed.
Print Assumptions C25_top_partial.
Example C25_ex : full_backend exm /\ qubits_ok (bk_n exm) [2; 0] /\
  bk_measure_probabilities exm [2; 0] 2 = Raise OOB /\
  bk_measure_probabilities exm [2; 0] 9 = Ok (inr ([0; 3; 2; 1], [1; 1; 0; 0])).
Proof. split; [exact exm_ok|]. split; [exact exm_idx|]. split; reflexivity. Qed.

(** C26: the accumulator is not initialised *)
Theorem C26_total_partial : forall {K} {OK : OrdRing K} (b : backend K), bk_total_prob 0%r b = tprob (bk_state b).
Proof. exact @total_0. Qed.
Print Assumptions C26_total_partial.
Theorem C26_uninitialised_refuted : forall {K} {OK : OrdRing K} acc0 (b : backend K),
  acc0 <> 0%r -> bk_total_prob acc0 b <> tprob (bk_state b).
Proof. exact @total_wrong. Qed.
Print Assumptions C26_uninitialised_refuted.
Example C26_ex : bk_total_prob 0 exm = 2 /\ bk_total_prob 5 exm = 7.
Proof. split; reflexivity. Qed.

(** C54: the result of reduce_measure is stored 2^k times and the backend still claims n qubits *)
Theorem C54_repeated_refuted : forall {K} {OK : OrdRing K} rsqrt rand acc0 (b b' : backend K) indices measured m p,
  full_backend b -> qubits_ok (bk_n b) indices ->
  bk_reduce_measure rsqrt rand acc0 b indices measured None 0 0 = Ok ((m, p), b') ->
  (rsqrt p * rsqrt p * p = 1)%r ->
  tprob (bk_state b') = sum (zrange 0 (2 ^ zlen indices)) (fun _ => 1%r) /\
  sum (zrange 0 (2 ^ (bk_n b - zlen indices))) (fun i => cnorm2 (amp_at 0 (bk_state b') i)) = 1%r.
Proof. exact @reduce_norm. Qed.
Print Assumptions C54_repeated_refuted.
Theorem C54_state_partial : forall {K} {OK : OrdRing K} rsqrt rand acc0 (b b' : backend K) indices measured m p,
  full_backend b -> qubits_ok (bk_n b) indices ->
  bk_reduce_measure rsqrt rand acc0 b indices measured None 0 0 = Ok ((m, p), b') ->
  0 <= m < 2 ^ zlen indices /\ p = outcome b indices m /\ p <> 0%r /\ full_backend b' /\ bk_n b' = bk_n b /\
  forall x i, 0 <= x < 2 ^ bk_n b -> 0 <= i < 2 ^ bk_n b ->
    reg (bk_n b) (measured_order (bk_n b) indices) x = m ->
    reg (bk_n b) (unmeasured_order (bk_n b) indices) x = i mod 2 ^ (bk_n b - zlen indices) ->
    amp_at 0 (bk_state b') i = (amp_at 0 (bk_state b) x * creal (rsqrt p))%r.
Proof. exact @reduce_inv. Qed.
Print Assumptions C54_state_partial.
Example C54_ex : full_backend exm /\ qubits_ok (bk_n exm) [0] /\
  bk_reduce_measure (fun _ => 1) 1 0 exm [0] None None 0 0
  = Ok ((1, 1), mkBackend 3 [(0, 0); (0, 1); (0, 0); (0, 0); (0, 0); (0, 1); (0, 0); (0, 0)] (bk_state exm)).
Proof. split; [exact exm_ok|]. split; [exact exm_idx1|reflexivity]. Qed.
