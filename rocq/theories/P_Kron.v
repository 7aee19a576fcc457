(** Properties C01-C05: kronselect_dot and expand_kron_matrix. *)
From Verif Require Import Base S_Bits M_Bits M_Kron S_Kron L_Kron L_Kron2 L_Kron3.

(** ** Data for the examples: Gaussian-integer amplitudes *)
Definition ex_vec : list (Cx Z) := map (fun i => (i, i * i)) (zrange 0 8).
Definition ex_mat : mat Z := MNum 2 2 [(1, 0); (2, 1); (0, -1); (3, 0)].
Definition ex_mats : mats_arg Z :=
  [(KTuple [2; 0], MC ex_mat); (KTuple [1; 0], MNum 4 4 (map (fun i => (i mod 3, i mod 2)) (zrange 0 16)))].
Definition ex_out : list (Cx Z) := map (fun _ => (0, 0)) (zrange 0 8).
Definition ex_sched : list Z := [3; 0; 7; 1; 6; 2; 5; 4].
Lemma ex_mats_wf : mats_wf 3 ex_mats.
Proof.
  split; [split|].
  - cbn. intros k m [E|[E|[]]]; inversion E; discriminate.
  - cbn. repeat constructor; cbn; intuition discriminate.
  - intros k m [E|[E|[]]]; inversion E; subst; cbn; split; intuition; subst; lia.
Qed.
Lemma ex_sched_perm : Permutation ex_sched (zrange 0 (zlen ex_out)).
Proof. apply perm_range_ok. reflexivity. Qed.

(** C01: whenever kronselect_dot returns, for either implementation and every schedule of the parallel
    loop, the output is the specified operator applied to the input, row by row. *)
Theorem C01_kron_action : forall {K} {OK : OrdRing K} (mats : mats_arg K) (vec : list (Cx K)) n out ioff ooff i R,
  0 <= n -> 0 <= ioff -> 0 <= ooff -> mats_wf n mats -> impl_sched_ok i (zlen out) ->
  kronselect_dot mats vec n out ioff ooff i = Ok R ->
  R = kron_result n mats vec ioff ooff (zlen out).
Proof. exact @kron_partial_correct. Qed.
Print Assumptions C01_kron_action.
Example C01_kron_action_ex :
  mats_wf 3 ex_mats /\ Permutation ex_sched (zrange 0 (zlen ex_out)) /\
  kronselect_dot ex_mats ex_vec 3 ex_out 0 0 (Cython ex_sched)
  = Ok [(4, 8); (-169, 23); (2, 4); (-225, 171); (-38, 78); (-170, 332); (-48, 26); (-189, 105)].
Proof. split; [exact ex_mats_wf|split; [exact ex_sched_perm|]]. vm_compute. reflexivity. Qed.

(** C02: if the Cython implementation returns, the Python one returns the same array. *)
Theorem C02_cython_refines_python : forall {K} {OK : OrdRing K} (mats : mats_arg K) (vec : list (Cx K)) n out ioff ooff sched R,
  0 <= n -> 0 <= ioff -> 0 <= ooff -> mats_wf n mats -> Permutation sched (zrange 0 (zlen out)) ->
  kronselect_dot mats vec n out ioff ooff (Cython sched) = Ok R ->
  kronselect_dot mats vec n out ioff ooff Python = Ok R.
Proof. exact @kron_agree. Qed.
Print Assumptions C02_cython_refines_python.
(** They agree on every dictionary whose groups all have the same length (what every op builds). *)
Theorem C02_agree_partial : forall {K} {OK : OrdRing K} (mats : mats_arg K) (vec : list (Cx K)) n out ioff ooff sched,
  0 <= n -> 0 <= ioff -> 0 <= ooff -> mats_wf n mats -> Permutation sched (zrange 0 (zlen out)) ->
  rectangular (map fst (mats_groups mats)) = true ->
  forall R, kronselect_dot mats vec n out ioff ooff (Cython sched) = Ok R <->
            kronselect_dot mats vec n out ioff ooff Python = Ok R.
Proof. exact @kron_agree_rect. Qed.
Print Assumptions C02_agree_partial.
Example C02_agree_ex : rectangular (map fst (mats_groups ex_mats)) = true /\
  kronselect_dot ex_mats ex_vec 3 ex_out 0 0 (Cython ex_sched) = kronselect_dot ex_mats ex_vec 3 ex_out 0 0 Python.
Proof. split; vm_compute; reflexivity. Qed.
(** The full claim is false: groups of different lengths in one dictionary. *)
Theorem C02_agree_refuted : exists (mats : mats_arg Z) vec n out sched R,
  mats_wf n mats /\ Permutation sched (zrange 0 (zlen out)) /\
  kronselect_dot mats vec n out 0 0 Python = Ok R /\
  kronselect_dot mats vec n out 0 0 (Cython sched) = Raise ValueError.
Proof.
  exists [(KInt 0, ex_mat); (KTuple [1; 2], MSwap 1)], ex_vec, 3, ex_out, ex_sched.
  eexists. split; [|split; [exact ex_sched_perm|split; vm_compute; reflexivity]].
  split; [split|].
  - cbn. intros k m [E|[E|[]]]; inversion E; discriminate.
  - cbn. repeat constructor; cbn; intuition discriminate.
  - intros k m [E|[E|[]]]; inversion E; subst; cbn; split; intuition; subst; lia.
Qed.
Print Assumptions C02_agree_refuted.

(** C03: output slices are slices of the full result ... *)
Theorem C03_output_slice : forall {K} {OK : OrdRing K} (mats : mats_arg K) (vec : list (Cx K)) n full out ioff ooff i i' F,
  0 <= n -> 0 <= ioff -> 0 <= ooff -> mats_wf n mats ->
  impl_sched_ok i (zlen full) -> impl_ok i' (map fst (mats_groups mats)) (zlen out) ->
  zlen full = 2 ^ n -> zlen out + ooff <= 2 ^ n ->
  kronselect_dot mats vec n full ioff 0 i = Ok F ->
  kronselect_dot mats vec n out ioff ooff i' = Ok (pyslice F ooff (ooff + zlen out)).
Proof. exact @slice_out. Qed.
Print Assumptions C03_output_slice.
Example C03_output_slice_ex :
  kronselect_dot ex_mats ex_vec 3 (map (fun _ => (7, 7)) (zrange 0 3)) 0 4 (Cython [2; 0; 1])
  = Ok [(-38, 78); (-170, 332); (-48, 26)].
Proof. vm_compute. reflexivity. Qed.
(** ... and the results of input slices that partition the input add up to the full result. *)
Theorem C03_input_slices : forall {K} {OK : OrdRing K} (mats : mats_arg K) (vs : list (list (Cx K))) n out ioff ooff i,
  0 <= n -> 0 <= ioff -> 0 <= ooff -> mats_wf n mats ->
  impl_ok i (map fst (mats_groups mats)) (zlen out) ->
  forall W, kronselect_dot mats (concat vs) n out ioff ooff i = Ok W ->
  exists Rs,
    Forall2 (fun ov R => kronselect_dot mats (snd ov) n out (fst ov) ooff i = Ok R) (pieces ioff vs) Rs /\
    forall r, 0 <= r < zlen out -> znth 0%r W r = sum Rs (fun R => znth 0%r R r).
Proof. exact @slice_in. Qed.
Print Assumptions C03_input_slices.
Example C03_input_slices_ex :
  pieces 0 [firstn 3 ex_vec; skipn 3 ex_vec] = [(0, firstn 3 ex_vec); (3, skipn 3 ex_vec)] /\
  kronselect_dot ex_mats (firstn 3 ex_vec) 3 ex_out 0 0 Python
  = Ok [(4, 8); (0, 0); (2, 4); (2, 2); (0, 0); (1, -1); (0, 0); (0, 0)] /\
  kronselect_dot ex_mats (skipn 3 ex_vec) 3 ex_out 3 0 Python
  = Ok [(0, 0); (-169, 23); (0, 0); (-227, 169); (-38, 78); (-171, 333); (-48, 26); (-189, 105)].
Proof. repeat split; vm_compute; reflexivity. Qed.

(** C04: the Python implementation returns exactly for the calls that fit *)
Theorem C04_accept_python : forall {K} {OK : OrdRing K} (mats : mats_arg K) (vec : list (Cx K)) n out ioff ooff,
  0 <= n -> 0 <= ioff -> 0 <= ooff -> mats_wf n mats ->
  (exists R, kronselect_dot mats vec n out ioff ooff Python = Ok R) <-> accepted mats vec n out ioff ooff.
Proof. exact @kron_accept_py. Qed.
Print Assumptions C04_accept_python.
(** the Cython implementation additionally needs a non-empty dictionary of equally long groups *)
Theorem C04_accept_cython_partial : forall {K} {OK : OrdRing K} (mats : mats_arg K) (vec : list (Cx K)) n out ioff ooff sched,
  0 <= n -> 0 <= ioff -> 0 <= ooff -> mats_wf n mats -> Permutation sched (zrange 0 (zlen out)) ->
  (exists R, kronselect_dot mats vec n out ioff ooff (Cython sched) = Ok R) <->
  accepted mats vec n out ioff ooff /\ rectangular (map fst (mats_groups mats)) = true.
Proof. exact @kron_accept_c. Qed.
Print Assumptions C04_accept_cython_partial.
(** rejected calls raise one of the two documented exceptions; memory outside the arrays is never touched *)
Theorem C04_exceptions : forall {K} {OK : OrdRing K} (mats : mats_arg K) (vec : list (Cx K)) n out ioff ooff i e,
  0 <= n -> 0 <= ioff -> 0 <= ooff -> mats_wf n mats -> impl_sched_ok i (zlen out) ->
  kronselect_dot mats vec n out ioff ooff i = Raise e -> e = ValueError \/ e = GenericException.
Proof. exact @kron_exn. Qed.
Print Assumptions C04_exceptions.
Example C04_accepted_ex : accepted ex_mats ex_vec 3 ex_out 0 0.
Proof.
  split; [|split]; try (vm_compute; congruence).
  intros km [<-|[<-|[]]]; reflexivity.
Qed.
Example C04_rejected_ex :
  kronselect_dot ex_mats ex_vec 3 ex_out 1 0 Python = Raise ValueError /\
  kronselect_dot [(KTuple [0;1], ex_mat)] ex_vec 3 ex_out 0 0 Python = Raise GenericException.
Proof. split; vm_compute; reflexivity. Qed.
(** the full claim ("otherwise it completes") is false for the Cython implementation: empty dictionary *)
Theorem C04_accept_refuted : exists (mats : mats_arg Z) vec n out sched,
  mats_wf n mats /\ accepted mats vec n out 0 0 /\ Permutation sched (zrange 0 (zlen out)) /\
  kronselect_dot mats vec n out 0 0 (Cython sched) = Raise ValueError.
Proof.
  exists [], ex_vec, 3, ex_out, ex_sched. split; [|split; [|split; [exact ex_sched_perm|reflexivity]]].
  - split; [split|].
    + intros ? ? [].
    + constructor.
    + intros ? ? [].
  - split; [|split]; try (vm_compute; congruence). intros ? [].
Qed.
Print Assumptions C04_accept_refuted.

(** C05: expand_kron_matrix returns the transposed matrix of the operation *)
Theorem C05_expand_partial : forall {K} {OK : OrdRing K} (mats : mats_arg K) n M (v out : list (Cx K)) W,
  0 <= n -> mats_wf n mats -> dense_keys mats -> zlen v = 2 ^ n -> zlen out = 2 ^ n ->
  expand_kron_matrix mats n = Ok M -> kronselect_dot mats v n out 0 0 Python = Ok W ->
  W = matvec (transpose M (2 ^ n)) v.
Proof. exact @expand_transpose. Qed.
Print Assumptions C05_expand_partial.
Example C05_expand_ex :
  expand_kron_matrix [(KInt 0, ex_mat)] 1 = Ok [[(1,0); (0,-1)]; [(2,1); (3,0)]].
Proof. vm_compute. reflexivity. Qed.
(** the claim itself is false, e.g. for the Y gate *)
Theorem C05_expand_refuted : exists (mats : mats_arg Z) n M v out W,
  mats_wf n mats /\ dense_keys mats /\ zlen v = 2 ^ n /\ zlen out = 2 ^ n /\
  expand_kron_matrix mats n = Ok M /\ kronselect_dot mats v n out 0 0 Python = Ok W /\ W <> matvec M v.
Proof.
  exists [(KInt 0, MNum 2 2 [(0,0); (0,-1); (0,1); (0,0)])], 1. eexists.
  exists [(1,0); (0,0)], [(0,0); (0,0)]. eexists.
  split; [|split; [|repeat split; try (vm_compute; reflexivity); vm_compute; congruence]].
  - split; [split|].
    + intros k m [E|[]]; inversion E; discriminate.
    + cbn. repeat constructor; cbn; tauto.
    + intros k m [E|[]]; inversion E; subst; cbn; split; intuition; subst; lia.
  - intros k m [E|[]]; inversion E; exact I.
Qed.
Print Assumptions C05_expand_refuted.
