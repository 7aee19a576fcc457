(** Properties C42 and C51: worker allocation, and the pool after a reducing measurement. *)
From Verif Require Import Base M_Pool S_Pool L_Pool L_Pool2 L_Pool3.

(** ** C42 *)
(** when a pool is made: nobody is lost or drawn twice; the ranges tile the matrix; they are blocks of 2**b elements,
    b at most the capacity of each worker used and as large as the workers allow; every worker is told its ranges and
    all partners *)
Theorem C42_tiles : forall n workers pool msgs rest, make_pool n workers = Ok (pool, msgs, rest) ->
  Permutation (map en_worker pool ++ rest) workers /\ tiles (2 ^ n) pool /\
  (exists b, 0 <= b <= n /\ blocks (2 ^ b) pool /\ (forall e, In e pool -> b <= wk_n (en_worker e)) /\ forall c, suffice n c workers -> Z.min c n <= b) /\
  msgs = map (fun e => (en_worker e, mkSetup (en_in e) (en_out e) pool)) pool.
Proof. exact pool_ok. Qed.
Print Assumptions C42_tiles.
(** a pool is made whenever the workers suffice for some block size; otherwise an exception is raised *)
Theorem C42_made : forall n workers, 0 <= n <= 62 -> (forall w, In w workers -> 0 <= wk_n w) -> (exists c, suffice n c workers) ->
  exists pool msgs rest, make_pool n workers = Ok (pool, msgs, rest).
Proof. exact pool_exists. Qed.
Print Assumptions C42_made.
Theorem C42_fails_partial : forall n workers, ~ (exists c, suffice n c workers) ->
  make_pool n workers = Raise IndexError \/ make_pool n workers = Raise InsufficientResourcesExn.
Proof. exact pool_fails. Qed.
Print Assumptions C42_fails_partial.
(** the exception is not always InsufficientResources: with two or more equal workers that do not suffice it is IndexError *)
Theorem C42_exception_refuted : forall n c workers, (forall w, In w workers -> wk_n w = c) -> 2 <= zlen workers < 4 ^ Z.max (n - c) 0 ->
  draw_workers n workers = Raise IndexError.
Proof. exact draw_index_error. Qed.
Print Assumptions C42_exception_refuted.

Definition exp_ws : list worker := [mkWorker 1 2; mkWorker 2 2; mkWorker 3 1; mkWorker 4 2; mkWorker 5 2; mkWorker 6 1].
(** four workers with 2 qubits hold a 3-qubit matrix: four blocks of 4 x 4 *)
Example C42_ex : suffice 3 2 exp_ws /\ exists msgs rest a b c d, make_pool 3 exp_ws =
  Ok ([(0, 4, (0, 4), a); (0, 4, (4, 8), b); (4, 8, (0, 4), c); (4, 8, (4, 8), d)], msgs, rest) /\ map wk_n [a; b; c; d] = [2; 2; 2; 2].
Proof. split; [vm_compute; discriminate|]. do 6 eexists. vm_compute. split; reflexivity. Qed.
Example C42_exception_ex : draw_workers 3 [mkWorker 1 2; mkWorker 2 2] = Raise IndexError /\ draw_workers 3 [mkWorker 1 2] = Raise InsufficientResourcesExn.
Proof. split; reflexivity. Qed.

(** ** C51 *)
(** blocks at most as large as the reduced state: the workers that stay tile the reduced matrix, the released ones are
    the others *)
Theorem C51_partial : forall n b workers indices, 0 <= b <= n -> tiles (2 ^ n) workers -> blocks (2 ^ b) workers -> b <= n - zlen indices ->
  exists p' done, pool_reduce (mkPool n workers) indices = (p', done) /\ tiles (2 ^ (n - zlen indices)) (p_workers p') /\
    incl (p_workers p') workers /\ Permutation (map en_worker (p_workers p') ++ done) (map en_worker workers).
Proof. exact reduce_ok. Qed.
Print Assumptions C51_partial.
(** otherwise (in particular with a single worker) nobody stays *)
Theorem C51_refuted : forall n b workers indices, 0 <= b <= n -> tiles (2 ^ n) workers -> blocks (2 ^ b) workers -> n - zlen indices < b ->
  pool_reduce (mkPool n workers) indices = (mkPool n [], map en_worker workers).
Proof. exact reduce_empty. Qed.
Print Assumptions C51_refuted.
(** a second reducing measurement of at most as many qubits releases nobody *)
Theorem C51_again_refuted : forall n b workers i1 i2, 0 <= b <= n -> tiles (2 ^ n) workers -> blocks (2 ^ b) workers -> b <= n - zlen i1 -> 1 <= zlen i2 <= zlen i1 ->
  exists p1 d1, pool_reduce (mkPool n workers) i1 = (p1, d1) /\ pool_reduce p1 i2 = (p1, []) /\ ~ tiles (2 ^ (n - zlen i1 - zlen i2)) (p_workers p1).
Proof. exact reduce_again. Qed.
Print Assumptions C51_again_refuted.
Definition exp_ws2 : list worker := map (fun i => mkWorker i 1) (zrange 0 16).
Definition exp_pool2 : list entry := match make_pool 3 exp_ws2 with Ok (p, _, _) => p | _ => [] end.
Example C51_ex : (exists msgs, make_pool 3 exp_ws2 = Ok (exp_pool2, msgs, [])) /\ tiles (2 ^ 3) exp_pool2 /\ blocks (2 ^ 1) exp_pool2 /\
  zlen (p_workers (fst (pool_reduce (mkPool 3 exp_pool2) [1]))) = 4 /\ zlen (p_workers (fst (pool_reduce (mkPool 3 exp_pool2) [1; 0; 2]))) = 0.
Proof.
  assert (E : exists msgs, make_pool 3 exp_ws2 = Ok (exp_pool2, msgs, [])) by (eexists; vm_compute; reflexivity). split; [exact E|]. destruct E as [msgs E].
  destruct (pool_ok _ _ _ _ _ E) as (_ & Ht & (b & Hb & Hbl & Hw & Hm) & _). split; [exact Ht|]. split; [|split; reflexivity].
  assert (Eb : b = 1); [|rewrite <- Eb; exact Hbl]. assert (b <= 1); [apply (Hw (hd ((0, 0), (0, 0), mkWorker 0 0) exp_pool2)); vm_compute; auto|].
  assert (Z.min 1 3 <= b) by (apply Hm; vm_compute; discriminate). lia.
Qed.
