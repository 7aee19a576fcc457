(** Model of the worker pools of qip/distributed/manager.py: drawing workers, giving them ranges, releasing them. *)
From Verif Require Import Base M_Proto.

(** a connected worker (AnnotatedSocket, manager.py:473-479): [wk_id] stands for its socket and address, [wk_n] is
    info.worker_info.n_qubits *)
Record worker := mkWorker { wk_id : Z; wk_n : Z }.

(** sorted(workers, key=n_qubits): ascending and stable *)
Fixpoint insert_n (w : worker) (l : list worker) : list worker :=
  match l with
  | [] => [w]
  | x :: l' => if (wk_n w <? wk_n x) then w :: l else x :: insert_n w l'
  end.
Definition sort_n (l : list worker) : list worker := fold_left (fun acc w => insert_n w acc) l [].

(** l.pop() *)
Definition pop {A} (l : list A) : res (A * list A) :=
  match rev l with [] => Raise IndexError | a :: l => Ok (a, rev l) end.

(** pow(2, 2 * max(n - worker_n, 0)) *)
Definition required_for (n worker_n : Z) : Z := 2 ^ (2 * Z.max (n - worker_n) 0).

(** manager.py:147-153: the loop; every iteration draws at least one worker, [fuel] is the number of workers *)
Fixpoint draw_loop (fuel : nat) (n : Z) (unallocated copy_workers : list worker) (worker_n required_workers : Z)
  : res (list worker * list worker * Z * Z) :=
  if (zlen unallocated <? required_workers) && (0 <? zlen copy_workers) then
    match fuel with
    | O => Raise OutOfFuel
    | S fuel =>
        let to_pop := required_workers - zlen unallocated in
        do uc <- mfold (fun '(u, c) _ => do wc <- pop c; Ok (u ++ [fst wc], snd wc)) (zrange 0 to_pop) (unallocated, copy_workers);
        do last <- pyget (fst uc) (-1);
        draw_loop fuel n (fst uc) (snd uc) (wk_n last) (required_for n (wk_n last))
    end
  else Ok (unallocated, copy_workers, worker_n, required_workers).

(** manager.py:138-158 [WorkerPool.draw_workers]: the new unallocated_workers, min_worker_n, and the workers returned *)
Definition draw_workers (n : Z) (workers : list worker) : res (list worker * Z * list worker) :=
  do wc <- pop (sort_n workers);
  let worker_n := wk_n (fst wc) in
  do r <- draw_loop (length workers) n [fst wc] (snd wc) worker_n (required_for n worker_n);
  let '(unallocated, copy_workers, worker_n, required_workers) := r in
  if (zlen workers <? required_workers) then Raise InsufficientResourcesExn
  else Ok (unallocated, worker_n, copy_workers).

(** the entries of pool.workers: input range, output range, worker *)
Definition entry : Type := ((Z * Z) * (Z * Z) * worker)%type.
Definition en_in (e : entry) : Z * Z := fst (fst e).
Definition en_out (e : entry) : Z * Z := snd (fst e).
Definition en_worker (e : entry) : worker := snd e.

(** the fields of WorkerSetup (messages.proto:77-94) that differ between workers, and the partners; [n], the job id
    and the states are the same for all *)
Record setup_msg := mkSetup { sm_in : Z * Z; sm_out : Z * Z; sm_partners : list entry }.

(** the four range fields of a message: int64, ValueError when they do not fit *)
Definition check_ranges (e : entry) : res unit :=
  do _ <- int64 (fst (en_in e)); do _ <- int64 (snd (en_in e)); do _ <- int64 (fst (en_out e)); do _ <- int64 (snd (en_out e)); Ok tt.

(** manager.py:163-167: the ranges along one side; a negative shift count raises ValueError *)
Definition worker_ranges (n workern : Z) : res (list (Z * Z)) :=
  if (workern <? 0) then Raise ValueError else
  let workerseps := map (fun i => Z.shiftl i workern) (zrange 0 (2 ^ (n - workern) + 1)) in
  Ok (combine (removelast workerseps) (tl workerseps)).

(** manager.py:160-195 [WorkerPool.allocate_workers]: pool.workers and the messages sent, in order. Failures of the
    connections are added in M_Manager. *)
Definition allocate_workers (n min_worker_n : Z) (unallocated : list worker) : res (list entry * list (worker * setup_msg)) :=
  let workern := Z.min min_worker_n n in
  do workerranges <- worker_ranges n workern;
  do r <- mfold (fun acc inputrange =>
      mfold (fun '(workers, unallocated) outputrange =>
        do wu <- pop unallocated; Ok (workers ++ [(inputrange, outputrange, fst wu)], snd wu)) workerranges acc)
    workerranges ([], unallocated);
  let '(workers, unallocated) := r in
  if negb (zlen unallocated =? 0) then Raise AssertionError else
  do _ <- mfold (fun _ e => check_ranges e) workers tt;
  Ok (workers, map (fun e => (en_worker e, mkSetup (en_in e) (en_out e) workers)) workers).

(** [make_state] of the manager up to the pool (manager.py:94-107), when nothing fails: draw, then allocate *)
Definition make_pool (n : Z) (workers : list worker) : res (list entry * list (worker * setup_msg) * list worker) :=
  do d <- draw_workers n workers;
  let '(unallocated, min_n, rest) := d in
  do a <- allocate_workers n min_n unallocated;
  Ok (fst a, snd a, rest).

(** manager.py:358-359: the number of amplitudes after measuring the indices *)
Definition reduce_threshold (n : Z) (indices : list Z) : Z := 2 ^ (n - zlen indices).
(** manager.py:421-434: the workers that stay and the workers that are told to close *)
Definition reduce_keeps (threshold : Z) (e : entry) : bool := (snd (en_in e) <=? threshold) && (snd (en_out e) <=? threshold).
Definition reduce_split (threshold : Z) (workers : list entry) : list entry * list worker :=
  fold_left (fun '(remaining, done) e =>
    if reduce_keeps threshold e then (remaining ++ [e], done) else (remaining, done ++ [en_worker e])) workers ([], []).
(** the fields n and workers of a WorkerPool (manager.py:131-136) *)
Record pool := mkPool { p_n : Z; p_workers : list entry }.
(** what a successful send_reduce_measure does to the pool and the workers it returns (manager.py:356-359, 421-441);
    self.n is not changed. The measurement itself is modelled in M_Worker, failures in M_Manager. *)
Definition pool_reduce (p : pool) (indices : list Z) : pool * list worker :=
  let threshold := reduce_threshold (p_n p) indices in
  let (remaining, done) := reduce_split threshold (p_workers p) in (mkPool (p_n p) remaining, done).
