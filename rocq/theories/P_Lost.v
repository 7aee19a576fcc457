(** Lost workers: C79. *)
From Verif Require Import Base M_Pool M_Manager L_Lost.

(** ** C79 *)
(** The property is false: a client gets a job; the job fails (OpFails: for instance a worker has died while it carried out
    an operation) and its workers are given back, the dead one with them. If the client tries again it gets exactly the same
    workers, whatever other workers are free. *)
Theorem C79_refuted : forall m n m1 x, let j := length (mg_jobs m) in
  run m [MakeState n; Allocate j true; Reply j true] = Some m1 -> nth_error (mg_jobs m1) j = Some x ->
  exists m2 y, run m1 [Operation j OpFails; ClosePool j true; GiveBack j; MakeState n; Allocate (S j) true; Reply (S j) true] = Some m2 /\
    nth_error (mg_jobs m2) (S j) = Some y /\ jb_status y = Serving /\
    Permutation (map en_worker (jb_pool y)) (map en_worker (jb_pool x)).
Proof. exact again. Qed.
Print Assumptions C79_refuted.
(** eight workers, of which a job needs four *)
Definition exl_free : manager := mkManager (map (fun i => mkWorker i (2 + i mod 2)) (zrange 0 9)) [].
Definition exl_workers (m : option manager) (j : nat) : list Z :=
  match m with Some m => match nth_error (mg_jobs m) j with Some x => map (fun e => wk_id (en_worker e)) (jb_pool x) | None => [] end | None => [] end.
Example C79_run : let m1 := run exl_free [MakeState 4; Allocate 0 true; Reply 0 true] in
  exl_workers m1 0 = [1; 3; 5; 7] /\
  exl_workers (match m1 with Some m => run m [Operation 0 OpFails; ClosePool 0 true; GiveBack 0; MakeState 4; Allocate 1 true; Reply 1 true] | None => None end) 1 = [1; 3; 5; 7].
Proof. vm_compute. split; reflexivity. Qed.
