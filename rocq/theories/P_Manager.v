(** Property C43: the workers of a manager. *)
From Verif Require Import Base M_Pool M_Manager S_Manager L_Manager.

(** in every history, whatever fails: the free workers and those of the client threads are exactly the registered ones;
    so a registered worker is free or in one job, never both, never in two *)
Theorem C43_conserved : forall es m, run manager_init es = Some m ->
  Permutation (mg_free m ++ concat (map held (mg_jobs m))) (registered es).
Proof. exact conserved. Qed.
Print Assumptions C43_conserved.
(** a job that has ended normally holds nobody; once all have, everybody is free *)
Theorem C43_freed_partial : forall es m, run manager_init es = Some m ->
  (forall j x, nth_error (mg_jobs m) j = Some x -> jb_status x = Finished -> held x = []) /\
  ((forall j x, nth_error (mg_jobs m) j = Some x -> jb_status x = Finished) -> Permutation (mg_free m) (registered es)).
Proof. exact finished_free. Qed.
Print Assumptions C43_freed_partial.
(** whenever a client is being served and closes, its thread can give all its workers back, without touching the other jobs *)
Theorem C43_close_partial : forall es m j x, run manager_init es = Some m -> nth_error (mg_jobs m) j = Some x -> jb_status x = Serving ->
  exists m', run m [GiveBack j; Operation j OpClose; ClosePool j true; GiveBack j] = Some m' /\ Permutation (mg_free m') (mg_free m ++ held x) /\
    exists y, nth_error (mg_jobs m') j = Some y /\ jb_status y = Finished /\ forall i, i <> j -> nth_error (mg_jobs m') i = nth_error (mg_jobs m) i.
Proof. exact normal_end. Qed.
Print Assumptions C43_close_partial.
(** but when a message of the set-up, the reply to the client or the closing of the pool cannot be sent, the workers of
    the job are never free again, whatever happens next *)
Theorem C43_freed_refuted : forall es m j x e, run manager_init es = Some m -> nth_error (mg_jobs m) j = Some x ->
  (jb_status x = Drawn /\ e = Allocate j false) \/ (jb_status x = Allocated /\ e = Reply j false) \/ (jb_status x = Closing /\ e = ClosePool j false) ->
  forall w, In w (held x) -> forall es' m', run m (e :: es') = Some m' -> NoDup (registered (es ++ e :: es')) -> ~ In w (mg_free m').
Proof. exact lost_forever. Qed.
Print Assumptions C43_freed_refuted.

Definition exm_ws : list event := map (fun i => AddWorker (mkWorker i 2)) (zrange 0 5).
(** a 3-qubit job of four workers is created, reduced to two qubits (three workers come back) and closed *)
Example C43_ex : option_map (fun m => (map wk_id (mg_free m), map jb_status (mg_jobs m)))
  (run manager_init (exm_ws ++ [MakeState 3; Allocate 0 true; Reply 0 true; Operation 0 OpPlain; Operation 0 (OpReduce [1]); GiveBack 0; Operation 0 OpClose; ClosePool 0 true; GiveBack 0]))
  = Some ([0; 2; 3; 4; 1], [Finished]).
Proof. vm_compute. reflexivity. Qed.
Example C43_ex_reduced : option_map (fun m => (map wk_id (mg_free m), map (fun x => map wk_id (held x)) (mg_jobs m)))
  (run manager_init (exm_ws ++ [MakeState 3; Allocate 0 true; Reply 0 true; Operation 0 (OpReduce [1]); GiveBack 0])) = Some ([0; 2; 3; 4], [[1]]).
Proof. vm_compute. reflexivity. Qed.
(** the three failures, each after registering five different workers: four workers are gone *)
Example C43_freed_refuted_ex : Forall (fun es => NoDup (registered (exm_ws ++ es)) /\
    option_map (fun m => (map wk_id (mg_free m), map jb_status (mg_jobs m), map (fun x => zlen (held x)) (mg_jobs m))) (run manager_init (exm_ws ++ es)) = Some ([0], [Dead], [4]))
  [[MakeState 3; Allocate 0 false]; [MakeState 3; Allocate 0 true; Reply 0 false]; [MakeState 3; Allocate 0 true; Reply 0 true; Operation 0 OpFails; ClosePool 0 false]].
Proof. repeat constructor; vm_compute; intuition discriminate. Qed.
