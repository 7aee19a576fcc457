(** Model of the distributed execution of one job: qip/distributed/worker/worker.py (WorkerInstance, WorkerPoolServer)
    and the operations of qip/distributed/manager.py WorkerPool, as communicating processes (M_Net).
    - A worker is identified by its input and output range instead of a socket address; the manager thread of the
      client is [Mgr]. There is one connection between two processes.
    - Messages are values: the wire format is the subject of M_Sock and M_Proto. A message of the wrong type, which
      protobuf would reject or misread, is [Fail GenericException]; no theorem depends on it.
    - Connections do not break (failures: M_Manager). Accepting connections is a parameter: [reg], the partners
      registered with a worker when it runs an operation. *)
From Verif Require Import Base M_Bits M_Kron M_Feed M_Measure M_Pool M_Top M_Net.

Definition range : Type := (Z * Z)%type.
Definition range_eqb (a b : range) : bool := (fst a =? fst b) && (snd a =? snd b).
(** input range, output range *)
Definition wid : Type := (range * range)%type.
Definition wid_eqb (a b : wid) : bool := range_eqb (fst a) (fst b) && range_eqb (snd a) (snd b).
Inductive pid := Mgr | Wk (w : wid).
Definition pid_eqb (a b : pid) : bool :=
  match a, b with Mgr, Mgr => true | Wk a, Wk b => wid_eqb a b | _, _ => false end.

Section Worker.
  Context {K : Type} {OK : OrdRing K}.
  Notation C := (Cx K).

  (** ** Messages (messages.proto) *)
  (** Measure (:118-124); [m_result]: the fields measured_bits and measured_prob, when measure_result is set *)
  Record measure_op := mkMeasure { m_indices : list Z; m_result : option (Z * K); m_soft : bool; m_reduce : bool; m_top_k : Z }.
  (** WorkerOperation (:132-142) *)
  Inductive wop :=
  | OKron (mats : mats_arg K)
  | OMeasure (m : measure_op)
  | OTotalProb
  | OSync (set_up_to : option Z) (diagonal_overwrite : bool)
  | OClose.
  (** WorkerConfirm (:145-151); workers never set error_message *)
  Inductive conf :=
  | CDone
  | CProb (measured_bits : Z) (measured_prob : K)    (* an unset measured_bits reads 0 *)
  | CTop (indices : list Z) (probs : list K).
  Inductive msg :=
  | MOp (op : wop)
  | MConf (c : conf)
  | MAccept (job chunk_size max_inflight : Z)                       (* SyncAccept *)
  | MState (job rel_start_index : Z) (data : list C) (done : bool). (* SyncState *)

  (** how a process ends: the manager with the results of the operations and the freed workers, a worker with its state *)
  Definition mresult : Type := option (Z * K + (list Z * list K * list K)).
  Inductive ending := EManager (results : list mresult) (freed : list wid) | EWorker (b : backend K) | EIdle.
  Notation proc := (proc pid msg).

  (** ** State transfer *)
  (** numpy: vec[rel:rel+len(data)] = data and += data; lengths that differ cannot be broadcast: ValueError (one element
      into an empty slice changes nothing) *)
  Definition np_slice_len (vec : list C) (start len : Z) : Z := Z.min (zlen vec) (start + len) - Z.min (zlen vec) start.
  Definition np_update (f : C -> C -> C) (vec : list C) (rel : Z) (data : list C) : res (list C) :=
    if np_slice_len vec rel (zlen data) =? zlen data then
      Ok (firstn (Z.to_nat rel) vec ++ map (fun '(a, b) => f a b) (combine (skipn (Z.to_nat rel) vec) data)
            ++ skipn (Z.to_nat (rel + zlen data)) vec)
    else if zlen data =? 1 then Ok vec else Raise ValueError.
  (** qip/backend.py:171-175 *)
  Definition overwrite_relative_range (vec : list C) (rel : Z) (data : list C) : res (list C) := np_update (fun _ b => b) vec rel data.
  Definition addto_relative_range (vec : list C) (rel : Z) (data : list C) : res (list C) := np_update (fun a b => (a + b)%r) vec rel data.

  (** worker.py:311-323: the inner loop of send_state; [k] is what follows with the new last_index and inflight.
      The chunk size is positive in every call of the code, so [fuel] = size + 1 iterations suffice. *)
  Fixpoint send_inner {A} (fuel : nat) (job : Z) (vec : list C) (peer : pid) (chunk_size max_inflight inflight last_index : Z)
      (k : Z -> Z -> proc A) : proc A :=
    if (inflight <? max_inflight) && (last_index <? zlen vec) then
      match fuel with
      | O => Fail OutOfFuel
      | S fuel =>
          let end_index := last_index + Z.min (zlen vec - last_index) chunk_size in
          Send peer (MState job last_index (pyslice vec last_index end_index) (end_index =? zlen vec))
            (send_inner fuel job vec peer chunk_size max_inflight (inflight + 1) end_index k)
      end
    else k inflight last_index.
  (** worker.py:310-329: the outer loop *)
  Fixpoint send_outer (fuel : nat) (job : Z) (vec : list C) (peer : pid) (chunk_size max_inflight inflight last_index : Z) : proc unit :=
    if last_index <? zlen vec then
      match fuel with
      | O => Fail OutOfFuel
      | S fuel =>
          send_inner (S (length vec)) job vec peer chunk_size max_inflight inflight last_index (fun inflight last_index =>
            Recv peer (fun m =>
              match m with
              | MAccept j chunk_size max_inflight =>
                  if negb (j =? job) then Fail GenericException
                  else send_outer fuel job vec peer chunk_size max_inflight (inflight - 1) last_index
              | _ => Fail GenericException
              end))
      end
    else Ret tt.
  (** worker.py:302-329 [send_state] *)
  Definition send_state (job : Z) (vec : list C) (peer : pid) : proc unit :=
    Recv peer (fun m =>
      match m with
      | MAccept j chunk_size max_inflight =>
          if negb (j =? job) then Fail GenericException
          else send_outer (S (length vec)) job vec peer chunk_size max_inflight 0 0
      | _ => Fail GenericException
      end).

  (** worker.py:341-357: the loop of receive_state; the result is the new state. A sender of at most as many amplitudes
      needs at most size + 1 messages: [fuel]. *)
  Fixpoint receive_loop (fuel : nat) (job : Z) (vec : list C) (peer : pid) (overwrite : bool) (chunk_size max_inflight : Z) : proc (list C) :=
    match fuel with
    | O => Fail OutOfFuel
    | S fuel =>
        Recv peer (fun m =>
          match m with
          | MState _ relstart data done =>
              pdo vec <- lift (if overwrite then overwrite_relative_range vec relstart data else addto_relative_range vec relstart data);
              Send peer (MAccept job chunk_size max_inflight)
                (if done then Ret vec else receive_loop fuel job vec peer overwrite chunk_size max_inflight)
          | _ => Fail GenericException
          end)
    end.
  (** worker.py:332-357 [receive_state]; the code calls it with chunk_size = 2048 and max_inflight = 4 *)
  Definition receive_state (job : Z) (vec : list C) (peer : pid) (overwrite : bool) (chunk_size max_inflight : Z) : proc (list C) :=
    Send peer (MAccept job chunk_size max_inflight)
      (receive_loop (S (length vec)) job vec peer overwrite chunk_size max_inflight).

  (** ** The registered connections of a worker (worker.py:218-229, 374-387), in the order of registration *)
  (** self.workers[fullkey] *)
  Definition find_worker (reg : list wid) (key : wid) : option pid :=
    if existsb (wid_eqb key) reg then Some (Wk key) else None.
  (** self.inputrange_workers[inputkey] and self.outputrange_workers[outputkey] *)
  Definition input_workers (reg : list wid) (key : range) : list wid := filter (fun w => range_eqb (fst w) key) reg.
  Definition output_workers (reg : list wid) (key : range) : list wid := filter (fun w => range_eqb (snd w) key) reg.

  (** worker.py:231-243: without a connection only an error is logged *)
  Definition send_state_to_one (job : Z) (vec : list C) (reg : list wid) (key : wid) : proc unit :=
    match find_worker reg key with Some peer => send_state job vec peer | None => Ret tt end.
  (** worker.py:245-260 (inputdefined=True) *)
  Definition send_state_to_all (job : Z) (vec : list C) (reg : list wid) (key : range) : proc unit :=
    pfold (fun _ w => send_state job vec (Wk w)) (input_workers reg key) tt.
  (** worker.py:262-271 *)
  Definition send_state_up_to (job : Z) (vec : list C) (reg : list wid) (key : range) (threshold : Z) : proc unit :=
    pfold (fun _ w => if (threshold <=? fst (snd w)) then Ret tt else send_state job vec (Wk w)) (input_workers reg key) tt.
  (** worker.py:273-284 *)
  Definition receive_state_from_one (job : Z) (vec : list C) (reg : list wid) (key : wid) (chunk window : Z) : proc (list C) :=
    match find_worker reg key with Some peer => receive_state job vec peer true chunk window | None => Ret vec end.
  (** worker.py:286-300 (inputdefined=False) *)
  Definition receive_state_increments_from_all (job : Z) (vec : list C) (reg : list wid) (key : range) (chunk window : Z) : proc (list C) :=
    pfold (fun vec w => receive_state job vec (Wk w) false chunk window) (output_workers reg key) vec.

  (** ** WorkerInstance *)
  (** what a worker is set up with (worker.py:29-34): job id, own ranges, and the parameters of receive_state *)
  Record worker_cfg := mkCfg { c_job : Z; c_id : wid; c_reg : list wid; c_chunk : Z; c_window : Z }.
  (** the outside influences on one operation: the value of random.random(), the uninitialised accumulator of
      prob_magnitude, the schedule of the parallel loop *)
  Record env := mkEnv { e_rand : K; e_acc0 : K; e_sched : list Z }.
  Definition set_state (b : backend K) (vec : list C) : backend K := mkBackend (bk_n b) vec (bk_arena b).

  (** operation.sync.HasField('set_up_to') and operation.sync.set_up_to *)
  Definition threshold_of (set_up_to : option Z) : option Z :=
    match set_up_to with Some t => if t =? 0 then None else Some t | None => None end.
  (** worker.py:119-158: the sync operation *)
  Definition worker_sync (c : worker_cfg) (b : backend K) (set_up_to : option Z) (diagonal_overwrite : bool) : proc (backend K) :=
    let '(input, output) := c_id c in
    if (fst input =? fst output) && (snd input =? snd output) then
      pdo vec <- (if diagonal_overwrite then Ret (bk_state b)
                  else receive_state_increments_from_all (c_job c) (bk_state b) (c_reg c) output (c_chunk c) (c_window c));
      pdo _ <- match threshold_of set_up_to with
               | Some t => send_state_up_to (c_job c) vec (c_reg c) input t
               | None => send_state_to_all (c_job c) vec (c_reg c) input
               end;
      Ret (set_state b vec)
    else
      pdo _ <- (if diagonal_overwrite then Ret tt else send_state_to_one (c_job c) (bk_state b) (c_reg c) (output, output));
      let should_receive := match threshold_of set_up_to with
                            | Some t => (snd input <=? t) && (snd output <=? t)
                            | None => true
                            end in
      if should_receive then
        pdo vec <- receive_state_from_one (c_job c) (bk_state b) (c_reg c) (input, input) (c_chunk c) (c_window c);
        Ret (set_state b vec)
      else Ret b.

  (** worker.py:81-117: the measure operation *)
  Definition worker_measure (rsqrt : K -> K) (c : worker_cfg) (e : env) (b : backend K) (m : measure_op) : res (backend K * conf) :=
    let '(input, output) := c_id c in
    let bits := option_map fst (m_result m) in
    let prob := option_map snd (m_result m) in
    if m_soft m then
      do mp <- bk_soft_measure (e_rand e) (e_acc0 e) b (m_indices m) bits (fst input); Ok (b, CProb (fst mp) (snd mp))
    else if m_reduce m then
      do r <- bk_reduce_measure rsqrt (e_rand e) (e_acc0 e) b (m_indices m) bits prob (fst input) (fst output);
      Ok (snd r, CProb (fst (fst r)) (snd (fst r)))
    else if negb (m_top_k m =? 0) then
      do r <- bk_measure_probabilities b (m_indices m) (m_top_k m);
      match r with inr (is, ps) => Ok (b, CTop is ps) | inl _ => Raise ValueError end
    else
      do r <- bk_measure rsqrt (e_rand e) (e_acc0 e) b (m_indices m) bits prob (fst input) (fst output);
      Ok (snd r, CProb (fst (fst r)) (snd (fst r))).

  (** qip/backend.py:112-116 *)
  Definition bk_kronselect_dot (sched : list Z) (b : backend K) (mats : mats_arg K) (input_offset output_offset : Z) : res (backend K) :=
    do out <- kronselect_dot mats (bk_state b) (bk_n b) (bk_arena b) input_offset output_offset (Cython sched);
    Ok (mkBackend (bk_n b) out (bk_state b)).

  (** worker.py:57-163: the body of the loop for one operation other than close; the new state and the reply *)
  Definition worker_op (rsqrt : K -> K) (c : worker_cfg) (e : env) (b : backend K) (op : wop) : proc (backend K * conf) :=
    match op with
    | OClose => Ret (b, CDone)
    | OKron mats => lift (do b <- bk_kronselect_dot (e_sched e) b mats (fst (fst (c_id c))) (fst (snd (c_id c))); Ok (b, CDone))
    | OTotalProb => Ret (b, CProb 0 (bk_total_prob (e_acc0 e) b))
    | OMeasure m => lift (worker_measure rsqrt c e b m)
    | OSync up_to overwrite => pdo b <- worker_sync c b up_to overwrite; Ret (b, CDone)
    end.
  (** worker.py:57-169 [run]; [envs] gives the outside influences on each operation, and so bounds their number *)
  Fixpoint worker_run (rsqrt : K -> K) (c : worker_cfg) (envs : list env) (b : backend K) : proc ending :=
    Recv Mgr (fun m =>
      match m with
      | MOp OClose => Ret (EWorker b)
      | MOp op =>
          match envs with
          | [] => Fail OutOfFuel
          | e :: envs => pdo bc <- worker_op rsqrt c e b op; Send Mgr (MConf (snd bc)) (worker_run rsqrt c envs (fst bc))
          end
      | _ => Fail GenericException
      end).

  (** ** WorkerPool (manager.py) *)
  (** :443-445 *)
  Definition send_to_each_of (op : wop) (ws : list wid) : proc unit := pfold (fun _ w => Send (Wk w) (MOp op) (Ret tt)) ws tt.
  (** :447-455 *)
  Definition receive_from_each_of (ws : list wid) : proc (list conf) :=
    pfold (fun confs w => Recv (Wk w) (fun m => match m with MConf c => Ret (confs ++ [c]) | _ => Fail GenericException end)) ws [].
  (** :457-460 *)
  Definition map_workers_via_op (op : wop) (ws : list wid) : proc (list conf) :=
    pdo _ <- send_to_each_of op ws; receive_from_each_of ws.
  (** :213-236 *)
  Definition send_kronprod (workers : list wid) (op : wop) : proc unit :=
    pdo _ <- map_workers_via_op op workers; pdo _ <- map_workers_via_op (OSync (Some 0) false) workers; Ret tt.

  Definition conf_bits (c : conf) : Z := match c with CProb b _ => b | _ => 0 end.
  Definition conf_prob (c : conf) : K := match c with CProb _ p => p | _ => 0%r end.
  (** sorted(...) of tuples (inputs, outputs, worker); no two workers have the same ranges *)
  Definition range_ltb (a b : range) : bool := (fst a <? fst b) || ((fst a =? fst b) && (snd a <? snd b)).
  Definition wid_ltb (a b : wid) : bool := range_ltb (fst a) (fst b) || (range_eqb (fst a) (fst b) && range_ltb (snd a) (snd b)).
  Fixpoint insert_wid (w : wid) (l : list wid) : list wid :=
    match l with [] => [w] | x :: l' => if wid_ltb w x then w :: l else x :: insert_wid w l' end.
  Definition sort_wids (l : list wid) : list wid := fold_left (fun acc w => insert_wid w acc) l [].
  Definition diagonal_workers (workers : list wid) : list wid := sort_wids (filter (fun w => range_eqb (fst w) (snd w)) workers).

  (** :262-270 and :377-382: subtract the probabilities from r until r <= 0; the position *)
  Fixpoint select (i : nat) (confs : list conf) (r : K) : option nat :=
    match confs with
    | [] => None
    | c :: confs => let r := (r - conf_prob c)%r in if rleb r 0%r then Some i else select (S i) confs r
    end.
  (** the measure messages sent; CopyFrom(op), then fields are set *)
  Definition get_bits_op (m : measure_op) (measured_bits : option Z) : wop :=
    OMeasure (mkMeasure (m_indices m)
      (match measured_bits with
       | Some b => Some (b, match m_result m with Some (_, p) => p | None => 0%r end)
       | None => m_result m end) true false (m_top_k m)).
  Definition do_measure_op (m : measure_op) (measured_bits : Z) (measured_prob : K) (reduce : bool) : wop :=
    OMeasure (mkMeasure (m_indices m) (Some (measured_bits, measured_prob)) false reduce (m_top_k m)).
  Definition recv_conf (w : wid) : proc conf := Recv (Wk w) (fun m => match m with MConf c => Ret c | _ => Fail GenericException end).

  (** :248-306 [send_measure]; [r] is the value of random.random(). When no worker is selected, selected_worker is None:
      AttributeError *)
  Definition send_measure (r : K) (workers : list wid) (m : measure_op) : proc (Z * K) :=
    let diagonal := diagonal_workers workers in
    pdo confs <- map_workers_via_op OTotalProb diagonal;
    match select 0 confs r with
    | None => Fail AttributeError
    | Some i =>
        pdo selected <- lift (pyget diagonal (Z.of_nat i));
        pdo _ <- Send (Wk selected) (MOp (get_bits_op m None)) (Ret tt);
        pdo c <- recv_conf selected;
        let measured_bits := conf_bits c in
        pdo confs <- map_workers_via_op (get_bits_op m (Some measured_bits)) (firstn i diagonal ++ skipn (S i) diagonal);
        let measured_prob := (conf_prob c + fold_left (fun acc c => acc + conf_prob c) confs 0)%r in
        pdo _ <- map_workers_via_op (do_measure_op m measured_bits measured_prob false) diagonal;
        pdo _ <- map_workers_via_op (OSync None true) workers;
        Ret (measured_bits, measured_prob)
    end.

  (** :308-354 [send_measure_top]; the replies are combined by M_Top *)
  Definition send_measure_top (workers : list wid) (m : measure_op) : proc (list Z * list K * list K) :=
    pdo confs <- map_workers_via_op (OMeasure m) (diagonal_workers workers);
    lift (combine_replies (map (fun c => match c with CTop is ps => (is, ps) | _ => ([], []) end) confs) (m_top_k m)).

  (** :238-246: the workers with output start up to the threshold, grouped by input range in order of appearance *)
  Definition get_workers_up_to_output (workers : list wid) (threshold : Z) : list (range * list wid) :=
    fold_left (fun acc w =>
      if (threshold <? fst (snd w)) then acc
      else if existsb (fun g => range_eqb (fst g) (fst w)) acc
           then map (fun g => if range_eqb (fst g) (fst w) then (fst g, snd g ++ [w]) else g) acc
           else acc ++ [(fst w, [w])]) workers [].
  Fixpoint insert_range (r : range) (l : list range) : list range :=
    match l with [] => [r] | x :: l' => if range_ltb r x then r :: l else x :: insert_range r l' end.
  Definition sort_ranges (l : list range) : list range := fold_left (fun acc r => insert_range r acc) l [].
  (** reduction_workers[key][0] *)
  Definition first_of (groups : list (range * list wid)) (key : range) : res wid :=
    match find (fun g => range_eqb (fst g) key) groups with
    | Some (_, w :: _) => Ok w
    | _ => Raise KeyError
    end.

  (** :356-441 [send_reduce_measure]: the remaining workers, the released workers, and the result *)
  Definition send_reduce_measure (r : K) (n : Z) (workers : list wid) (m : measure_op) : proc (list wid * list wid * (Z * K)) :=
    let threshold := reduce_threshold n (m_indices m) in
    let reduction_workers := get_workers_up_to_output workers threshold in
    let inputs := sort_ranges (map fst reduction_workers) in
    pdo first_workers <- lift (mmap (first_of reduction_workers) inputs);
    pdo confs <- map_workers_via_op OTotalProb first_workers;
    pdo first_worker <- match select 0 confs r with
                        | Some i => lift (pyget first_workers (Z.of_nat i))
                        | None => Fail KeyError
                        end;
    pdo _ <- Send (Wk first_worker) (MOp (get_bits_op m None)) (Ret tt);
    pdo c <- recv_conf first_worker;
    let measured_bits := conf_bits c in
    pdo confs <- map_workers_via_op (get_bits_op m (Some measured_bits))
                   (filter (fun w => negb (range_eqb (fst w) (fst first_worker))) first_workers);
    let measured_prob := (conf_prob c + fold_left (fun acc c => acc + conf_prob c) confs 0)%r in
    let all_reduction_workers := concat (map snd reduction_workers) in
    pdo _ <- map_workers_via_op (do_measure_op m measured_bits measured_prob true) all_reduction_workers;
    pdo _ <- map_workers_via_op (OSync (Some threshold) false) all_reduction_workers;
    let keep w := (snd (fst w) <=? threshold) && (snd (snd w) <=? threshold) in
    let done_workers := filter (fun w => negb (keep w)) workers in
    pdo _ <- send_to_each_of OClose done_workers;
    Ret (filter keep workers, done_workers, (measured_bits, measured_prob)).

  (** :197-211 [send_op]; raise NotImplemented(...) is a TypeError, an operation of another kind returns None, which
      cannot be unpacked (TypeError) *)
  Definition send_op (r : K) (n : Z) (workers : list wid) (op : wop) : proc (list wid * list wid * mresult) :=
    match op with
    | OKron _ => pdo _ <- send_kronprod workers op; Ret (workers, [], None)
    | OMeasure m =>
        if m_soft m then Fail TypeError
        else if m_reduce m then pdo x <- send_reduce_measure r n workers m; let '(workers, done, mp) := x in Ret (workers, done, Some (inl mp))
        else if negb (m_top_k m =? 0) then
          if (2048 <? m_top_k m) then Fail GenericException
          else pdo x <- send_measure_top workers m; Ret (workers, [], Some (inr x))
        else pdo mp <- send_measure r workers m; Ret (workers, [], Some (inl mp))
    | _ => Fail TypeError
    end.

  (** the part of serve_client (:49-64, 82-89) that talks to the workers: the operations of the client with the values
      random.random() returns, then the closing of the pool (:462-471). An exception other than IOError leaves the loop
      through the finally clause (:82-89), which closes the pool too, and then ends the thread. Simplified: the pool closed
      after an exception is the one from before the failing operation. *)
  Fixpoint manager_run (n : Z) (workers : list wid) (ops : list (wop * K)) (results : list mresult) (freed : list wid) : proc ending :=
    match ops with
    | [] => pdo _ <- send_to_each_of OClose workers; Ret (EManager results (freed ++ workers))
    | (op, r) :: ops =>
        ptry (send_op r n workers op)
             (fun x => let '(workers, done, result) := x in manager_run n workers ops (results ++ [result]) (freed ++ done))
             (fun e => pdo _ <- send_to_each_of OClose workers; Fail e)
    end.

  (** the whole job: the manager thread and the workers of the pool, nothing in transit *)
  Definition job_net (rsqrt : K -> K) (n : Z) (workers : list wid) (ops : list (wop * K))
      (cfg : wid -> worker_cfg) (envs : wid -> list env) (b : wid -> backend K) : net pid msg ending :=
    mkNet (fun p => match p with
                    | Mgr => manager_run n workers ops [] []
                    | Wk w => if existsb (wid_eqb w) workers then worker_run rsqrt (cfg w) (envs w) (b w) else Ret EIdle
                    end) (fun _ _ => []).

  (** a single sync operation of all workers (manager.py:213-236, 295-303), then the closing of the pool *)
  Definition sync_net (rsqrt : K -> K) (workers : list wid) (set_up_to : option Z) (diagonal_overwrite : bool)
      (cfg : wid -> worker_cfg) (envs : wid -> list env) (b : wid -> backend K) : net pid msg ending :=
    mkNet (fun p => match p with
                    | Mgr => pdo _ <- map_workers_via_op (OSync set_up_to diagonal_overwrite) workers;
                             pdo _ <- send_to_each_of OClose workers; Ret (EManager [] workers)
                    | Wk w => if existsb (wid_eqb w) workers then worker_run rsqrt (cfg w) (envs w) (b w) else Ret EIdle
                    end) (fun _ _ => []).

  (** ** Two workers and one connection: worker [i] sends a state several times, worker [j] receives each time into its own
      state; [stale] is what earlier transfers have left in the connection from j to i *)
  Record transfer_op := mkTransfer { t_data : list C; t_overwrite : bool; t_chunk : Z; t_window : Z }.
  Definition transfers_net (job : Z) (i j : pid) (vec : list C) (ts : list transfer_op) (stale : list msg) : net pid msg (option (list C)) :=
    mkNet (fun p =>
             if pid_eqb p i then pdo _ <- pfold (fun _ t => send_state job (t_data t) j) ts tt; Ret None
             else if pid_eqb p j then
               pdo vec <- pfold (fun vec t => receive_state job vec i (t_overwrite t) (t_chunk t) (t_window t)) ts vec; Ret (Some vec)
             else Ret None)
          (fun a b => if pid_eqb a j && pid_eqb b i then stale else []).
End Worker.
Arguments wop K : clear implicits.
Arguments msg K : clear implicits.
Arguments conf K : clear implicits.
Arguments env K : clear implicits.
Arguments ending K : clear implicits.
Arguments mresult K : clear implicits.
Arguments measure_op K : clear implicits.
Arguments transfer_op K : clear implicits.
