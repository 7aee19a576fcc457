(** Model of the connections between workers: qip/distributed/worker/worker.py WorkerPoolServer.run (:206-229),
    make_connection (:359-387), close_connections (:389-405), and the part of WorkerInstance.__init__ that makes the
    connections (:39-47).
    - A worker (process) is named by a number, which stands for its address and port (wk_id of M_Pool).
    - A connection has a number; its two ends are sockets. Connecting never fails or waits (no bound on the backlog of the
      listening socket), and the first message, sent right after connecting, is queued with the connection. *)
From Verif Require Import Base M_Pool M_Worker.

(** number of the connection; true at the end that has accepted it *)
Definition sock : Type := (nat * bool)%type.

(** Python dictionaries: keys in the order of their first assignment *)
Section Dict.
  Context {A V : Type} (eqb : A -> A -> bool).
  Definition dget (d : list (A * V)) (k : A) : option V := option_map snd (find (fun e => eqb (fst e) k) d).
  Fixpoint dset (d : list (A * V)) (k : A) (v : V) : list (A * V) :=
    match d with [] => [(k, v)] | (k', v') :: d => if eqb k' k then (k', v) :: d else (k', v') :: dset d k v end.
End Dict.

(** (job_id, ranges) and (job_id, range) *)
Definition fkey : Type := (Z * wid)%type.
Definition rkey : Type := (Z * range)%type.
Definition fkey_eqb (a b : fkey) : bool := (fst a =? fst b) && wid_eqb (snd a) (snd b).
Definition rkey_eqb (a b : rkey) : bool := (fst a =? fst b) && range_eqb (snd a) (snd b).

(** the three dictionaries of a WorkerPoolServer (:195-201) *)
Record server := mkServer {
  sv_workers : list (fkey * sock);
  sv_inputs : list (rkey * list (sock * range));
  sv_outputs : list (rkey * list (sock * range)) }.

(** if key not in d: d[key] = []; d[key].append(x) *)
Definition dappend (d : list (rkey * list (sock * range))) (k : rkey) (x : sock * range) : list (rkey * list (sock * range)) :=
  dset rkey_eqb d k (match dget rkey_eqb d k with Some l => l | None => [] end ++ [x]).
(** :222-229 and :378-387, under the lock: the other worker of the connection has the ranges [w] *)
Definition register (sv : server) (job : Z) (w : wid) (s : sock) : server :=
  mkServer (dset fkey_eqb (sv_workers sv) (job, w) s)
           (dappend (sv_inputs sv) (job, fst w) (s, snd w))
           (dappend (sv_outputs sv) (job, snd w) (s, fst w)).
(** :389-405 with a job id, as called at the end of a job (:168) *)
Definition close_connections (sv : server) (job : Z) : server :=
  mkServer (filter (fun e => negb (job =? fst (fst e))) (sv_workers sv))
           (filter (fun e => negb (job =? fst (fst e))) (sv_inputs sv))
           (filter (fun e => negb (job =? fst (fst e))) (sv_outputs sv)).

(** all workers: their dictionaries; the connections that wait to be accepted, with the WorkerPartner message sent over
    them (job id and ranges of the sender); the connections a worker has made and not registered yet, with the job id and
    the ranges of the partner; the number of connections made so far *)
Record cluster := mkCluster { cl_srv : Z -> server; cl_queue : Z -> list (nat * fkey); cl_dialled : Z -> list (nat * fkey); cl_next : nat }.
Definition empty_cluster : cluster := mkCluster (fun _ => mkServer [] [] []) (fun _ => []) (fun _ => []) 0.
Definition at_worker {A} (f : Z -> A) (p : Z) (a : A) : Z -> A := fun q => if q =? p then a else f q.

(** :362-372 [make_connection], first part: worker [me] with ranges [mine] connects to a partner and sends its ranges *)
Definition dial (cl : cluster) (me job : Z) (mine : wid) (partner : entry) : cluster :=
  let c := cl_next cl in
  let peer := wk_id (en_worker partner) in
  mkCluster (cl_srv cl) (at_worker (cl_queue cl) peer (cl_queue cl peer ++ [(c, (job, mine))]))
            (at_worker (cl_dialled cl) me (cl_dialled cl me ++ [(c, (job, fst partner))])) (S c).
(** :374-387 [make_connection], second part: the connection is registered *)
Definition note_dialled (cl : cluster) (me : Z) : cluster :=
  match cl_dialled cl me with
  | [] => cl
  | (c, (job, w)) :: q =>
      mkCluster (at_worker (cl_srv cl) me (register (cl_srv cl me) job w (c, false))) (cl_queue cl) (at_worker (cl_dialled cl) me q) (cl_next cl)
  end.
(** :211-229: one round of the accepting thread; it waits when there is no connection *)
Definition accept (cl : cluster) (me : Z) : cluster :=
  match cl_queue cl me with
  | [] => cl
  | (c, (job, w)) :: q =>
      mkCluster (at_worker (cl_srv cl) me (register (cl_srv cl me) job w (c, true))) (at_worker (cl_queue cl) me q) (cl_dialled cl) (cl_next cl)
  end.

(** the steps of the threads; those that change the dictionaries are atomic because of the lock *)
Inductive event :=
| EConnect (me job : Z) (mine : wid) (partner : entry)
| ENote (me : Z)
| EAccept (me : Z)
| EClose (me job : Z).
Definition step (cl : cluster) (e : event) : cluster :=
  match e with
  | EConnect me job mine partner => dial cl me job mine partner
  | ENote me => note_dialled cl me
  | EAccept me => accept cl me
  | EClose me job => mkCluster (at_worker (cl_srv cl) me (close_connections (cl_srv cl me) job)) (cl_queue cl) (cl_dialled cl) (cl_next cl)
  end.
Definition happen (cl : cluster) (evs : list event) : cluster := fold_left step evs cl.

(** :39-47: the connections a worker makes at the beginning of a job; [e] is its own entry of the pool *)
Definition connects (job : Z) (pool : list entry) (e : entry) : list event :=
  if (fst (en_in e) =? fst (en_out e)) then []
  else concat (map (fun p =>
    if negb (fst (en_in p) =? fst (en_out p)) then []
    else if (fst (en_in p) =? fst (en_in e)) || (fst (en_in p) =? fst (en_out e))
         then [EConnect (wk_id (en_worker e)) job (fst e) p] else []) pool).
