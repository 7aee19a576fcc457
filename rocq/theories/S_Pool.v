(** Specification of worker pools. *)
From Verif Require Import Base M_Pool.

(** matrix position (row, col) belongs to an entry: rows are output indices, columns are input indices *)
Definition owns (e : entry) (row col : Z) : Prop :=
  fst (en_out e) <= row < snd (en_out e) /\ fst (en_in e) <= col < snd (en_in e).
(** every position of the N x N matrix belongs to exactly one entry of the pool, and nothing else does *)
Definition tiles (N : Z) (pool : list entry) : Prop :=
  (forall row col, 0 <= row < N -> 0 <= col < N -> exists i e, nth_error pool i = Some e /\ owns e row col /\
     forall j e', nth_error pool j = Some e' -> owns e' row col -> j = i) /\
  (forall e row col, In e pool -> owns e row col -> 0 <= row < N /\ 0 <= col < N).
(** all ranges have [size] elements and start at a multiple of [size] *)
Definition blocks (size : Z) (pool : list entry) : Prop :=
  forall e, In e pool -> exists i j, en_in e = (i * size, (i + 1) * size) /\ en_out e = (j * size, (j + 1) * size).
(** how many workers can hold [c] qubits *)
Definition capable (c : Z) (workers : list worker) : Z := zlen (filter (fun w => c <=? wk_n w) workers).
(** the workers suffice for [n] qubits when every worker holds a block of [c] qubits *)
Definition suffice (n c : Z) (workers : list worker) : Prop := 4 ^ Z.max (n - c) 0 <= capable c workers.
