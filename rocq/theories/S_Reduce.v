(** reduce_measure of a distributed client: the outcome the draws determine. *)
From Verif Require Import Base M_Kron M_Measure S_Measure M_Net M_Worker S_Worker.

Section S_Reduce.
  Context {K : Type} {OK : OrdRing K}.
  (** The manager draws r, which falls into some block. The outcome is drawn by the first worker listed with that input
      block and an output block that starts at 2^(number of qubits left) or before; it is the second time that worker is
      asked something (the first time it is asked for its probability). *)
  Definition reduce_drawn (n : Z) (indices : list Z) (workers : list wid) (envs : wid -> list (env K)) (vec : list (Cx K)) (r : K) (m : Z) : Prop :=
    exists a w r2, In (a, a) workers /\
      find (fun w => range_eqb (fst w) a && (fst (snd w) <=? 2 ^ (n - zlen indices))) workers = Some w /\
      nth_error (map e_rand (envs w)) 1 = Some r2 /\ drawn n indices vec r a r2 m.
  (** every worker is asked four things at most, and finds its accumulator cleared *)
  Definition four_asked (workers : list wid) (envs : wid -> list (env K)) : Prop :=
    forall w, In w workers -> (4 <= length (envs w))%nat /\ forall e, In e (envs w) -> e_acc0 e = 0%r.
End S_Reduce.
