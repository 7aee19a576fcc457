(** Specification of measured runs. From the model only the types of nodes, heaps and environments are used. *)
From Verif Require Import Base S_Bits M_Kron M_Ops S_Ops M_Feed S_Feed S_Func S_Measure M_Graph S_Graph.

Section BornSpec.
  Context {K : Type} {OK : OrdRing K}.
  Notation C := (Cx K).

  (** total probability of the amplitudes [v] of [n] qubits *)
  Definition norm_of (n : Z) (v : Z -> C) : K := sum (zrange 0 (2 ^ n)) (fun r => cnorm2 (v r)).
  (** the draw [u] selects outcome [m] of measuring the qubits [g]: the probabilities of the smaller outcomes add up to
      less than [u], together with that of [m] they reach it *)
  Definition selected (n : Z) (g : list Z) (v : Z -> C) (u : K) (m : Z) : Prop :=
    0 <= m < 2 ^ zlen g /\ rlt (below n (measured_order n g) v m) u /\ rle u (below n (measured_order n g) v (m + 1)).
  (** draws lie in (0, 1], the accumulators of the C code start at 0, and the scale of a measured state is the inverse
      square root of the probability *)
  Definition draws_ok (ev : env K) : Prop :=
    (forall i, rlt 0%r (e_rand ev i) /\ rle (e_rand ev i) 1%r) /\ (forall i, e_acc0 ev i = 0%r) /\
    forall p, rlt 0%r p -> rle p 1%r -> (e_rsqrt ev p * e_rsqrt ev p * p = 1)%r.
  (** the gates the circuit needs have the scalars their formulas give *)
  Definition gates_exact (h : heap K) (args : list nat) : Prop :=
    forall i o d, ancestor h args i -> nd_kind (nd h i) = KMat o d -> op_scalars_ok o.
  (** the same nondeterminism with other draws *)
  Definition with_draws (ev : env K) (u : nat -> K) : env K :=
    mkEnv (e_pick ev) (e_enum ev) (e_sched ev) u (e_acc0 ev) (e_rsqrt ev) (e_junk ev) (e_mach ev).
End BornSpec.
