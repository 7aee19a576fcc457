(** Specification of continued fractions. Models no code. *)
From Verif Require Import Base.

(** numerator and denominator of a0 + 1/(a1 + 1/(... + 1/ak)) *)
Fixpoint cf_value (l : list Z) : Z * Z :=
  match l with
  | [] => (1, 0)
  | a :: l => let (d, r) := cf_value l in (a * d + r, d)
  end.
(** [l] is the continued fraction of c/q: whole part, then the continued fraction of the inverse of the rest *)
Inductive cf_of : Z -> Z -> list Z -> Prop :=
| cf_end : forall c, cf_of c 0 []
| cf_step : forall c q l, 0 < q -> cf_of q (c mod q) l -> cf_of c q (c / q :: l).

(** ** factoring *)
Definition nontrivial (N f : Z) : Prop := 1 < f < N /\ (f | N).
(** a^r is 1 modulo N *)
Definition period (N a r : Z) : Prop := 0 < r /\ (a ^ r) mod N = 1.
(** r is the order of a modulo N *)
Definition order (N a r : Z) : Prop := period N a r /\ forall s, period N a s -> r <= s.
(** the size of the Fourier register: the least power of two that is at least N^2 *)
Definition fourier_size (N : Z) : Z := 2 ^ Z.log2_up (N ^ 2).
(** the measured value is within 1/2 of a multiple d of q/r *)
Definition near (q peak d r : Z) : Prop := 2 * Z.abs (peak * r - d * q) <= r.
(** a fraction that the program accepts *)
Definition accepted (q d r : Z) : Prop := 1 < d < r /\ r < q /\ (2 | r).
(** d/r is a convergent of c/q *)
Definition convergent (c q d r : Z) : Prop :=
  exists l i, cf_of c q l /\ (i < length l)%nat /\ cf_value (firstn (S i) l) = (d, r).
