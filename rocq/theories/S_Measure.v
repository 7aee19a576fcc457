(** Specification of measurements. Models no code. *)
From Verif Require Import Base S_Bits.

Section MeasureSpec.
  Context {K : Type} {OK : OrdRing K}.
  Notation C := (Cx K).

  (** the measured qubits in increasing order *)
  Definition measured_order (n : Z) (indices : list Z) : list Z :=
    filter (fun q => existsb (Z.eqb q) indices) (zrange 0 n).
  (** the other qubits in increasing order *)
  Definition unmeasured_order (n : Z) (indices : list Z) : list Z :=
    filter (fun q => negb (existsb (Z.eqb q) indices)) (zrange 0 n).

  (** amplitude of basis state [x] in a slice stored from basis state [off] on (0 outside the slice) *)
  Definition amp_at (off : Z) (vec : list C) (x : Z) : C := znth 0%r vec (x - off).
  (** probability that the register [g] (first qubit most significant) has value [v] *)
  Definition marginal (n : Z) (g : list Z) (f : Z -> C) (v : Z) : K :=
    sum (zrange 0 (2 ^ n)) (fun x => if (reg n g x =? v) then cnorm2 (f x) else 0%r).
  (** sum of the probabilities of the outcomes below [v] *)
  Definition below (n : Z) (g : list Z) (f : Z -> C) (v : Z) : K := sum (zrange 0 v) (marginal n g f).
  (** total probability of a slice *)
  Definition tprob (vec : list C) : K := sum vec cnorm2.
  (** the slice lies inside the 2^n basis states *)
  Definition slice_ok (n off : Z) (vec : list C) : Prop := 0 <= off /\ zlen vec + off <= 2 ^ n.

  (** projection onto outcome m, scaled by s *)
  Definition collapsed (n : Z) (indices : list Z) (m : Z) (s : K) (f : Z -> C) (x : Z) : C :=
    if (reg n (measured_order n indices) x =? m) then (f x * creal s)%r else 0%r.

  (** a list of probabilities in decreasing order *)
  Fixpoint decreasing (l : list K) : Prop :=
    match l with [] => True | a :: l => (forall b, In b l -> rle b a) /\ decreasing l end.
End MeasureSpec.
From Verif Require Import M_Feed.
Section MeasureSpec2.
  Context {K : Type} {OK : OrdRing K}.
  (** a backend holding all 2^n amplitudes *)
  Definition full_backend (b : backend K) : Prop :=
    0 <= bk_n b /\ zlen (bk_state b) = 2 ^ bk_n b /\ zlen (bk_arena b) = 2 ^ bk_n b.
  (** probability of outcome m when measuring [indices]: m spells the measured qubits in increasing order *)
  Definition outcome (b : backend K) (indices : list Z) (m : Z) : K :=
    marginal (bk_n b) (measured_order (bk_n b) indices) (amp_at 0 (bk_state b)) m.
  (** [rand] is a draw for which the comparison threshold rand * T is in (0, T] *)
  Definition draw_ok (rand total : K) : Prop := rlt 0%r (rand * total)%r /\ rle (rand * total)%r total.
  (** forced measurement arguments outside their documented range *)
  Definition bad_arguments (indices : list Z) (measured : option Z) (measured_prob : option K) : Prop :=
    (exists m, measured = Some m /\ ~ 0 <= m < 2 ^ zlen indices) \/
    (exists p, measured_prob = Some p /\ ~ (rlt 0%r p /\ rle p 1%r)).
End MeasureSpec2.
