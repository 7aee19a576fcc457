(** Specification of F(f). Models no code. *)
From Verif Require Import Base S_Bits M_Func.

(** |x>|q>|r> becomes |x>|f(x) xor q>|r>; f(x) is cut to the size of the second register *)
Definition fxor (n : Z) (reg1 reg2 : list Z) (f : Z -> Z) (s : Z) : Z :=
  setreg n reg2 s (Z.lxor (reg n reg2 s) (f (reg n reg1 s) mod 2 ^ zlen reg2)).
(** the qubits in neither register, in increasing order *)
Definition others (n : Z) (reg1 reg2 : list Z) : list Z :=
  filter (fun q => negb (existsb (Z.eqb q) (reg1 ++ reg2))) (zrange 0 n).

(** a machine on which reading past the end of other_indices and shifting by a negative amount do no harm: the accesses
    succeed, shifts of r (0 <= r < 2^k for the k other qubits) by a negative amount give bit 0, and the masks made from the
    values read hit none of the other qubits *)
Definition harmless (m : machine) (n : Z) (oth : list Z) : Prop :=
  (forall j, zlen oth <= j -> exists q mask, u_read m j = Ok q /\ u_mask m (n - 1 - q) = Ok mask /\
     forall p, In p oth -> Z.testbit mask (n - 1 - p) = false) /\
  (forall r b, 0 <= r < 2 ^ zlen oth -> b < 0 -> u_bit m r b = Ok 0).
(** all garbage is 0 *)
Definition calm : machine := mkMachine (fun _ => Ok 0) (fun _ _ => Ok 0) (fun _ => Ok 0).
(** a machine on which no access crashes and shifting 0 gives 0: reality, unless memory protection intervenes *)
Definition tame (m : machine) : Prop :=
  (forall j, exists q, u_read m j = Ok q) /\ (forall b, u_bit m 0 b = Ok 0) /\ (forall b, exists mask, u_mask m b = Ok mask).
