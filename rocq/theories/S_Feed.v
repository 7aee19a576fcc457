(** Specification of initial states. Only the types of feeds and backends come from the model. *)
From Verif Require Import Base S_Bits M_Feed.

Section FeedSpec.
  Context {K : Type} {RK : CRing K}.
  Notation C := (Cx K).

  (** one register (its qubits, first most significant) with the amplitudes it is fed *)
  Local Notation fed := (list Z * list C)%type.
  (** every register is fed one amplitude per basis state, and the registers use distinct qubits *)
  Definition feeds_ok (n : Z) (fs : list fed) : Prop :=
    qubits_ok n (concat (map fst fs)) /\ forall g a, In (g, a) fs -> zlen a = 2 ^ zlen g.
  (** the amplitude of basis state x: the product of the registers' amplitudes, qubits that are not fed are 0 *)
  Definition fed_amp (n : Z) (fs : list fed) (x : Z) : C :=
    if forallb (fun q => existsb (Z.eqb q) (concat (map fst fs)) || negb (qbit n x q)) (zrange 0 n)
    then prod fs (fun f => znth 0%r (snd f) (reg n (fst f) x)) else 0%r.
  (** total probability of a vector *)
  Definition total (a : list C) : K := sum a cnorm2.
End FeedSpec.
Definition fed_groups {K} (fs : list (list Z * list (Cx K))) : list (list Z) := map fst fs.
Definition fed_list {K} (fs : list (list Z * list (Cx K))) : list (feed_t K) := map (fun f => FArr (snd f)) fs.
