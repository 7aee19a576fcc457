(** Specification of operations: unitarity, textbook gates, adjoints. *)
From Verif Require Import Base S_Bits M_Kron S_Kron M_Ops.

Section OpSpec.
  Context {K : Type} {OK : OrdRing K}.
  Notation C := (Cx K).

  (** amplitude of basis state [r] *)
  Definition amp (v : list C) (r : Z) : C := znth 0%r v r.
  (** inner product <v|w> of two [n]-qubit states *)
  Definition inprod (n : Z) (v w : list C) : C := sum (zrange 0 (2 ^ n)) (fun r => (cconj (amp v r) * amp w r)%r).
  (** total probability *)
  Definition norm2 (n : Z) (v : list C) : K := sum (zrange 0 (2 ^ n)) (fun r => cnorm2 (amp v r)).

  (** [mats] applied to the full state [v] gives [W]: for some implementation, schedule of the parallel
      loop and previous content of the output array, kronselect_dot returns [W] *)
  Definition applied (n : Z) (mats : mats_arg K) (v W : list C) : Prop :=
    zlen v = 2 ^ n /\ exists out i, zlen out = 2 ^ n /\ impl_sched_ok i (zlen out) /\
    kronselect_dot mats v n out 0 0 i = Ok W.

  (** the groups of a dictionary are pairwise disjoint lists of distinct qubits *)
  Definition disjoint_groups (n : Z) (mats : mats_arg K) : Prop :=
    qubits_ok n (concat (map fst (mats_groups mats))).
  (** the qubits a dictionary touches *)
  Definition touched (mats : mats_arg K) : list Z := concat (map fst (mats_groups mats)).

  (** columns of the matrix are orthonormal *)
  Definition unitary (k : Z) (m : mat K) : Prop :=
    forall i j, 0 <= i < 2 ^ k -> 0 <= j < 2 ^ k ->
    sum (zrange 0 (2 ^ k)) (fun l => (cconj (mentry k m l i) * mentry k m l j)%r) = if (i =? j) then 1%r else 0%r.
  Definition all_unitary (mats : mats_arg K) : Prop :=
    forall k m, In (k, m) mats -> unitary (zlen (key_group k)) m.

  (** [m] is the matrix product b * a *)
  Definition is_product (k : Z) (b a m : mat K) : Prop :=
    forall i j, 0 <= i < 2 ^ k -> 0 <= j < 2 ^ k ->
    mentry k m i j = sum (zrange 0 (2 ^ k)) (fun l => (mentry k b i l * mentry k a l j)%r).
  (** [m'] is the conjugate transpose of [m] *)
  Definition is_adjoint (k : Z) (m m' : mat K) : Prop :=
    forall i j, 0 <= i < 2 ^ k -> 0 <= j < 2 ^ k -> mentry k m' i j = cconj (mentry k m j i).

  (** dictionaries with the same keys in the same order *)
  Definition same_keys (a b : mats_arg K) : Prop := map fst a = map fst b.
  (** pairing of three dictionaries entry by entry *)
  Definition products (b a p : mats_arg K) : Prop :=
    same_keys b a /\ same_keys p a /\
    forall j k mb ma mp, nth_error b j = Some (k, mb) -> nth_error a j = Some (k, ma) ->
      nth_error p j = Some (k, mp) -> is_product (zlen (key_group k)) mb ma mp.
  Definition adjoints (a d : mats_arg K) : Prop :=
    same_keys a d /\
    forall j k ma md, nth_error a j = Some (k, ma) -> nth_error d j = Some (k, md) ->
      is_adjoint (zlen (key_group k)) ma md.

  (** the same dictionary with the qubits of each group listed in another order: [pi] is a list of
      positions; position i of the new group is position pi[i] of the old one, and the matrix entries
      are renumbered in the same way *)
  Definition reordered (km km' : key * mat K) : Prop :=
    exists pi, let k := zlen (key_group (fst km)) in
      Permutation pi (zrange 0 k) /\
      key_group (fst km') = map (znth 0 (key_group (fst km))) pi /\
      forall i j, 0 <= i < 2 ^ k -> 0 <= j < 2 ^ k ->
        mentry k (snd km') (reg k pi i) (reg k pi j) = mentry k (snd km) i j.

  (** ** textbook single-qubit gates *)
  (** the basis state with qubit [q] flipped *)
  Definition flipped (n q r : Z) : Z := Z.lxor r (2 ^ (n - 1 - q)).
  (** [[a, b], [c, d]] applied to qubit [q] *)
  Definition apply1 (n : Z) (g : C * C * C * C) (q : Z) (v : Z -> C) (r : Z) : C :=
    let '(a, b, c, d) := g in
    if qbit n r q then (c * v (flipped n q r) + d * v r)%r else (a * v r + b * v (flipped n q r))%r.
  (** ... applied to each listed qubit *)
  Definition apply_each (n : Z) (g : C * C * C * C) (qs : list Z) (v : Z -> C) : Z -> C :=
    fold_right (apply1 n g) v qs.
  Definition gate_X : C * C * C * C := (0, 1, 1, 0)%r.
  Definition gate_Y : C * C * C * C := (0, - cxi, cxi, 0)%r.
  Definition gate_Z : C * C * C * C := (1, 0, 0, - (1))%r.
  Definition gate_H (h : K) : C * C * C * C := (creal h, creal h, creal h, - creal h)%r.
  Definition gate_R (e : C) : C * C * C * C := (1, 0, 0, e)%r.
  (** the textbook matrix of a single-qubit op *)
  Definition gate_of (o : op K) : option (C * C * C * C) :=
    match o with
    | ONot => Some gate_X | OY => Some gate_Y | OZ => Some gate_Z
    | OH h => Some (gate_H h) | OR e => Some (gate_R e)
    | _ => None
    end.

  (** X, Y, Z, H *)
  Definition self_inverse (o : op K) : Prop :=
    match o with ONot | OY | OZ | OH _ => True | _ => False end.
  (** how many of the listed qubits are 1 in basis state [r] *)
  Definition ones (n : Z) (qs : list Z) (r : Z) : Z := zlen (filter (qbit n r) qs).

  (** ** ops and the index groups of their inputs *)
  (** the index groups an op of this kind can have: one list of qubits per input *)
  Fixpoint op_fits (o : op K) (groups : list (list Z)) : Prop :=
    match o with
    | OSwap k => exists a b, groups = [a; b] /\ zlen a = k /\ zlen b = k
    | OC o => exists c gs, groups = [c] :: gs /\ op_fits o gs
    | _ => concat groups <> []
    end.
  (** the scalars of the op are what their formulas give: 2 * h^2 = 1 and |e| = 1 *)
  Fixpoint op_scalars_ok (o : op K) : Prop :=
    match o with
    | OH h => ((1 + 1) * (h * h) = 1)%r
    | OR e => cnorm2 e = 1%r
    | OC o => op_scalars_ok o
    | _ => True
    end.
  Fixpoint has_swap (o : op K) : bool :=
    match o with OSwap _ => true | OC o => has_swap o | _ => false end.

  (** C(C(...C(o)...)), one C per element of [cs], and the index groups of its inputs *)
  Definition controlled (cs : list Z) (o : op K) : op K := fold_right (fun _ o => OC o) o cs.
  Definition controlled_groups (cs : list Z) (groups : list (list Z)) : list (list Z) :=
    map (fun c => [c]) cs ++ groups.

  (** [s] is [r] with the values of registers [a] and [b] exchanged *)
  Definition swapped (n : Z) (a b : list Z) (r s : Z) : Prop :=
    reg n a s = reg n b r /\ reg n b s = reg n a r /\
    forall q, 0 <= q < n -> ~ In q a -> ~ In q b -> qbit n s q = qbit n r q.
End OpSpec.
