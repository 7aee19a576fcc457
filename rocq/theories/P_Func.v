(** Property C27: F(f). *)
From Coq Require Import Permutation.
From Verif Require Import Base S_Bits M_Feed M_Func S_Func S_Measure L_Func2.

Definition exfn (n : Z) : backend Z := mkBackend n (map (fun x => (x + 1, - x)) (zrange 0 (2 ^ n))) (map (fun x => (9, x)) (zrange 0 (2 ^ n))).

(** what fxor does to the registers: reg1 and the other qubits keep their values, f(reg1) is xored into reg2 *)
Theorem C27_fxor : forall n reg1 reg2 f x, 0 <= n -> qubits_ok n (reg1 ++ reg2) ->
  reg n reg1 (fxor n reg1 reg2 f x) = reg n reg1 x /\
  reg n reg2 (fxor n reg1 reg2 f x) = Z.lxor (reg n reg2 x) (f (reg n reg1 x) mod 2 ^ zlen reg2) /\
  (forall q, 0 <= q < n -> ~ In q reg2 -> qbit n (fxor n reg1 reg2 f x) q = qbit n x q).
Proof. exact fxor_regs. Qed.
Print Assumptions C27_fxor.
Theorem C27_involution : forall n reg1 reg2 f x, 0 <= n -> qubits_ok n (reg1 ++ reg2) -> 0 <= x < 2 ^ n ->
  fxor n reg1 reg2 f (fxor n reg1 reg2 f x) = x.
Proof. exact fxor_invol. Qed.
Print Assumptions C27_involution.
(** proved when exactly |reg2| qubits are in neither register, for every order of the parallel loop *)
Theorem C27_action_partial : forall {K} {OK : OrdRing K} m sched (b : backend K) reg1 reg2 f func io oo,
  full_backend b -> qubits_ok (bk_n b) (reg1 ++ reg2) ->
  zlen (others (bk_n b) reg1 reg2) = zlen reg2 ->
  Permutation sched (zrange 0 (2 ^ zlen reg1)) ->
  (forall x, 0 <= x < 2 ^ zlen reg1 -> func x = Ok (f x)) ->
  exists b', bk_func_apply m sched b reg1 reg2 func io oo = Ok b' /\ full_backend b' /\ bk_n b' = bk_n b /\
    (forall x, 0 <= x < 2 ^ bk_n b ->
       amp_at 0 (bk_state b') (fxor (bk_n b) reg1 reg2 f x) = amp_at 0 (bk_state b) x) /\
    tprob (bk_state b') = tprob (bk_state b).
Proof. exact (fun _ _ m sched b r1 r2 f func io oo HB HI HL => bk_func_ok m sched b r1 r2 f func io oo HB HI (or_introl HL)). Qed.
Print Assumptions C27_action_partial.
Example C27_ex : full_backend (exfn 3) /\ qubits_ok 3 ([1] ++ [2]) /\ zlen (others 3 [1] [2]) = zlen [2] /\
  Permutation [1; 0] (zrange 0 (2 ^ zlen [1])) /\
  bk_func_apply strict [1; 0] (exfn 3) [1] [2] (fun x => Ok (x + 1)) 3 0
  = Ok (mkBackend 3 [(2, -1); (1, 0); (3, -2); (4, -3); (6, -5); (5, -4); (7, -6); (8, -7)] (bk_state (exfn 3))).
Proof.
  split; [repeat split; discriminate|]. split; [|split; [reflexivity|split; [constructor|reflexivity]]].
  split; [cbn; repeat constructor; cbn; intuition discriminate|]. cbn. intros q [<-|[<-|[]]]; lia.
Qed.
(** with no qubit outside the registers the code reads past the end of other_indices, but whatever it finds there the result
    is right, on every machine where those reads do not crash and 0 shifted is 0 *)
Theorem C27_all_qubits_partial : forall {K} {OK : OrdRing K} m sched (b : backend K) reg1 reg2 f func io oo,
  full_backend b -> qubits_ok (bk_n b) (reg1 ++ reg2) ->
  others (bk_n b) reg1 reg2 = [] -> tame m ->
  Permutation sched (zrange 0 (2 ^ zlen reg1)) ->
  (forall x, 0 <= x < 2 ^ zlen reg1 -> func x = Ok (f x)) ->
  exists b', bk_func_apply m sched b reg1 reg2 func io oo = Ok b' /\ full_backend b' /\ bk_n b' = bk_n b /\
    (forall x, 0 <= x < 2 ^ bk_n b ->
       amp_at 0 (bk_state b') (fxor (bk_n b) reg1 reg2 f x) = amp_at 0 (bk_state b) x) /\
    tprob (bk_state b') = tprob (bk_state b).
Proof. exact @bk_func_all. Qed.
Print Assumptions C27_all_qubits_partial.
Example C27_all_qubits_ex : others 2 [0] [1] = [] /\ tame (mkMachine (fun j => Ok (j * 17 - 40)) (fun r b => Ok 0) (fun b => Ok (b + 3))) /\
  bk_func_apply (mkMachine (fun j => Ok (j * 17 - 40)) (fun r b => Ok 0) (fun b => Ok (b + 3))) [0; 1] (exfn 2) [0] [1] (fun x => Ok x) 2 0
  = Ok (mkBackend 2 [(1, 0); (2, -1); (4, -3); (3, -2)] (bk_state (exfn 2))).
Proof. split; [reflexivity|]. split; [repeat split; intros; eexists; reflexivity|reflexivity]. Qed.
(** with at least one and fewer than |reg2| qubits outside the registers it depends on what lies behind the array: right when
    the masks made from it hit none of those qubits *)
Theorem C27_few_partial : forall {K} {OK : OrdRing K} m sched (b : backend K) reg1 reg2 f func io oo,
  full_backend b -> qubits_ok (bk_n b) (reg1 ++ reg2) ->
  zlen (others (bk_n b) reg1 reg2) <= zlen reg2 -> harmless m (bk_n b) (others (bk_n b) reg1 reg2) ->
  Permutation sched (zrange 0 (2 ^ zlen reg1)) ->
  (forall x, 0 <= x < 2 ^ zlen reg1 -> func x = Ok (f x)) ->
  exists b', bk_func_apply m sched b reg1 reg2 func io oo = Ok b' /\ full_backend b' /\ bk_n b' = bk_n b /\
    (forall x, 0 <= x < 2 ^ bk_n b ->
       amp_at 0 (bk_state b') (fxor (bk_n b) reg1 reg2 f x) = amp_at 0 (bk_state b) x) /\
    tprob (bk_state b') = tprob (bk_state b).
Proof. exact (fun _ _ m sched b r1 r2 f func io oo HB HI H1 H2 => bk_func_ok m sched b r1 r2 f func io oo HB HI (or_intror (conj H1 H2))). Qed.
Print Assumptions C27_few_partial.
Example C27_few_ex : harmless (mkMachine (fun _ => Ok 3) (fun _ _ => Ok 0) (fun b => Ok (2 ^ b))) 4 (others 4 [0] [1; 3]) /\
  zlen (others 4 [0] [1; 3]) < zlen [1; 3].
Proof.
  split; [|reflexivity]. split; [|reflexivity]. intros j _. exists 3, 1. split; [reflexivity|]. split; [reflexivity|]. cbn. intros p [<-|[]]. reflexivity.
Qed.
(** and wrong when the memory holds the number p of one of those qubits: all amplitudes with qubit p set are lost *)
Theorem C27_garbage_refuted : forall {K} {OK : OrdRing K} sched (b : backend K) reg1 reg2 f func io oo p,
  full_backend b -> qubits_ok (bk_n b) (reg1 ++ reg2) ->
  zlen (others (bk_n b) reg1 reg2) < zlen reg2 -> In p (others (bk_n b) reg1 reg2) ->
  Permutation sched (zrange 0 (2 ^ zlen reg1)) ->
  (forall x, 0 <= x < 2 ^ zlen reg1 -> func x = Ok (f x)) ->
  exists b', bk_func_apply (unlucky p) sched b reg1 reg2 func io oo = Ok b' /\
    forall x, 0 <= x < 2 ^ bk_n b -> qbit (bk_n b) x p = true -> amp_at 0 (bk_state b') (fxor (bk_n b) reg1 reg2 f x) = 0%r.
Proof. exact @bk_func_unlucky. Qed.
Print Assumptions C27_garbage_refuted.
Example C27_garbage_ex : In 2 (others 4 [0] [1; 3]) /\ zlen (others 4 [0] [1; 3]) < zlen [1; 3] /\
  bk_func_apply (unlucky 2) [0; 1] (exfn 4) [0] [1; 3] (fun x => Ok 0) 4 0
  = Ok (mkBackend 4 [(1, 0); (2, -1); (0, 0); (0, 0); (5, -4); (6, -5); (0, 0); (0, 0); (9, -8); (10, -9); (0, 0); (0, 0); (13, -12); (14, -13); (0, 0); (0, 0)]
          (bk_state (exfn 4))).
Proof. split; [left; reflexivity|]. split; reflexivity. Qed.
(** with more qubits outside the registers, the amplitudes of all states in which one of the last of them is 1
    are lost *)
Theorem C27_dropped_refuted : forall {K} {OK : OrdRing K} m sched (b : backend K) reg1 reg2 f func io oo,
  full_backend b -> qubits_ok (bk_n b) (reg1 ++ reg2) ->
  zlen reg2 <= zlen (others (bk_n b) reg1 reg2) ->
  Permutation sched (zrange 0 (2 ^ zlen reg1)) ->
  (forall x, 0 <= x < 2 ^ zlen reg1 -> func x = Ok (f x)) ->
  bk_func_apply m sched b reg1 reg2 func io oo
  = Ok (mkBackend (bk_n b)
          (map (fun t => if (reg (bk_n b) (skipn (Z.to_nat (zlen reg2)) (others (bk_n b) reg1 reg2)) t =? 0)
                         then amp_at 0 (bk_state b) (fxor (bk_n b) reg1 reg2 f t) else 0%r)
               (zrange 0 (2 ^ bk_n b))) (bk_state b)).
Proof. exact (fun _ _ m sched b r1 r2 f func io oo HB HI HL => bk_func_drop m sched b r1 r2 f func io oo HB HI (or_introl HL)). Qed.
Print Assumptions C27_dropped_refuted.
Example C27_dropped_ex : zlen (others 4 [1] [3]) = 2 /\
  bk_func_apply strict [0; 1] (exfn 4) [1] [3] (fun x => Ok x) 4 0
  = Ok (mkBackend 4 [(1, 0); (2, -1); (0, 0); (0, 0); (6, -5); (5, -4); (0, 0); (0, 0);
                     (9, -8); (10, -9); (0, 0); (0, 0); (14, -13); (13, -12); (0, 0); (0, 0)] (bk_state (exfn 4))).
Proof. split; reflexivity. Qed.
(** with fewer qubits outside the registers, the code reads outside other_indices; this is undefined behaviour *)
Theorem C27_out_of_bounds_refuted : forall {K} {OK : OrdRing K} sched (b : backend K) reg1 reg2 f func io oo,
  full_backend b -> qubits_ok (bk_n b) (reg1 ++ reg2) ->
  zlen (others (bk_n b) reg1 reg2) < zlen reg2 ->
  Permutation sched (zrange 0 (2 ^ zlen reg1)) ->
  (forall x, 0 <= x < 2 ^ zlen reg1 -> func x = Ok (f x)) ->
  bk_func_apply strict sched b reg1 reg2 func io oo = Raise OOB.
Proof. exact @bk_func_oob. Qed.
Print Assumptions C27_out_of_bounds_refuted.
Example C27_out_of_bounds_ex : zlen (others 2 [0] [1]) = 0 /\
  bk_func_apply strict [0; 1] (exfn 2) [0] [1] (fun x => Ok x) 2 0 = Raise OOB.
Proof. split; reflexivity. Qed.
