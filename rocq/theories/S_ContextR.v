(** Specification of the discrete Fourier transform over the complex numbers. *)
From Coq Require Import Reals.
From Verif Require Import Base BaseR S_Bits.
Local Open Scope Z_scope.

(** The register [ins] of [n] qubits (first qubit most significant), k = its size: the amplitude at the basis state [r] is
    1/sqrt(2^k) * sum over x < 2^k of exp(2 pi i x y / 2^k) * v(r with x in ins), y being what [r] has in [outs]. *)
Definition dft_R (n : Z) (ins outs : list Z) (v : Z -> Cx R) (r : Z) : Cx R :=
  let k := zlen ins in let y := reg n outs r in
  ((1 / sqrt (IZR (2 ^ k)), 0)%R *
   sum (zrange 0 (2 ^ k)) (fun x =>
     let t := (2 * PI * IZR (x * y) / IZR (2 ^ k))%R in (cos t, sin t) * v (setreg n ins r x)))%r.
