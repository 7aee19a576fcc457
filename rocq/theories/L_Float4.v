(** Rounding errors: distances of states. *)
From Coq Require Import Reals Lra.
From Verif Require Import Base BaseR S_Bits M_Bits L_Bits M_Kron S_Kron L_Kron L_Kron2 L_Kron3 L_Alg M_Ops S_Ops L_Ops1 L_Ops2 L_Ops3 L_Ops4 M_Float S_Float L_Float1 L_Float2 L_Float3.
Local Open Scope Z_scope.

Lemma sumR_scale {I} (l : list I) k (f : I -> R) : sum l (fun i => (k * f i)%R) = (k * sum l f)%R.
Proof. exact (sum_mul_l l k f). Qed.

(** ** euclidean norms *)
Definition l2 (l : list Z) (f : Z -> R) : R := sqrt (sum l (fun r => (f r * f r)%R)).
Lemma sq_pos (x : R) : (0 <= x * x)%R.
Proof. nra. Qed.
Lemma sumsq_pos l (f : Z -> R) : (0 <= sum l (fun r => (f r * f r)%R))%R.
Proof. apply sumR_pos. intros. apply sq_pos. Qed.
Lemma l2_pos l f : (0 <= l2 l f)%R.
Proof. apply sqrt_pos. Qed.
Lemma l2_sq l f : (l2 l f * l2 l f = sum l (fun r => (f r * f r)%R))%R.
Proof. apply sqrt_sqrt. apply sumsq_pos. Qed.
Lemma sq_le a b : (0 <= b -> a * a <= b * b -> a <= b)%R.
Proof. intros Hb H. destruct (Rle_dec a b); auto. exfalso. nra. Qed.
Lemma cauchy l (f g : Z -> R) : (sum l (fun r => (f r * g r)%R) <= l2 l f * l2 l g)%R.
Proof.
  assert (G : (sum l (fun r => (f r * g r)%R) * sum l (fun r => (f r * g r)%R)
    <= sum l (fun r => (f r * f r)%R) * sum l (fun r => (g r * g r)%R))%R).
  { induction l as [|i l IH]; [rewrite !sumR_nil; lra|]. rewrite !sumR_cons.
    pose proof (sumsq_pos l f) as HA. pose proof (sumsq_pos l g) as HB.
    set (A := sum l (fun r => (f r * f r)%R)) in *. set (B := sum l (fun r => (g r * g r)%R)) in *.
    set (D := sum l (fun r => (f r * g r)%R)) in *. set (x := f i). set (y := g i).
    assert (HD : (2 * (D * (x * y)) <= A * (y * y) + B * (x * x))%R).
    { apply sq_le.
      - pose proof (Rmult_le_pos _ _ HA (sq_pos y)). pose proof (Rmult_le_pos _ _ HB (sq_pos x)). lra.
      - pose proof (Rmult_le_compat_r ((x * y) * (x * y)) _ _ (sq_pos (x * y)) IH) as M.
        pose proof (sq_pos (A * (y * y) - B * (x * x))). nra. }
    nra. }
  apply sq_le.
  - apply Rmult_le_pos; apply l2_pos.
  - pose proof (l2_sq l f) as E1. pose proof (l2_sq l g) as E2.
    replace (l2 l f * l2 l g * (l2 l f * l2 l g))%R with ((l2 l f * l2 l f) * (l2 l g * l2 l g))%R by ring. rewrite E1, E2. exact G.
Qed.
Lemma l2_ext l f g : (forall r, In r l -> (f r * f r = g r * g r)%R) -> l2 l f = l2 l g.
Proof. intros H. unfold l2. f_equal. apply sum_ext. exact H. Qed.
Lemma l2_mono l f g : (forall r, In r l -> (0 <= f r <= g r)%R) -> (l2 l f <= l2 l g)%R.
Proof. intros H. apply sqrt_le_1_alt. apply sumR_le. intros r Hr. specialize (H r Hr). apply Rmult_le_compat; lra. Qed.
Lemma l2_add l f g : (l2 l (fun r => (f r + g r)%R) <= l2 l f + l2 l g)%R.
Proof.
  pose proof (l2_pos l f). pose proof (l2_pos l g). apply sq_le; [lra|]. rewrite l2_sq.
  rewrite (sum_ext l _ (fun r => ((f r * f r + 2 * (f r * g r)) + g r * g r)%R)) by (intros; ring).
  rewrite !sumR_add, sumR_scale. pose proof (cauchy l f g). pose proof (l2_sq l f). pose proof (l2_sq l g). nra.
Qed.
Lemma l2_scale l k f : (0 <= k)%R -> l2 l (fun r => (k * f r)%R) = (k * l2 l f)%R.
Proof.
  intros Hk. unfold l2. rewrite (sum_ext l _ (fun r => ((k * k) * (f r * f r))%R)) by (intros; ring).
  rewrite sumR_scale, sqrt_mult_alt by apply sq_pos. f_equal. apply sqrt_square; auto.
Qed.
(** (a sum of N terms)^2 is at most N times the sum of the squares *)
Lemma sum_sq l (f : Z -> R) : (sum l f * sum l f <= INR (length l) * sum l (fun r => (f r * f r)%R))%R.
Proof.
  pose proof (cauchy l f (fun _ => 1%R)) as H1. pose proof (cauchy l (fun r => (- f r)%R) (fun _ => 1%R)) as H2.
  rewrite (l2_ext l (fun r => (- f r)%R) f) in H2 by (intros; ring).
  rewrite (sum_ext l _ f) in H1 by (intros; ring).
  rewrite (sum_ext l _ (fun r => (-1 * f r)%R)) in H2 by (intros; ring). rewrite sumR_scale in H2.
  pose proof (l2_sq l f) as E. pose proof (l2_sq l (fun _ => 1%R)) as E1.
  rewrite (sum_ext l _ (fun _ => 1%R)) in E1 by (intros; ring). rewrite sumR_const in E1.
  rewrite <- E. replace (INR (length l)) with (l2 l (fun _ => 1%R) * l2 l (fun _ => 1%R))%R by lra.
  pose proof (l2_pos l f). pose proof (l2_pos l (fun _ => 1%R)).
  pose proof (Rmult_le_pos _ _ H H0). set (P := (l2 l f * l2 l (fun _ => 1%R))%R) in *.
  replace (l2 l (fun _ => 1%R) * l2 l (fun _ => 1%R) * (l2 l f * l2 l f))%R with (P * P)%R by (unfold P; ring). nra.
Qed.

(** ** absolute values of complex numbers *)
Definition cnorm (z : CR) : R := sqrt (cnorm2 z).
Lemma cnorm2_R (z : CR) : cnorm2 z = (fst z * fst z + snd z * snd z)%R.
Proof. reflexivity. Qed.
Lemma cnorm2_pos (z : CR) : (0 <= cnorm2 z)%R.
Proof. rewrite cnorm2_R. pose proof (sq_pos (fst z)). pose proof (sq_pos (snd z)). lra. Qed.
Lemma cnorm_pos z : (0 <= cnorm z)%R.
Proof. apply sqrt_pos. Qed.
Lemma cnorm_sq z : (cnorm z * cnorm z = cnorm2 z)%R.
Proof. apply sqrt_sqrt. apply cnorm2_pos. Qed.
Lemma cnorm_l2 z : cnorm z = l2 [0; 1] (fun i => if i =? 0 then fst z else snd z).
Proof. unfold cnorm, l2. f_equal. rewrite !sumR_cons, sumR_nil, cnorm2_R. cbn. ring. Qed.
Lemma cnorm_add a b : (cnorm (a + b)%r <= cnorm a + cnorm b)%R.
Proof.
  rewrite !cnorm_l2. eapply Rle_trans; [|apply l2_add]. apply Req_le. apply l2_ext. intros i [<-|[<-|[]]]; reflexivity.
Qed.
Lemma cnorm_cabs1 z : (cnorm z <= cabs1 z)%R.
Proof.
  apply sq_le; [apply cabs1_pos|]. rewrite cnorm_sq, cnorm2_R. unfold cabs1.
  pose proof (Rabs_pos (fst z)). pose proof (Rabs_pos (snd z)).
  pose proof (Rsqr_abs (fst z)) as E1. pose proof (Rsqr_abs (snd z)) as E2. unfold Rsqr in *. nra.
Qed.
Lemma cabs1_cnorm z : (cabs1 z <= 3 / 2 * cnorm z)%R.
Proof.
  pose proof (cnorm_pos z). apply sq_le; [lra|]. pose proof (cnorm_sq z) as E. rewrite cnorm2_R in E. unfold cabs1.
  pose proof (Rsqr_abs (fst z)) as E1. pose proof (Rsqr_abs (snd z)) as E2. unfold Rsqr in *.
  pose proof (sq_pos (Rabs (fst z) - Rabs (snd z))). pose proof (sq_pos (Rabs (fst z))). pose proof (sq_pos (Rabs (snd z))). nra.
Qed.

(** ** states *)
Definition vnorm (n : Z) (f : Z -> CR) : R := l2 (zrange 0 (2 ^ n)) (fun r => cnorm (f r)).
Lemma vnorm_sq n f : (vnorm n f * vnorm n f = sum (zrange 0 (2 ^ n)) (fun r => cnorm2 (f r)))%R.
Proof. unfold vnorm. rewrite l2_sq. apply sum_ext. intros. apply cnorm_sq. Qed.
Lemma vnorm_pos n f : (0 <= vnorm n f)%R.
Proof. apply l2_pos. Qed.
Lemma vnorm_ext n f g : (forall r, 0 <= r < 2 ^ n -> f r = g r) -> vnorm n f = vnorm n g.
Proof. intros H. apply l2_ext. intros r Hr. apply in_zrange in Hr. rewrite H; auto. Qed.
Lemma vnorm_add n f g : (vnorm n (fun r => (f r + g r)%r) <= vnorm n f + vnorm n g)%R.
Proof.
  eapply Rle_trans; [|apply l2_add]. apply l2_mono. intros r _. split; [apply cnorm_pos|apply cnorm_add].
Qed.
Lemma dist_vnorm n v x : dist n v x = vnorm n (fun r => (amp v r - amp x r)%r).
Proof. unfold dist, vnorm, l2. f_equal. apply sum_ext. intros. symmetry. apply cnorm_sq. Qed.
Lemma norm2_vnorm n v : norm2 n v = (vnorm n (amp v) * vnorm n (amp v))%R.
Proof. rewrite vnorm_sq. reflexivity. Qed.
Lemma vnorm_inner n f : inner n f f = creal (vnorm n f * vnorm n f)%R.
Proof. rewrite vnorm_sq. unfold inner. rewrite <- sum_creal. apply sum_ext. intros. apply cconj_norm. Qed.
Lemma isometry_vnorm n X f : isometry n X -> vnorm n (mapply n X f) = vnorm n f.
Proof.
  intros H. pose proof (isometry_inner n X f f H) as E. rewrite !vnorm_inner in E. apply creal_inj in E.
  pose proof (vnorm_pos n f). pose proof (vnorm_pos n (mapply n X f)). nra.
Qed.
