(** C93: whole runs with rounding errors: feeding, gates, functions and measurements. *)
From Coq Require Import Reals Lra.
From Verif Require Import Base BaseR S_Bits M_Bits M_Kron S_Kron M_Ops S_Ops M_Feed S_Feed M_Measure S_Measure M_Float S_Float M_FloatMeasure S_FloatMeasure M_FloatRun S_FloatRun L_Float4 L_Gates M_Gates L_FloatRun1 L_FloatRun2 L_FloatRun3.
Local Open Scope Z_scope.

(** the initial state is the product of the registers up to the errors of the stored amplitudes and of multiplying them *)
Theorem C93_start : forall u w n fs' fs st,
  (0 <= u)%R -> (0 <= w)%R -> 0 <= n -> same_registers fs' fs -> feeds_ok n fs -> (forall g a, In (g, a) fs -> total a = 1%R) ->
  fmake_state u w n (fed_groups fs') (fed_list fs') st ->
  zlen st = 2 ^ n /\ (dist n st (meant n fs) <= start_error u w n fs' fs)%R.
Proof. exact start_near. Qed.
Print Assumptions C93_start.

(** a run from a feed: given the outcomes of its measurements, the state is at most d from the one without rounding *)
Theorem C93_run : forall u w delta n fs' fs is ops rs st V' d V,
  (0 <= u <= 1 / 4)%R -> (0 <= w <= 1 / 2)%R -> (0 <= delta)%R -> 0 <= n ->
  same_registers fs' fs -> feeds_ok n fs -> (forall g a, In (g, a) fs -> total a = 1%R) -> Forall2 (stands_for delta n) is ops ->
  fmake_state u w n (fed_groups fs') (fed_list fs') st -> frun u w n ops st rs V' ->
  ideal (step_error u w delta n) (collapse_error u w n) (fun P => (4 * prob_error u w n (P / 2) <= P)%R) n is rs
    (start_error u w n fs' fs) (meant n fs) d V ->
  (dist n V' V <= d)%R /\ norm2 n V = 1%R /\ zlen V' = 2 ^ n.
Proof.
  exact (fun u w delta n fs' fs is ops rs st V' d V Hu Hw Hd Hn HS HF H1 HO HM HR HI =>
    whole_run u w delta _ _ _ n fs' fs is ops rs st V' d V Hu Hw Hd Hn (fun _ _ H => conj H (Rle_refl _)) (fun _ _ => Rle_refl _)
      HS HF H1 HO HM HR HI).
Qed.
Print Assumptions C93_run.

(** what is measured in such a state: the outcome is the one the Born rule gives for the exact state, unless the draw is close to
    the ends of its interval, and the reported probability is close to the exact one *)
Theorem C93_draw : forall u w n indices rand (V V' : list (Cx R)) m p d,
  (0 <= u)%R -> (0 <= w)%R -> 0 <= n -> qubits_ok n indices -> (0 <= rand <= 1)%R ->
  zlen V' = 2 ^ n -> norm2 n V = 1%R -> (dist n V' V <= d)%R -> fsoft_measure u w rand indices n V' 0 (m, p) ->
  let P := marginal n (measured_order n indices) (amp_at 0 V) m in
  drawn n indices V rand m p (2 * (2 + d) * d + draw_error u w n (zlen indices) ((1 + d) * (1 + d)))%R
    ((2 + d) * d + prob_error u w n (P + (2 + d) * d))%R.
Proof. exact next_measured. Qed.
Print Assumptions C93_draw.

(** what a run reports: whenever the operations before an operation leave the rounded state at most d from the exact one, its
    outcome is drawn as in the exact state and the probabilities it reports are the exact ones, up to errors *)
Theorem C93_reports : forall u w delta n fs' fs is1 i is2 ops1 o ops2 rs1 r rs2 st V' d V,
  (0 <= u <= 1 / 4)%R -> (0 <= w <= 1 / 2)%R -> (0 <= delta)%R -> 0 <= n ->
  same_registers fs' fs -> feeds_ok n fs -> (forall g a, In (g, a) fs -> total a = 1%R) ->
  Forall2 (stands_for delta n) is1 ops1 -> Forall2 (stands_for delta n) (i :: is2) (o :: ops2) -> length ops1 = length rs1 ->
  fmake_state u w n (fed_groups fs') (fed_list fs') st -> frun u w n (ops1 ++ o :: ops2) st (rs1 ++ r :: rs2) V' ->
  ideal (step_error u w delta n) (collapse_error u w n) (fun P => (4 * prob_error u w n (P / 2) <= P)%R) n is1 rs1
    (start_error u w n fs' fs) (meant n fs) d V ->
  reported u w n V d o r.
Proof. exact run_reports. Qed.
Print Assumptions C93_reports.

(** on doubles, for at most 40 qubits and gates on at most two: every gate adds at most 2^-45, every measurement 2^n / 2^47 *)
Theorem C93_double : forall n fs' fs is ops rs st V' d V,
  0 <= n <= 40 -> (forall mats, In (IGate mats) is -> length mats = 1%nat /\ (width mats <= 2)%nat) ->
  same_registers fs' fs -> feeds_ok n fs -> (forall g a, In (g, a) fs -> total a = 1%R) -> Forall2 (stands_for (/ 2 ^ 49) n) is ops ->
  fmake_state (/ 2 ^ 53) (/ 2 ^ 969) n (fed_groups fs') (fed_list fs') st -> frun (/ 2 ^ 53) (/ 2 ^ 969) n ops st rs V' ->
  ideal (fun _ => (/ 2 ^ 45)%R) (fun _ => (IZR (2 ^ n) / 2 ^ 47)%R) (fun P => (/ 2 ^ 800 <= P)%R) n is rs
    (start_error (/ 2 ^ 53) (/ 2 ^ 969) n fs' fs) (meant n fs) d V ->
  (dist n V' V <= d)%R /\ norm2 n V = 1%R /\ zlen V' = 2 ^ n.
Proof. exact double_run. Qed.
Print Assumptions C93_double.

(** the exact initial state is a possible one *)
Theorem C93_start_possible : forall u w junk n groups feeds b,
  (0 <= u)%R -> (0 <= w)%R -> 0 <= n -> qubits_ok n (concat groups) ->
  make_state junk n groups feeds None None None None = Ok b -> fmake_state u w n groups feeds (bk_state b).
Proof. exact (fun u w junk n groups feeds b Hu Hw => start_possible u w Hu Hw junk n groups feeds b). Qed.
Print Assumptions C93_start_possible.

(** qubit 0 of two is fed the double nearest to 1/sqrt 2 twice, a controlled not, then qubit 1 is measured: the run exists, all
    the conditions hold and the bound is below 2^-40 *)
Example C93_ex : exists m p st V' d V,
  same_registers (exr_feed exr_h) (exr_feed (1 / sqrt 2)) /\ feeds_ok 2 (exr_feed (1 / sqrt 2)) /\
  (forall g a, In (g, a) (exr_feed (1 / sqrt 2)) -> total a = 1%R) /\
  Forall2 (stands_for (/ 2 ^ 49) 2) [IGate exr_cn; IMeasure [1]] [FGate exr_cn; FMeasure (1 / 2) [1]] /\
  fmake_state (/ 2 ^ 53) (/ 2 ^ 969) 2 (fed_groups (exr_feed exr_h)) (fed_list (exr_feed exr_h)) st /\
  frun (/ 2 ^ 53) (/ 2 ^ 969) 2 [FGate exr_cn; FMeasure (1 / 2) [1]] st [RNone; RMeasured m p] V' /\
  ideal (fun _ => (/ 2 ^ 45)%R) (fun _ => (IZR (2 ^ 2) / 2 ^ 47)%R) (fun P => (/ 2 ^ 800 <= P)%R) 2 [IGate exr_cn; IMeasure [1]] [RNone; RMeasured m p]
    (start_error (/ 2 ^ 53) (/ 2 ^ 969) 2 (exr_feed exr_h) (exr_feed (1 / sqrt 2))) (meant 2 (exr_feed (1 / sqrt 2))) d V /\
  (dist 2 V' V <= / 2 ^ 40)%R.
Proof.
  destruct exr_run as (m & p & st & V' & d & V & H1 & H2 & H3 & H4). exists m, p, st, V', d, V.
  assert (HS : same_registers (exr_feed exr_h) (exr_feed (1 / sqrt 2))) by (constructor; [split; reflexivity|constructor]).
  assert (HT : forall g a, In (g, a) (exr_feed (1 / sqrt 2)) -> total a = 1%R).
  { intros g a [E|[]]. injection E as <- <-. transitivity (2 * (1 / sqrt 2 * (1 / sqrt 2)))%R; [|rewrite exr_half; lra].
    set (h := (1 / sqrt 2)%R). cbv -[Rplus Rmult Ropp Rminus IZR R h]. ring. }
  assert (HO : Forall2 (stands_for (/ 2 ^ 49) 2) [IGate exr_cn; IMeasure [1]] [FGate exr_cn; FMeasure (1 / 2) [1]]).
  { constructor; [|constructor; [|constructor]].
    - split; [right; exists (OC ONot), [[0]; [1]]; split; [exists 0, [[1]]; split; [reflexivity|discriminate]|];
        split; [split; [repeat constructor; cbn; lia|cbn; intros; lia]|split; [exact I|reflexivity]]|].
      split; [apply exr_accepts|]. split; [reflexivity|]. intros j k a a' E E'. rewrite E in E'. injection E' as <-. cbv zeta.
      intros x y _ _. set (z := mentry _ _ x y). destruct z as [z1 z2].
      change (Rabs (z1 - z1) + Rabs (z2 - z2) <= / 2 ^ 49)%R. rewrite !Rminus_eq_0, Rabs_R0.
      assert (0 < / 2 ^ 49)%R by (apply Rinv_0_lt_compat, pow_lt; lra). lra.
    - split; [reflexivity|]. split; [split; [repeat constructor; cbn; tauto|cbn; intros; lia]|lra]. }
  repeat (split; [first [exact HS|exact (exr_ok _)|exact HT|exact HO|exact H1|exact H2|exact H3]|]).
  refine (Rle_trans _ _ _ (proj1 (C93_double 2 _ _ _ _ _ _ _ _ _ ltac:(lia) _ HS (exr_ok _) HT HO H1 H2 H3)) H4).
  intros mats [E|[E|[]]]; [injection E as <-; split; [reflexivity|vm_compute; lia]|discriminate].
Qed.
Example C93_reports_ex : exists m p st V' d V,
  fmake_state (/ 2 ^ 53) (/ 2 ^ 969) 2 (fed_groups (exr_feed exr_h)) (fed_list (exr_feed exr_h)) st /\
  frun (/ 2 ^ 53) (/ 2 ^ 969) 2 ([FGate exr_cn] ++ FMeasure (1 / 2) [1] :: []) st ([RNone] ++ RMeasured m p :: []) V' /\
  ideal (step_error (/ 2 ^ 53) (/ 2 ^ 969) (/ 2 ^ 49) 2) (collapse_error (/ 2 ^ 53) (/ 2 ^ 969) 2)
    (fun P => (4 * prob_error (/ 2 ^ 53) (/ 2 ^ 969) 2 (P / 2) <= P)%R) 2 [IGate exr_cn] [RNone]
    (start_error (/ 2 ^ 53) (/ 2 ^ 969) 2 (exr_feed exr_h) (exr_feed (1 / sqrt 2))) (meant 2 (exr_feed (1 / sqrt 2))) d V.
Proof.
  destruct exr_run as (m & p & st & V' & d & V & H1 & H2 & H3 & H4). inversion H3 as [|mats l rs d0 v W d' V0 HA HI| | |]; subst.
  eexists m, p, st, V', _, W. split; [exact H1|]. split; [exact H2|]. eapply id_gate; [exact HA|constructor].
Qed.
