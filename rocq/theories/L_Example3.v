(** The swap test. *)
From Coq Require Import Sorted.
From Verif Require Import Base S_Bits L_Bits M_Kron S_Kron M_Ops S_Ops L_Ops4 M_Feed S_Feed L_Feed M_Func S_Func L_Func2
  M_Measure S_Measure L_Alg M_Graph S_Graph L_Graph1 L_Graph2 L_Graph3 L_Graph5 L_Graph6 L_Graph7 L_Graph8 L_Graph9 L_Graph10 L_Graph11
  M_Context S_Context L_Sinks L_Grow1 L_Grow2 L_Context1 L_Context2 L_Context3 L_Context4 L_Context6 L_Context7 M_Examples S_Examples L_Example1 L_Example2.

Section Norms.
  Context {K : Type} {RK : CRing K}.
  Notation C := (Cx K).
  Add Ring KR0 : (@rth K _).
  Lemma swap_norm (p q u v : C) : cnorm2 (p * v + q * u)%r = (cnorm2 p * cnorm2 v + cnorm2 q * cnorm2 u + (fst (cconj p * u * cconj (cconj q * v)) + fst (cconj p * u * cconj (cconj q * v))))%r.
  Proof.
    destruct p, q, u, v. unfold cnorm2, cconj.
    repeat match goal with
      | |- context [@rmul (Cx K) _ ?x ?y] => change (@rmul (Cx K) _ x y) with (cxmul x y)
      | |- context [@radd (Cx K) _ ?x ?y] => change (@radd (Cx K) _ x y) with (cxadd x y)
      end.
    unfold cxmul, cxadd. cbn [fst snd]. ring.
  Qed.
  Lemma re_sum {I} (l : list I) (f : I -> C) : fst (sum l f) = sum l (fun i => fst (f i)).
  Proof. induction l; cbn [sum]; [reflexivity|]. rewrite <- IHl. reflexivity. Qed.
  Lemma abs_sum (x : C) : fst (x * cconj x)%r = cnorm2 x.
  Proof. change (fst (cxmul x (cconj x)) = cnorm2 x). unfold cxmul, cnorm2, cconj. cbn [fst snd]. ring. Qed.
End Norms.

Section Swap.
  Context {K : Type} {OK : OrdRing K}.
  Notation C := (Cx K).
  Add Ring KR : (@rth K _).
  Add Ring CR : (@rth C _).
  Variables (s : K) (k : Z) (a b : list C).
  Hypothesis Hk : 0 < k.
  Hypothesis Ha : zlen a = 2 ^ k.
  Hypothesis Hb : zlen b = 2 ^ k.
  Let n := 1 + k + k.
  Let g0 := zrange 0 (0 + 1).
  Let A := zrange (0 + 1) (0 + 1 + k).
  Let B := zrange (0 + 1 + k) (0 + 1 + k + k).
  Let init : list (list Z * list C) := [(g0, [1%r; 0%r]); (A, a); (B, b)].
  Let U (v : Z -> C) : Z -> C :=
    op_acts n (OH s) [g0] (op_acts n (OC (OSwap k)) [g0; A; B] (op_acts n (OH s) [g0] v)).

  Lemma g0_eq : g0 = [0].
  Proof. reflexivity. Qed.
  Lemma regs_all : g0 ++ A ++ B = zrange 0 n.
  Proof. unfold g0, A, B, n. rewrite <- !zrange_app by lia. f_equal; lia. Qed.
  Lemma regs_ok : qubits_ok n (g0 ++ A ++ B).
  Proof. rewrite regs_all. split; [apply zrange_nodup|]. intros q Hq. apply in_zrange in Hq. auto. Qed.
  Lemma len_A : zlen A = k.
  Proof. unfold A. rewrite zlen_zrange; lia. Qed.
  Lemma len_B : zlen B = k.
  Proof. unfold B. rewrite zlen_zrange; lia. Qed.
  Lemma index r : 0 <= r < 2 ^ n -> r = Z.b2z (qbit n r 0) * 2 ^ (k + k) + reg n A r * 2 ^ k + reg n B r.
  Proof.
    intros Hr. rewrite <- (reg_full n r) at 1 by (auto; unfold n; lia). rewrite <- regs_all, !reg_app, zlen_app, len_A, len_B.
    rewrite Z.pow_add_r by lia. rewrite g0_eq. unfold reg at 1. cbn [map val]. destruct (qbit n r 0); cbn; ring.
  Qed.
  Lemma Hn : 0 <= n.
  Proof. unfold n. lia. Qed.
  Lemma H0 : 0 <= 0 < n.
  Proof. unfold n. lia. Qed.
  Lemma reg_g0 r : reg n g0 r = Z.b2z (qbit n r 0).
  Proof. rewrite g0_eq. unfold reg. cbn. destruct (qbit n r 0); reflexivity. Qed.
  Lemma in_A q : In q A -> 0 < q < n.
  Proof. unfold A, n. rewrite in_zrange. lia. Qed.
  Lemma in_B q : In q B -> 0 < q < n.
  Proof. unfold B, n. rewrite in_zrange. lia. Qed.
  Lemma flip_regs r : qbit n (flipped n 0 r) 0 = negb (qbit n r 0) /\ reg n A (flipped n 0 r) = reg n A r /\ reg n B (flipped n 0 r) = reg n B r.
  Proof.
    pose proof H0. split; [|split].
    - rewrite qbit_flipped by auto. rewrite Z.eqb_refl. auto.
    - apply reg_ext. intros q Hq. apply in_A in Hq. rewrite qbit_flipped by lia. destruct (Z.eqb_spec q 0); [lia|auto].
    - apply reg_ext. intros q Hq. apply in_B in Hq. rewrite qbit_flipped by lia. destruct (Z.eqb_spec q 0); [lia|auto].
  Qed.
  Lemma fed_value r : fed_amp n init r = if qbit n r 0 then 0%r else (znth 0%r a (reg n A r) * znth 0%r b (reg n B r))%r.
  Proof.
    unfold fed_amp. replace (forallb _ _) with true.
    - unfold init. cbn [prod fst snd map fold_right]. rewrite reg_g0. destruct (qbit n r 0).
      + change (znth 0%r [1%r; 0%r] (Z.b2z true)) with (0%r : C). ring.
      + change (znth 0%r [1%r; 0%r] (Z.b2z false)) with (1%r : C). ring.
    - symmetry. apply forallb_forall. intros q Hq. apply orb_true_iff. left. apply existsb_exists. exists q. split; [|apply Z.eqb_refl].
      cbn [init map fst concat]. rewrite app_nil_r, regs_all. auto.
  Qed.
  Lemma swap_regs r : let r' := setreg n (A ++ B) r (reg n (B ++ A) r) in
    qbit n r' 0 = qbit n r 0 /\ reg n A r' = reg n B r /\ reg n B r' = reg n A r.
  Proof.
    cbv zeta. set (r' := setreg _ _ _ _). pose proof regs_ok as [R1 R2]. apply NoDup_app_inv in R1. destruct R1 as (_ & R1 & R3).
    assert (OK2 : qubits_ok n (A ++ B)) by (split; auto; intros q Hq; apply R2, in_app_iff; auto).
    split.
    - unfold r'. apply qbit_setreg_out; [apply H0|]. intros Hi. apply (R3 0); auto. rewrite g0_eq. left; auto.
    - assert (E : reg n (A ++ B) r' = reg n (B ++ A) r).
      { apply reg_setreg; auto. pose proof (reg_range n (B ++ A) r) as R. rewrite zlen_app in *. rewrite Z.add_comm. auto. }
      rewrite !reg_app, len_A, len_B in E. pose proof (reg_range n A r'). pose proof (reg_range n B r'). pose proof (reg_range n A r). pose proof (reg_range n B r).
      rewrite len_A, len_B in *.
      assert (E1 : reg n A r' = (reg n A r' * 2 ^ k + reg n B r') / 2 ^ k) by (rewrite Z.div_add_l by lia; rewrite Z.div_small by lia; lia).
      assert (E2 : reg n B r = (reg n B r * 2 ^ k + reg n A r) / 2 ^ k) by (rewrite Z.div_add_l by lia; rewrite Z.div_small by lia; lia).
      rewrite E in E1. rewrite <- E2 in E1. split; auto. rewrite E1 in E. lia.
  Qed.
  Lemma each0 g v : apply_each n g (concat [g0]) v = apply1 n g 0 v.
  Proof. rewrite g0_eq. reflexivity. Qed.
  Lemma amplitude r : 0 <= r < 2 ^ n -> let x := reg n A r in let y := reg n B r in
    U (fed_amp n init) r = (creal (s * s)%r * (if qbit n r 0 then znth 0%r a x * znth 0%r b y - znth 0%r a y * znth 0%r b x
                                          else znth 0%r a x * znth 0%r b y + znth 0%r a y * znth 0%r b x))%r.
  Proof.
    intros Hr x y. unfold U. cbn [op_acts hd tl forallb]. rewrite !each0.
    assert (V1 : forall t, apply1 n (gate_H s) 0 (fed_amp n init) t = (creal s * (znth 0%r a (reg n A t) * znth 0%r b (reg n B t)))%r).
    { intros t. destruct (flip_regs t) as (F1 & F2 & F3). unfold apply1, gate_H. rewrite !fed_value, F1, F2, F3. destruct (qbit n t 0); cbn [negb]; ring. }
    set (v2 := fun r0 : Z => if forallb (qbit n r0) g0 then _ else _).
    assert (V2 : forall t, v2 t = (creal s * (if qbit n t 0 then znth 0%r a (reg n B t) * znth 0%r b (reg n A t) else znth 0%r a (reg n A t) * znth 0%r b (reg n B t)))%r).
    { intros t. unfold v2. rewrite g0_eq. cbn [forallb]. destruct (swap_regs t) as (_ & S2 & S3). rewrite !V1. rewrite S2, S3. destruct (qbit n t 0); reflexivity. }
    unfold apply1 at 1, gate_H. rewrite !V2. destruct (flip_regs r) as (F1 & F2 & F3). rewrite F1, F2, F3. unfold x, y.
    rewrite creal_mul. destruct (qbit n r 0); cbn [negb]; ring.
  Qed.
  (** the probability of finding 0 *)
  Lemma zero_bit r : 0 <= r < 2 ^ (k + k) -> qbit n r 0 = false.
  Proof. intros Hr. unfold qbit. replace (n - 1 - 0) with (k + k) by (unfold n; lia). rewrite Z.testbit_false by lia. rewrite Z.div_small by lia. auto. Qed.
  Lemma one_bit r : 0 <= r < 2 ^ (k + k) -> qbit n (2 ^ (k + k) + r) 0 = true.
  Proof.
    intros Hr. unfold qbit. replace (n - 1 - 0) with (k + k) by (unfold n; lia). rewrite Z.testbit_true by lia.
    replace (2 ^ (k + k) + r) with (1 * 2 ^ (k + k) + r) by lia. rewrite Z.div_add_l by lia. rewrite Z.div_small by lia. auto.
  Qed.
  Lemma regs_of c x y : 0 <= x < 2 ^ k -> 0 <= y < 2 ^ k -> let r := Z.b2z c * 2 ^ (k + k) + (x * 2 ^ k + y) in
    0 <= r < 2 ^ n /\ qbit n r 0 = c /\ reg n A r = x /\ reg n B r = y.
  Proof.
    intros Hx Hy r. assert (Hp : 0 < 2 ^ k) by (apply Z.pow_pos_nonneg; lia).
    assert (E2 : 2 ^ (k + k) = 2 ^ k * 2 ^ k) by (apply Z.pow_add_r; lia).
    assert (En : 2 ^ n = 2 * 2 ^ (k + k)) by (unfold n; replace (1 + k + k) with (1 + (k + k)) by lia; rewrite Z.pow_add_r by lia; reflexivity).
    assert (Hs : 0 <= x * 2 ^ k + y < 2 ^ (k + k)) by nia.
    assert (Hr : 0 <= r < 2 ^ n) by (unfold r; destruct c; cbn [Z.b2z]; lia).
    assert (Hq : qbit n r 0 = c).
    { unfold r. destruct c; cbn [Z.b2z]; [rewrite Z.mul_1_l; apply one_bit; lia|rewrite Z.mul_0_l, Z.add_0_l; apply zero_bit; lia]. }
    split; auto. split; auto. pose proof (index r Hr) as E. rewrite Hq in E. unfold r at 1 in E.
    pose proof (reg_range n A r) as RA. pose proof (reg_range n B r) as RB. rewrite len_A in RA. rewrite len_B in RB.
    assert (E' : x * 2 ^ k + y = reg n A r * 2 ^ k + reg n B r) by lia.
    assert (F1 : x = (x * 2 ^ k + y) / 2 ^ k) by (rewrite Z.div_add_l by lia; rewrite Z.div_small by lia; lia).
    assert (F2 : reg n A r = (reg n A r * 2 ^ k + reg n B r) / 2 ^ k) by (rewrite Z.div_add_l by lia; rewrite Z.div_small by lia; lia).
    rewrite E', <- F2 in F1. split; auto. rewrite F1 in E'. lia.
  Qed.
  Lemma zero_sum st_ : (forall r, 0 <= r < 2 ^ n -> amp st_ r = U (fed_amp n init) r) -> (s * s + s * s = 1)%r ->
    (first_zero n st_ + first_zero n st_ = total a * total b + cnorm2 (inner a b))%r.
  Proof.
    intros Hst Hs. unfold first_zero. assert (E2 : 2 ^ (n - 1) = 2 ^ k * 2 ^ k) by (rewrite <- Z.pow_add_r by lia; f_equal; unfold n; lia).
    assert (Hp : 0 < 2 ^ k) by (apply Z.pow_pos_nonneg; lia).
    rewrite E2, sum_prod_range by lia. set (R := zrange 0 (2 ^ k)).
    assert (E : sum R (fun v => sum R (fun w => cnorm2 (znth 0%r st_ (v * 2 ^ k + w)))) =
      ((s * s) * (s * s) * ((1 + 1) * (total a * total b + cnorm2 (inner a b))))%r).
    { set (p := fun x => (cconj (znth 0%r a x) * znth 0%r b x)%r).
      assert (E1 : forall x y, In x R -> In y R -> cnorm2 (znth 0%r st_ (x * 2 ^ k + y)) =
        ((s * s) * (s * s) * (cnorm2 (znth 0%r a x) * cnorm2 (znth 0%r b y) + cnorm2 (znth 0%r a y) * cnorm2 (znth 0%r b x)) +
         (s * s) * (s * s) * ((1 + 1) * fst (p x * cconj (p y))))%r).
      { intros x y Hx Hy. apply in_zrange in Hx, Hy. destruct (regs_of false x y Hx Hy) as (Hr & Hq & RA & RB). cbn [Z.b2z] in *.
        rewrite Z.mul_0_l, Z.add_0_l in *. change (znth 0%r st_ (x * 2 ^ k + y)) with (amp st_ (x * 2 ^ k + y)). rewrite Hst, amplitude by auto.
        rewrite Hq, RA, RB, cnorm2_mul, cnorm2_creal, swap_norm. unfold p. ring. }
      rewrite (sum_ext R _ (fun x => (s * s) * (s * s) * (cnorm2 (znth 0%r a x) * total b + total a * cnorm2 (znth 0%r b x)) + (s * s) * (s * s) * ((1 + 1) * fst (p x * cconj (sum R p))))%r).
      - rewrite sum_add, !sum_mul_l, sum_add, sum_mul_l, sum_mul_r.
        assert (Ta : total a = sum R (fun x => cnorm2 (znth 0%r a x))) by (apply (sum_as_range a (2 ^ k) cnorm2); auto).
        assert (Tb : total b = sum R (fun x => cnorm2 (znth 0%r b x))) by (apply (sum_as_range b (2 ^ k) cnorm2); auto).
        rewrite <- Ta, <- Tb. rewrite <- re_sum, sum_mul_r, abs_sum.
        replace (sum R p) with (inner a b) by (unfold inner; rewrite Ha; reflexivity). ring.
      - intros x Hx. rewrite (sum_ext R _ _ (fun y Hy => E1 x y Hx Hy)). rewrite sum_add, !sum_mul_l, sum_add, sum_mul_l, sum_mul_r.
        assert (Ta : total a = sum R (fun x => cnorm2 (znth 0%r a x))) by (apply (sum_as_range a (2 ^ k) cnorm2); auto).
        assert (Tb : total b = sum R (fun x => cnorm2 (znth 0%r b x))) by (apply (sum_as_range b (2 ^ k) cnorm2); auto).
        rewrite <- Ta, <- Tb. rewrite <- re_sum, sum_mul_l, <- sum_cconj. reflexivity. }
    rewrite E. transitivity ((s * s + s * s) * (s * s + s * s) * (total a * total b + cnorm2 (inner a b)))%r; [ring|]. rewrite Hs. ring.
  Qed.
End Swap.

Section Program.
  Context {K : Type} {OK : OrdRing K}.
  Notation C := (Cx K).
  Variable cn : consts K.

  Lemma swap_test_run_ok k : 0 < k ->
    let n := 1 + k + k in
    exists w q1 q2 q3 m1, swap_test cn k = (w, Ok (q1, q2, q3, m1)) /\
      forall (a b : list C), zlen a = 2 ^ k -> zlen b = 2 ^ k ->
      forall ev, enum_ok ev -> scheds_ok ev (w_heap w) n ->
      exists c' st_ cm, swap_test_run ev (w_heap w) q1 q2 q3 m1 a b = (c', Ok (st_, cm)) /\ zlen st_ = 2 ^ n /\
        forall r, 0 <= r < 2 ^ n -> amp st_ r =
          op_acts n (OH (c_h cn)) [zrange 0 (0 + 1)] (op_acts n (OC (OSwap k)) [zrange 0 (0 + 1); zrange (0 + 1) (0 + 1 + k); zrange (0 + 1 + k) (0 + 1 + k + k)]
            (op_acts n (OH (c_h cn)) [zrange 0 (0 + 1)] (fed_amp n [(zrange 0 (0 + 1), [1%r; 0%r]); (zrange (0 + 1) (0 + 1 + k), a); (zrange (0 + 1 + k) (0 + 1 + k + k), b)]))) r.
  Proof.
    intros Hk n. set (g0 := zrange 0 (0 + 1)). set (A := zrange (0 + 1) (0 + 1 + k)). set (B := zrange (0 + 1 + k) (0 + 1 + k + k)).
    destruct (fresh_add empty_heap [] 1 None fresh_empty ltac:(lia) I) as (h1 & E1 & F1 & X1 & W1 & _ & Z1).
    destruct (fresh_add h1 _ k None F1 Hk I) as (h2 & E2 & F2 & X2 & W2 & _ & Z2).
    destruct (fresh_add h2 _ k None F2 Hk I) as (h3 & E3 & F3 & X3 & W3 & _ & Z3).
    change (size (K := K) empty_heap) with O in *. rewrite Z1 in *. rewrite Z2 in *. cbn [app] in *. clear F1 F2.
    assert (V1 : width h3 0 = 1). { rewrite (ext_width h2), (ext_width h1); auto; lia. }
    assert (V2 : width h3 1 = k). { rewrite (ext_width h2); auto; lia. }
    set (srcs := [0; 1; 2]%nat) in *. set (w0 := set_heap (K := K) start h3).
    assert (Ew : widths h3 srcs = n). { unfold widths, srcs. cbn. unfold n. lia. }
    assert (El : layout h3 srcs = combine srcs [g0; A; B]). { unfold layout. cbn [map srcs]. rewrite V1, V2, W3. reflexivity. }
    pose proof (fresh_circ _ _ F3) as C0. rewrite El in C0. cbn [combine srcs] in C0.
    pose proof (regs_ok k Hk) as RO. fold n g0 A B in RO.
    assert (LA : zlen A = k) by (apply len_A; auto). assert (LB : zlen B = k) by (apply len_B; auto).
    assert (NA : A <> []) by (intros H; rewrite H in LA; unfold zlen in LA; cbn in LA; lia).
    assert (NB : B <> []) by (intros H; rewrite H in LB; unfold zlen in LB; cbn in LB; lia).
    assert (N0 : g0 <> []) by discriminate.
    assert (P0 : plain w0) by (split; reflexivity).
    destruct (call_plain srcs cn w0 srcs H_ [0%nat] [g0] (OH (c_h cn)) [(1%nat, A); (2%nat, B)]) as (w1 & vis1 & o1 & K1 & P1 & L1 & O1 & G1); auto.
    { constructor. } { discriminate. } { intros g [<-|[]]; auto. } { cbn [concat]. rewrite app_nil_r. apply zrange_nodup. }
    destruct o1 as [|c1 [|? ?]]; try discriminate. cbn [combine app map] in *.
    pose proof (grow_circ _ _ _ _ _ _ _ _ G1) as C1. pose proof (grow_widths _ _ _ _ _ _ _ _ C0 G1) as Ew1. 
    destruct (call_plain srcs cn w1 vis1 (C_ctor (Wrap BSwap no_kw)) [c1; 1%nat; 2%nat] [g0; A; B] (OC (OSwap k)) []) as (w2 & vis2 & o2 & K2 & P2 & L2 & O2 & G2); auto.
    { apply denotes_c; auto; [discriminate|]. rewrite <- LA. constructor. lia. } { discriminate. }
    { intros g [<-|[<-|[<-|[]]]]; auto. } { cbn [concat]. rewrite app_nil_r. apply RO. }
    destruct o2 as [|d1 [|d2 [|d3 [|? ?]]]]; try discriminate. cbn [combine app map] in *.
    pose proof (grow_circ _ _ _ _ _ _ _ _ G2) as C2. pose proof (grow_widths _ _ _ _ _ _ _ _ C1 G2) as Ew2. 
    destruct (call_plain srcs cn w2 vis2 H_ [d1] [g0] (OH (c_h cn)) [(d2, A); (d3, B)]) as (w3 & vis3 & o3 & K3 & P3 & L3 & O3 & G3); auto.
    { constructor. } { discriminate. } { intros g [<-|[]]; auto. } { cbn [concat]. rewrite app_nil_r. apply zrange_nodup. }
    destruct o3 as [|m1 [|? ?]]; try discriminate. cbn [combine app map] in *.
    pose proof (grow_circ _ _ _ _ _ _ _ _ G3) as C3. pose proof (grow_widths _ _ _ _ _ _ _ _ C2 G3) as Ew3. 
    exists w3, 0%nat, 1%nat, 2%nat, m1. split.
    { unfold swap_test, new_qubit. change (w_heap start) with (empty_heap (K := K)). rewrite E1. cbn [on_heap fst snd sbind]. change (w_heap (set_heap start h1)) with h1.
      rewrite E2. cbn [on_heap fst snd sbind]. change (w_heap (set_heap (set_heap start h1) h2)) with h2. rewrite E3. cbn [on_heap fst snd sbind].
      change (set_heap (set_heap (set_heap start h1) h2) h3) with w0. rewrite K1. cbn [one_output sbind]. rewrite K2. cbn [three_outputs sbind]. rewrite K3. reflexivity. }
    intros a b Ha Hb ev He Hsc.
    pose proof (grow_trans _ _ _ _ _ _ _ _ _ _ _ _ (grow_circ _ _ _ _ _ _ _ _ (grow_refl srcs _ _ _ C0)) (grow_trans _ _ _ _ _ _ _ _ _ _ _ _ C0 G1 G2) G3) as G.
    change (w_heap w0) with h3 in *. rewrite Ew in *. rewrite Ew1, Ew2 in G. rewrite Ew1 in G.
    assert (Sl : slim (w_heap w3) (map fst [(m1, g0); (d2, A); (d3, B)]) [m1]).
    { destruct O2 as (_ & op & Hop & Hin & [[X _]|(Hnew & pieces & Hsel & _)]); [discriminate|].
      assert (Ad : ancestor (w_heap w3) [m1] d1).
      { destruct O3 as (_ & op' & _ & Hin' & [[_ X]|(_ & pc & Hs & _)]).
        - injection X as <-. apply anc_input with m1; [apply anc_arg; left; auto|]. rewrite Hin'. left; auto.
        - inversion Hs as [|? ? ? ? S0 ?]; subst. destruct S0 as (_ & I0 & _). apply anc_input with op'; [|rewrite Hin'; left; auto].
          apply anc_input with m1; [apply anc_arg; left; auto|]. rewrite I0. left; auto. }
      inversion Hsel as [|p1 ? r1 ? S1 Hsel1]; subst. inversion Hsel1 as [|p2 ? r2 ? S2 Hsel2]; subst. inversion Hsel2 as [|p3 ? r3 ? S3 Hsel3]; subst. 
      destruct G3 as (_ & XG & _). destruct S1 as (_ & I1 & _). destruct S2 as (D2 & I2 & _). destruct S3 as (D3 & I3 & _).
      destruct (ext_fields _ _ d1 XG ltac:(apply Hnew; left; auto)) as (_ & J1 & _).
      destruct (ext_fields _ _ d2 XG ltac:(apply Hnew; right; left; auto)) as (T2 & J2 & _).
      destruct (ext_fields _ _ d3 XG ltac:(apply Hnew; right; right; left; auto)) as (T3 & J3 & _).
      assert (Ha1 : ancestor (w_heap w3) [m1] op).
      { apply anc_input with d1; auto. unfold inputs_of in *; rewrite J1, I1; left; auto. }
      unfold inputs_of in *. split; [cbn; intros x [<-|[]]; left; auto|]. intros d [<-|[<-|[<-|[]]]]; [left; left; auto|right..]; cbn [fst].
      - split; [exists p2; congruence|]. unfold inputs_of. rewrite J2, I2. split; [discriminate|]. intros j [<-|[]]. auto.
      - split; [exists p3; congruence|]. unfold inputs_of. rewrite J3, I3. split; [discriminate|]. intros j [<-|[]]. auto. }
    destruct (fresh_runs srcs h3 (w_heap w3) vis3 _ _ [m1] F3 ltac:(rewrite El; exact G) Sl cache0 [] ev
      [(FNode 0, FArr [1%r; 0%r]); (FNode 1, FArr a); (FNode 2, FArr b)] false SNone [(g0, [1%r; 0%r]); (A, a); (B, b)]) as (c' & st_ & cm & R1 & R2 & R3); auto.
    { apply G. apply F3. } { intros x []. } { rewrite Ew; auto. }
    { rewrite Ew. pose proof (grow_circ _ _ _ _ _ _ _ _ G) as CG. destruct G as (_ & XG & _).
      assert (El' : layout (w_heap w3) srcs = combine srcs [g0; A; B]).
      { rewrite <- El. unfold layout. f_equal. f_equal. apply map_ext_in. intros i Hi. apply (ext_fields _ _ i XG). apply (f_size _ _ F3); auto. }
      assert (HW : forall q g, In (q, g) (combine srcs [g0; A; B]) -> wires (w_heap w3) srcs q g).
      { intros q g Hq. rewrite <- El' in Hq. apply (layout_wires (w_heap w3) srcs srcs [] 0); auto. }
      apply initial_feed. split; [repeat constructor; cbn; intuition discriminate|]. split; [intros x Hx; exact Hx|].
      exists [(g0, [1%r; 0%r]); (A, a); (B, b)], []. split.
      - assert (One : forall q g, In (q, g) (combine srcs [g0; A; B]) -> exists gs, Forall2 (wires (w_heap w3) srcs) [q] gs /\ g = concat gs).
        { intros q g Hq. exists [g]. split; [constructor; auto|cbn; rewrite app_nil_r; auto]. }
        repeat constructor; cbn [fst snd]; apply One; cbn; auto.
      - split; [repeat (apply dr_skip; [left; cbn; auto|]); constructor|]. split; [rewrite app_nil_r; auto|]. split.
        + cbn [map fst concat]. rewrite app_nil_r. auto.
        + intros g x [H|[H|[H|[]]]]; inversion H; subst; auto; congruence. }
    { discriminate. }
    rewrite Ew in *. exists c', st_, cm. split; auto.
  Qed.
End Program.

Section Test.
  Context {K : Type} {OK : OrdRing K}.
  Notation C := (Cx K).
  Variable cn : consts K.
  Notation s := (c_h cn).

  Lemma swap_test_ok k : 0 < k ->
    let n := 1 + k + k in
    exists w q1 q2 q3 m1, swap_test cn k = (w, Ok (q1, q2, q3, m1)) /\
      forall (a b : list C), zlen a = 2 ^ k -> zlen b = 2 ^ k ->
      forall ev, enum_ok ev -> scheds_ok ev (w_heap w) n ->
      exists c' st_ cm, swap_test_run ev (w_heap w) q1 q2 q3 m1 a b = (c', Ok (st_, cm)) /\ zlen st_ = 2 ^ n /\
        (forall x y, 0 <= x < 2 ^ k -> 0 <= y < 2 ^ k ->
           znth 0%r st_ (x * 2 ^ k + y) = (creal (s * s) * (znth 0 a x * znth 0 b y + znth 0 a y * znth 0 b x))%r /\
           znth 0%r st_ (2 ^ (k + k) + (x * 2 ^ k + y)) = (creal (s * s) * (znth 0 a x * znth 0 b y - znth 0 a y * znth 0 b x))%r) /\
        ((s * s + s * s = 1)%r -> (first_zero n st_ + first_zero n st_ = total a * total b + cnorm2 (inner a b))%r).
  Proof.
    intros Hk n. destruct (swap_test_run_ok cn k Hk) as (w & q1 & q2 & q3 & m1 & E & R). exists w, q1, q2, q3, m1. split; auto.
    intros a b Ha Hb ev He Hsc. destruct (R a b Ha Hb ev He Hsc) as (c' & st_ & cm & E1 & E2 & E3). exists c', st_, cm. split; auto. split; auto. split.
    - intros x y Hx Hy. split.
      + destruct (regs_of k b Hk Hb false x y Hx Hy) as (Hr & Hq & RA & RB). assert (Er : Z.b2z false * 2 ^ (k + k) + (x * 2 ^ k + y) = x * 2 ^ k + y) by (cbn [Z.b2z]; lia). rewrite Er in *.
        change (znth 0%r st_ (x * 2 ^ k + y)) with (amp st_ (x * 2 ^ k + y)). etransitivity; [apply E3; auto|]. etransitivity; [apply (amplitude s k a b Hk _ Hr)|]. cbv zeta. rewrite Hq, RA, RB. auto.
      + destruct (regs_of k b Hk Hb true x y Hx Hy) as (Hr & Hq & RA & RB). assert (Er : Z.b2z true * 2 ^ (k + k) + (x * 2 ^ k + y) = 2 ^ (k + k) + (x * 2 ^ k + y)) by (cbn [Z.b2z]; lia). rewrite Er in *.
        change (znth 0%r st_ (2 ^ (k + k) + (x * 2 ^ k + y))) with (amp st_ (2 ^ (k + k) + (x * 2 ^ k + y))). etransitivity; [apply E3; auto|]. etransitivity; [apply (amplitude s k a b Hk _ Hr)|]. cbv zeta. rewrite Hq, RA, RB. auto.
    - intros Hs. eapply zero_sum; eauto.
  Qed.
End Test.
