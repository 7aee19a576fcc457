(** Maps of amplitudes that act on some qubits only; those on disjoint qubits commute. *)
From Coq Require Import Sorted.
From Verif Require Import Base S_Bits L_Bits M_Kron S_Kron M_Ops S_Ops L_Ops4 M_Feed S_Feed M_Func S_Func L_Func2
  M_Measure S_Measure L_Alg M_Graph S_Graph L_Graph1 L_Graph2 L_Graph3 L_Graph5 L_Graph6 L_Graph7 L_Graph8 L_Graph9 L_Graph10 L_Graph11
  M_Context S_Context L_Sinks L_Grow1 L_Grow2 L_Context1 L_Context2 L_Context3.

Section Commute.
  Context {K : Type} {OK : OrdRing K}.
  Notation C := (Cx K).
  Add Ring CRingO1 : (@rth C _).
  Variable n : Z.
  Hypothesis Hn : 0 <= n.
  Local Notation U := ((Z -> C) -> Z -> C).

  Definition shifts (g : list Z) (u : U) : Prop :=
    forall k x v r, qubits_ok n k -> (forall q, In q k -> ~ In q g) -> 0 <= r < 2 ^ n ->
    u (fun r' => v (setreg n k r' x)) r = u v (setreg n k r x).
  Definition linear (u : U) : Prop :=
    forall (a b : C) v w r, 0 <= r < 2 ^ n -> u (fun r => (a * v r + b * w r)%r) r = (a * u v r + b * u w r)%r.
  Definition acts_on (g : list Z) (u : U) : Prop := local n g u /\ linear u /\ shifts g u.

  Lemma linear_zero g u r : local n g u -> linear u -> 0 <= r < 2 ^ n -> u (fun _ => 0%r) r = 0%r.
  Proof.
    intros Hl Hu Hr. transitivity (u (fun r => (0 * (fun _ => 0) r + 0 * (fun _ => 0) r)%r) r).
    - apply Hl; auto. intros. ring.
    - rewrite Hu by auto. ring.
  Qed.
  Lemma linear_sum {I} g u (l : list I) (c : I -> C) f r : local n g u -> linear u -> 0 <= r < 2 ^ n ->
    u (fun r => sum l (fun x => (c x * f x r)%r)) r = sum l (fun x => (c x * u (f x) r)%r).
  Proof.
    intros Hl Hu Hr. induction l as [|x l IH].
    - apply (linear_zero g); auto.
    - change (sum (x :: l) (fun x => (c x * u (f x) r)%r)) with (c x * u (f x) r + sum l (fun x => (c x * u (f x) r)%r))%r.
      rewrite <- IH. transitivity (u (fun r => (c x * f x r + 1 * (fun r => sum l (fun x => (c x * f x r)%r)) r)%r) r).
      + apply Hl; auto. intros r' _. change (sum (x :: l) (fun x => (c x * f x r')%r)) with (c x * f x r' + sum l (fun x => (c x * f x r')%r))%r. ring.
      + rewrite Hu by auto. ring.
  Qed.

  (** a map acting on [g] is given by a matrix on the values of [g] *)
  Definition coef (g : list Z) (u : U) (x r : Z) : C := u (fun r' => if reg n g r' =? x then 1%r else 0%r) r.
  Lemma acts_sum g u v r : acts_on g u -> qubits_ok n g -> 0 <= r < 2 ^ n ->
    u v r = sum (zrange 0 (2 ^ zlen g)) (fun x => (coef g u x r * v (setreg n g r x))%r).
  Proof.
    intros (Hl & Hu & _) Hg Hr. unfold coef.
    transitivity (u (fun r' => sum (zrange 0 (2 ^ zlen g)) (fun x => (v (setreg n g r x) * (if reg n g r' =? x then 1 else 0))%r)) r).
    - apply Hl; auto. intros r' [Hr' Hq]. pose proof (reg_range n g r') as Hx.
      rewrite (sum_single (zrange 0 (2 ^ zlen g)) (reg n g r')).
      + rewrite Z.eqb_refl. rewrite (setreg_reg n g r r') by (auto; intros; symmetry; auto). ring.
      + apply zrange_nodup.
      + apply in_zrange. auto.
      + intros j _ Hj. replace (reg n g r' =? j) with false by (symmetry; apply Z.eqb_neq; auto). ring.
    - rewrite (linear_sum g) by auto. apply sum_ext. intros x _. ring.
  Qed.
  Lemma coef_near g u x k r r' : acts_on g u -> qubits_ok n g -> qubits_ok n k -> (forall q, In q k -> ~ In q g) -> 0 <= r < 2 ^ n ->
    near n k r r' -> coef g u x r' = coef g u x r.
  Proof.
    intros (Hl & _ & Hs) Hg Hk Hd Hr [Hr' Hq]. rewrite <- (setreg_reg n k r r') by (auto; intros; symmetry; auto).
    unfold coef. rewrite <- Hs by auto. apply Hl; auto. intros y _. rewrite reg_setreg_disj; auto.
    intros q Hi. split; [apply Hg; auto|]. intros Hi'. exact (Hd q Hi' Hi).
  Qed.
  Theorem commute g k u w v r : acts_on g u -> acts_on k w -> qubits_ok n g -> qubits_ok n k -> (forall q, In q g -> ~ In q k) ->
    0 <= r < 2 ^ n -> u (w v) r = w (u v) r.
  Proof.
    intros Au Aw Hg Hk Hd Hr. destruct Au as (Lu & Li & Su). rewrite (acts_sum k w (u v) r) by auto.
    transitivity (u (fun r' => sum (zrange 0 (2 ^ zlen k)) (fun x => (coef k w x r * (fun r' => v (setreg n k r' x)) r')%r)) r).
    - apply Lu; auto. intros r' Hr'. rewrite (acts_sum k w v r') by (auto; apply Hr'). apply sum_ext. intros x _.
      rewrite (coef_near k w x g r r') by auto. reflexivity.
    - rewrite (linear_sum g) by auto. apply sum_ext. intros x _. rewrite Su; auto. intros q Hq Hq'. exact (Hd q Hq' Hq).
  Qed.

  (** ** the maps of the nodes *)
  Lemma acts_id g : acts_on g (fun v => v).
  Proof. split; [|split]. intros v v' r Hr H. apply H, near_refl; auto. intros a b v w r Hr. auto. intros k x v r _ _ _. auto. Qed.
  Lemma flipped_setreg q k x r : 0 <= q < n -> ~ In q k -> 0 <= r < 2 ^ n -> qubits_ok n k ->
    flipped n q (setreg n k r x) = setreg n k (flipped n q r) x.
  Proof.
    intros Hq Hi Hr Hk. apply (qbit_ext n); auto using setreg_range.
    - apply flipped_range; auto. apply setreg_range; auto.
    - intros p Hp. rewrite qbit_flipped by (auto using setreg_range). destruct (in_dec Z.eq_dec p k) as [Hin|Hout].
      + destruct (Z.eqb_spec p q) as [->|]; [contradiction|]. apply (in_znth 0) in Hin as (j & Hj & <-). rewrite !qbit_setreg_in by auto. auto.
      + rewrite !qbit_setreg_out by auto. rewrite qbit_flipped by auto. auto.
  Qed.
  Lemma apply_each_shifts g qs : (forall q, In q qs -> 0 <= q < n) -> shifts qs (apply_each n g qs).
  Proof.
    induction qs as [|q qs IH]; intros Hq k x v r Hk Hd Hr; [reflexivity|].
    cbn [apply_each fold_right]. fold (apply_each n g qs v) (apply_each n g qs (fun r' => v (setreg n k r' x))).
    assert (Hq0 : 0 <= q < n) by (apply Hq; left; auto). assert (Hqk : ~ In q k) by (intros H; exact (Hd q H (or_introl eq_refl))).
    unfold apply1. destruct g as [[[a b] c] d].
    rewrite (flipped_setreg q k x r) by auto. rewrite (qbit_setreg_out n k r x q) by auto.
    rewrite !IH; auto using flipped_range; try (intros; apply Hq; right; auto); intros p Hp Hp'; exact (Hd p Hp (or_intror Hp')).
  Qed.
  Lemma op_acts_shifts o : forall gs, qubits_ok n (concat gs) -> shifts (concat gs) (op_acts n o gs).
  Proof.
    induction o; intros gs Hq; try (apply apply_each_shifts; apply Hq; fail); intros g x v r Hk Hd Hr; cbn [op_acts].
    - set (a := hd [] gs). set (b := hd [] (tl gs)).
      assert (Hi : forall q, In q (a ++ b) -> In q (concat gs)).
      { intros q. subst a b. destruct gs as [|a [|b gs]]; cbn [hd tl concat app]; rewrite ?in_app_iff; cbn; tauto. }
      assert (Hi2 : forall q, In q (b ++ a) -> In q (concat gs)) by (intros q H; apply Hi; rewrite in_app_iff in *; tauto).
      assert (Hab : qubits_ok n (a ++ b)).
      { destruct Hq as [ND Hq]. split; [|intros q H; apply Hq, Hi; auto]. subst a b.
        destruct gs as [|a [|b gs]]; cbn [hd tl concat app] in *; rewrite ?app_nil_r in *; auto.
        rewrite app_assoc in ND. apply NoDup_app_inv in ND. apply ND. }
      rewrite (reg_setreg_disj n g (b ++ a)).
      2: { intros q H. split; [apply Hq, Hi2; auto|]. intros H'. exact (Hd q H' (Hi2 q H)). }
      f_equal. symmetry. apply setreg_comm; auto. intros q H H'. exact (Hd q H' (Hi q H)).
    - assert (Hit : incl (concat (tl gs)) (concat gs)) by (destruct gs; cbn [tl concat]; [apply incl_refl|apply incl_appr, incl_refl]).
      assert (Hih : incl (hd [] gs) (concat gs)) by (destruct gs; cbn [hd concat]; [apply incl_refl|apply incl_appl, incl_refl]).
      assert (E : forallb (qbit n (setreg n g r x)) (hd [] gs) = forallb (qbit n r) (hd [] gs)).
      { apply forallb_ext_in. intros q H. apply qbit_setreg_out; [apply Hq; auto|]. intros H'. exact (Hd q H' (Hih q H)). }
      rewrite E. destruct (forallb (qbit n r) (hd [] gs)); auto. apply (IHo (tl gs)); auto.
      + destruct Hq as [ND Hq]. split; [|intros q H; apply Hq; auto]. destruct gs; cbn [tl concat] in *; auto. apply NoDup_app_inv in ND. apply ND.
      + intros q H H'. exact (Hd q H (Hit q H')).
  Qed.
  Lemma op_acts_on o gs : qubits_ok n (concat gs) -> acts_on (concat gs) (op_acts n o gs).
  Proof.
    intros Hq. split; [apply op_acts_local; auto; apply Hq|split; [|apply op_acts_shifts; auto]].
    intros a b v w r Hr. apply (op_acts_lin n o gs a b v w); auto. apply Hq.
  Qed.
  Lemma fxor_acts_on reg1 reg2 f : qubits_ok n (reg1 ++ reg2) -> acts_on (reg1 ++ reg2) (fun v r => v (fxor n reg1 reg2 f r)).
  Proof.
    intros Hq. split; [|split].
    - intros v v' r Hr H. apply H. split; [apply fxor_range; auto|]. intros q Hqn Hi. unfold fxor. apply qbit_setreg_out; auto.
      intros H2. apply Hi, in_app_iff. auto.
    - intros a b v w r Hr. reflexivity.
    - intros k x v r Hk Hd Hr. f_equal. unfold fxor.
      assert (H2 : qubits_ok n reg2).
      { destruct Hq as [ND Hq]. split; [apply NoDup_app_inv in ND; apply ND|]. intros q H. apply Hq, in_app_iff; auto. }
      rewrite (reg_setreg_disj n k reg2), (reg_setreg_disj n k reg1).
      + symmetry. apply setreg_comm; auto. intros q H H'. apply (Hd q H'), in_app_iff. auto.
      + intros q H. split; [apply Hq, in_app_iff; auto|]. intros H'. apply (Hd q H'), in_app_iff. auto.
      + intros q H. split; [apply Hq, in_app_iff; auto|]. intros H'. apply (Hd q H'), in_app_iff. auto.
  Qed.
  Definition proj_on (g : list Z) (m : Z) : U := fun v r => if reg n (measured_order n g) r =? m then v r else 0%r.
  Lemma mo_in_iff g q : In q (measured_order n g) <-> 0 <= q < n /\ In q g.
  Proof.
    unfold measured_order. rewrite filter_In, in_zrange, existsb_exists. split; intros [H1 H2]; split; auto.
    - destruct H2 as (y & Hy & E). apply Z.eqb_eq in E. subst; auto.
    - exists q. split; auto. apply Z.eqb_refl.
  Qed.
  Lemma proj_acts_on g m : acts_on g (proj_on g m).
  Proof.
    split; [|split].
    - intros v v' r Hr H. unfold proj_on. destruct (_ =? _); auto. apply H, near_refl; auto.
    - intros a b v w r Hr. unfold proj_on. destruct (_ =? _); auto. ring.
    - intros k x v r Hk Hd Hr. unfold proj_on. rewrite (reg_setreg_disj n k (measured_order n g)); auto.
      intros q H. apply mo_in_iff in H. destruct H as [H1 H2]. split; auto. intros H'. exact (Hd q H' H2).
  Qed.
End Commute.
