(** Objects created by several threads: what every schedule keeps. *)
From Verif Require Import Base M_Kron M_Ops M_Feed M_Graph M_Threads S_Threads L_Threads1.

Section Every.
  Context {K : Type} {OK : OrdRing K}.
  Implicit Types h : heap K.

  Lemma grows_refl h : grows h h.
  Proof. split; [lia|]. intros i Hi. split; [repeat split|]. exists []. rewrite app_nil_r. reflexivity. Qed.
  Lemma grows_trans h1 h2 h3 : grows h1 h2 -> grows h2 h3 -> grows h1 h3.
  Proof.
    intros [A1 B1] [A2 B2]. split; [lia|]. intros i Hi. destruct (B1 i Hi) as ((C1 & C2 & C3 & C4 & C5) & l & Hl). destruct (B2 i ltac:(lia)) as ((D1 & D2 & D3 & D4 & D5) & l' & Hl').
    split; [repeat split; congruence|]. exists (l ++ l'). rewrite Hl', Hl, app_assoc. reflexivity.
  Qed.
  Lemma grows_new h x q : grows h (mkHeap (h_nodes h ++ [x]) q).
  Proof.
    split; [unfold size; cbn; rewrite app_length; lia|]. intros i Hi. assert (E : nd (mkHeap (h_nodes h ++ [x]) q) i = nd h i) by (unfold nd; cbn [h_nodes]; rewrite app_nth1; auto).
    rewrite E. split; [repeat split|]. exists []. rewrite app_nil_r. reflexivity.
  Qed.
  Lemma grows_qid h q : grows h (mkHeap (h_nodes h) q).
  Proof. split; [apply Nat.le_refl|]. intros i Hi. split; [repeat split|]. exists []. rewrite app_nil_r. reflexivity. Qed.
  Lemma nd_add_sink h i x : (i < size h)%nat -> nd_sink (nd (add_sink h i x) i) = nd_sink (nd h i) ++ [x].
  Proof. intros Hi. unfold add_sink, nd. cbn [h_nodes]. rewrite nth_upd, Nat.eqb_refl. apply Nat.ltb_lt in Hi. unfold size in Hi. rewrite Hi. reflexivity. Qed.
  Lemma grows_sink h i x : grows h (add_sink h i x).
  Proof.
    split; [rewrite add_sink_size; lia|]. intros j Hj. unfold add_sink, nd. cbn [h_nodes]. rewrite nth_upd.
    destruct (Nat.eqb i j && Nat.ltb i (length (h_nodes h)))%bool eqn:E.
    - apply andb_prop in E. destruct E as [E _]. apply Nat.eqb_eq in E. subst j. cbn. split; [repeat split|]. exists [x]. reflexivity.
    - split; [repeat split|]. exists []. rewrite app_nil_r. reflexivity.
  Qed.
  Lemma sum_n_ext h h' l : (forall i, In i l -> nd_n (nd h' i) = nd_n (nd h i)) -> sum_n h' l = sum_n h l.
  Proof. unfold sum_n. generalize 0. induction l as [|i l IH]; intros z H; cbn; auto. rewrite H by (left; auto). apply IH. intros j Hj. apply H. right. auto. Qed.
  Lemma sum_n_sum h l : sum_n h l = fold_right Z.add 0 (map (fun i => nd_n (nd h i)) l).
  Proof.
    unfold sum_n. assert (H : forall z, fold_left (fun a q => a + nd_n (nd h q)) l z = z + fold_right Z.add 0 (map (fun i => nd_n (nd h i)) l)).
    { induction l as [|i l IH]; intros z; cbn; [lia|]. rewrite IH. lia. }
    rewrite H. lia.
  Qed.
  Lemma ctor_n_sum h c : ctor_n h c = match ct_n c with Some n => n | None => match ct_inputs c with [] => 1 | l => fold_right Z.add 0 (map (fun i => nd_n (nd h i)) l) end end.
  Proof. unfold ctor_n. destruct (ct_n c); auto. destruct (ct_inputs c); auto. apply sum_n_sum. Qed.
  Lemma ctor_n_grows h h' c : grows h h' -> (forall i, In i (ct_inputs c) -> (i < size h)%nat) -> ctor_n h' c = ctor_n h c.
  Proof.
    intros [_ G] Hin. unfold ctor_n. destruct (ct_n c); auto. destruct (ct_inputs c) as [|i l] eqn:E; auto. rewrite <- E in *. apply sum_n_ext. intros j Hj.
    destruct (G j (Hin j Hj)) as ((_ & _ & En & _) & _). exact En.
  Qed.

  (** object x is what was asked for, apart from the sinks *)
  Definition object_of h (c : ctor K) (x : nat) : Prop :=
    (x < size h)%nat /\ (forall i, In i (ct_inputs c) -> (i < size h)%nat) /\
    nd_kind (nd h x) = ct_kind c /\ nd_inputs (nd h x) = ct_inputs c /\ nd_n (nd h x) = ctor_n h c /\ nd_default (nd h x) = ct_default c /\
    (forall q, ct_qid c = Some q -> nd_qid (nd h x) = q).
  Lemma object_grows h h' c x : grows h h' -> object_of h c x -> object_of h' c x.
  Proof.
    intros G (Hx & Hin & E1 & E2 & E3 & E4 & E5). pose proof (ctor_n_grows h h' c G Hin) as En. destruct G as [Gs G]. destruct (G x Hx) as ((C1 & C2 & C3 & C4 & C5) & _).
    split; [lia|]. split; [intros i Hi; specialize (Hin i Hi); lia|]. repeat split; try congruence. intros q Hq. rewrite C4. auto.
  Qed.
  Lemma sink_grows h h' i x : grows h h' -> (i < size h)%nat -> In x (nd_sink (nd h i)) -> In x (nd_sink (nd h' i)).
  Proof. intros [_ G] Hi Hx. destruct (G i Hi) as (_ & l & El). rewrite El. apply in_or_app. auto. Qed.
  Lemma made_iff h c x : made h c x <-> object_of h c x /\ (forall i, In i (ct_inputs c) -> In x (nd_sink (nd h i))).
  Proof.
    unfold made, object_of. rewrite <- ctor_n_sum. split.
    - intros (A & B & C & D & E & F & G). split; [|intros i Hi; apply G; auto]. split; auto. split; [intros i Hi; apply G; auto|]. auto.
    - intros ((A & B & C & D & E & F & G) & H). repeat split; auto.
  Qed.
  Lemma made_grows h h' c x : grows h h' -> made h c x -> made h' c x.
  Proof.
    intros G H. apply made_iff in H. destruct H as (Ho & Hs). apply made_iff. split; [eapply object_grows; eauto|].
    intros i Hi. eapply sink_grows; eauto. destruct Ho as (_ & Hin & _). auto.
  Qed.

  Definition now_ok h (todo0 : list (list (res nat) -> ctor K)) (t : thread K) : Prop :=
    match th_now t with
    | None => th_todo t = skipn (length (th_done t)) todo0
    | Some (c, p) => exists f, nth_error todo0 (length (th_done t)) = Some f /\ c = f (th_done t) /\ th_todo t = skipn (S (length (th_done t))) todo0 /\
        match p with
        | PStart => True
        | PLoaded _ | PAgain _ _ => ct_qid c = None
        | PNew q => ct_qid c = None \/ ct_qid c = Some q
        | PCheck self rest => object_of h c self /\ exists pre, ct_inputs c = pre ++ rest /\ forall i, In i pre -> In self (nd_sink (nd h i))
        | PAppend self item rest => object_of h c self /\ exists pre, ct_inputs c = pre ++ item :: rest /\ forall i, In i pre -> In self (nd_sink (nd h i))
        end
    end.
  Definition done_ok h (todo0 : list (list (res nat) -> ctor K)) (t : thread K) : Prop :=
    forall k x, nth_error (th_done t) k = Some (Ok x) -> exists f, nth_error todo0 k = Some f /\ made h (f (firstn k (th_done t))) x.
  Lemma now_grows h h' todo0 t : grows h h' -> now_ok h todo0 t -> now_ok h' todo0 t.
  Proof.
    intros G. unfold now_ok. destruct (th_now t) as [[c p]|]; auto. intros (f & E1 & E2 & E3 & Hp). exists f. repeat split; auto.
    destruct p as [|q|q y|q|self rest|self item rest]; auto.
    - destruct Hp as (Ho & pre & E & Hs). split; [eapply object_grows; eauto|]. exists pre. split; auto. intros i Hi. eapply sink_grows; eauto.
      destruct Ho as (_ & Hin & _). apply Hin. rewrite E. apply in_or_app. auto.
    - destruct Hp as (Ho & pre & E & Hs). split; [eapply object_grows; eauto|]. exists pre. split; auto. intros i Hi. eapply sink_grows; eauto.
      destruct Ho as (_ & Hin & _). apply Hin. rewrite E. apply in_or_app. auto.
  Qed.
  Lemma done_grows h h' todo0 t : grows h h' -> done_ok h todo0 t -> done_ok h' todo0 t.
  Proof. intros G H k x E. destruct (H k x E) as (f & Ef & Hm). exists f. split; auto. eapply made_grows; eauto. Qed.

  (** the objects a thread has made, and the one it is making *)
  Definition oks (l : list (res nat)) : list nat := flat_map (fun r => match r with Ok x => [x] | Raise _ => [] end) l.
  Definition owned (t : thread K) : list nat :=
    match th_now t with Some (_, PCheck self _) => [self] | Some (_, PAppend self _ _) => [self] | _ => [] end ++ oks (th_done t).
  Lemma oks_snoc l r : oks (l ++ [r]) = oks l ++ match r with Ok x => [x] | Raise _ => [] end.
  Proof. unfold oks. rewrite flat_map_app. cbn. rewrite app_nil_r. reflexivity. Qed.

  Variable h0 : heap K.
  Definition knows0 (todo0 : list (list (res nat) -> ctor K)) : Prop :=
    forall f results i, In f todo0 -> In i (ct_inputs (f results)) -> (i < size h0)%nat \/ In (Ok i) results.

  Lemma skipn_cons {A} (l : list A) : forall n x r, x :: r = skipn n l -> nth_error l n = Some x /\ r = skipn (S n) l.
  Proof. induction l as [|a l IH]; intros [|n] x r E; cbn in *; try discriminate; [inversion E; auto|]. apply IH in E. exact E. Qed.
  Lemma done_snoc h todo0 t r : done_ok h todo0 t -> (forall x, r = Ok x -> exists f, nth_error todo0 (length (th_done t)) = Some f /\ made h (f (th_done t)) x) -> done_ok h todo0 (finish t r).
  Proof.
    intros Hd Hr k x E. cbn [finish th_done] in *. destruct (Nat.lt_ge_cases k (length (th_done t))) as [Hk|Hk].
    - rewrite nth_error_app1 in E by auto. destruct (Hd k x E) as (f & Ef & Hm). exists f. split; auto. rewrite firstn_app. replace (k - length (th_done t))%nat with 0%nat by lia. cbn. rewrite app_nil_r. exact Hm.
    - rewrite nth_error_app2 in E by auto. destruct (k - length (th_done t))%nat as [|m] eqn:Em; cbn in E; [|destruct m; discriminate]. assert (k = length (th_done t)) by lia. subst k. inversion E; subst.
      rewrite firstn_app, Nat.sub_diag, firstn_all. cbn. rewrite app_nil_r. apply Hr. reflexivity.
  Qed.
  Lemma tstep_ok h t todo0 h' t' : (size h0 <= size h)%nat -> knows0 todo0 -> now_ok h todo0 t -> done_ok h todo0 t -> tstep h t = Some (h', t') ->
    grows h h' /\ now_ok h' todo0 t' /\ done_ok h' todo0 t' /\
    (Permutation (owned t') (owned t) \/ owned t' = size h :: owned t /\ (size h < size h')%nat \/ (exists x, Permutation (owned t) (x :: owned t'))).
  Proof.
    intros Hs0 Hk Hn Hd E. unfold tstep in E. unfold now_ok in Hn. destruct (th_now t) as [[c p]|] eqn:Et.
    2:{ destruct (th_todo t) as [|f todo] eqn:Etd; [discriminate|]. inversion E; subst. apply skipn_cons in Hn. destruct Hn as [H1 H2]. split; [apply grows_refl|].
        split; [exists f; cbn; auto|]. split; [intros k x; apply Hd|]. left. unfold owned. rewrite Et. cbn. apply Permutation_refl. }
    injection E as E. destruct Hn as (f & Ef & Ec & Etd & Hp).
    assert (Hin : forall i, In i (ct_inputs c) -> (i < size h)%nat).
    { intros i Hi. rewrite Ec in Hi. destruct (Hk f (th_done t) i (nth_error_In _ _ Ef) Hi) as [?|Hr]; [lia|]. apply In_nth_error in Hr. destruct Hr as (k & Ek). destruct (Hd k i Ek) as (f' & _ & Hm). destruct Hm as (Hm & _). exact Hm. }
    assert (Fin : forall r (Hr : forall x, r = Ok x -> exists f, nth_error todo0 (length (th_done t)) = Some f /\ made h (f (th_done t)) x),
      now_ok h todo0 (finish t r) /\ done_ok h todo0 (finish t r)).
    { intros r Hr. split; [|apply done_snoc; auto]. unfold now_ok. cbn [finish th_now th_todo th_done]. rewrite app_length. cbn. rewrite Nat.add_1_r. exact Etd. }
    assert (Go : forall h1 p1, match p1 with
        | PStart => True
        | PLoaded _ | PAgain _ _ => ct_qid c = None
        | PNew q => ct_qid c = None \/ ct_qid c = Some q
        | PCheck self rest => object_of h1 c self /\ exists pre, ct_inputs c = pre ++ rest /\ forall i, In i pre -> In self (nd_sink (nd h1 i))
        | PAppend self item rest => object_of h1 c self /\ exists pre, ct_inputs c = pre ++ item :: rest /\ forall i, In i pre -> In self (nd_sink (nd h1 i))
        end -> now_ok h1 todo0 (at_phase t c p1)).
    { intros h1 p1 H1. unfold now_ok. cbn [at_phase th_now th_todo th_done]. exists f. auto. }
    assert (DG : forall h1 p1, grows h h1 -> done_ok h1 todo0 (at_phase t c p1)) by (intros h1 p1 G k x; apply (done_grows h h1 todo0 t G Hd)).
    assert (FinR : forall e, h' = h -> t' = finish t (Raise e) -> (owned t = oks (th_done t) \/ exists x, owned t = x :: oks (th_done t)) -> grows h h' /\ now_ok h' todo0 t' /\ done_ok h' todo0 t' /\
      (Permutation (owned t') (owned t) \/ owned t' = size h :: owned t /\ (size h < size h')%nat \/ (exists x, Permutation (owned t) (x :: owned t')))).
    { intros e -> -> Ho. destruct (Fin (Raise e)) as [F1 F2]; [discriminate|]. split; [apply grows_refl|]. split; auto. split; auto.
      assert (Eo : owned (finish t (Raise e)) = oks (th_done t)) by (unfold owned; cbn [finish th_now th_done]; rewrite oks_snoc, app_nil_r; reflexivity). rewrite Eo.
      destruct Ho as [-> | (x & ->)]; [left; apply Permutation_refl|right; right; exists x; apply Permutation_refl]. }
    destruct p as [|q|q y|q|self rest|self item rest].
    - destruct (match ct_default c with Some (DList l) => negb (zlen l =? 2 ^ ctor_n h c) | _ => false end); [inversion E; subst; apply (FinR ValueError); auto; left; unfold owned; rewrite Et; reflexivity|].
      destruct (ctor_n h c <=? 0); [inversion E; subst; apply (FinR GenericException); auto; left; unfold owned; rewrite Et; reflexivity|].
      inversion E; subst h' t'. split; [apply grows_refl|]. split; [apply Go; destruct (ct_qid c) eqn:Eq; auto|]. split; [apply DG, grows_refl|].
      left. unfold owned. rewrite Et. cbn [at_phase th_now th_done]. destruct (ct_qid c); apply Permutation_refl.
    - inversion E; subst h' t'. split; [apply grows_refl|]. split; [apply Go; exact Hp|]. split; [apply DG, grows_refl|]. left. unfold owned. rewrite Et. apply Permutation_refl.
    - inversion E; subst h' t'. split; [apply grows_qid|]. split; [apply Go; auto|]. split; [apply DG, grows_qid|]. left. unfold owned. rewrite Et. apply Permutation_refl.
    - inversion E; subst h' t'. set (h1 := mkHeap _ (h_qid h)). assert (G : grows h h1) by apply grows_new. assert (Sz : size h1 = S (size h)) by (unfold h1, size; cbn; rewrite app_length; cbn; lia).
      split; [exact G|]. split; [|split; [apply DG; exact G|right; left; split; [unfold owned; rewrite Et; reflexivity|lia]]].
      apply Go. split; [|exists []; split; auto; intros i []].
      assert (En : nd h1 (size h) = mkNode (ct_kind c) (ct_inputs c) (ctor_n h c) q (ct_default c) []) by (unfold nd, h1, size; cbn [h_nodes]; rewrite app_nth2, Nat.sub_diag by lia; reflexivity).
      split; [lia|]. split; [intros i Hi; specialize (Hin i Hi); lia|]. rewrite En. cbn. repeat split; auto; [symmetry; apply ctor_n_grows; auto|]. intros q0 Hq. destruct Hp as [Hp|Hp]; congruence.
    - destruct Hp as (Ho & pre & Epre & Hpre). destruct rest as [|item rest].
      + inversion E; subst h' t'. destruct (Fin (Ok self)) as [F1 F2].
        { intros x Hx. inversion Hx; subst x. exists f. split; auto. rewrite <- Ec. apply made_iff. split; auto. intros i Hi. apply Hpre. rewrite Epre, app_nil_r in Hi. exact Hi. }
        split; [apply grows_refl|]. split; auto. split; auto. left. unfold owned. rewrite Et. cbn [finish th_now th_done]. rewrite oks_snoc. cbn. apply Permutation_sym, Permutation_cons_append.
      + assert (Hgo : (h, at_phase t c (PAppend self item rest)) = (h', t') -> grows h h' /\ now_ok h' todo0 t' /\ done_ok h' todo0 t' /\
          (Permutation (owned t') (owned t) \/ owned t' = size h :: owned t /\ (size h < size h')%nat \/ (exists x, Permutation (owned t) (x :: owned t')))).
        { intros E'. inversion E'; subst h' t'. split; [apply grows_refl|]. split; [apply Go; split; auto; exists pre; auto|]. split; [apply DG, grows_refl|]. left. unfold owned. rewrite Et. apply Permutation_refl. }
        destruct (is_qubit (nd_kind (nd h self))); auto. destruct (nd_sink (nd h item)) as [|s0 l]; auto. destruct (nd_qid (nd h s0) =? nd_qid (nd h self)); auto.
        inversion E; subst. apply (FinR GenericException); auto. right. exists self. unfold owned. rewrite Et. reflexivity.
    - inversion E; subst h' t'. destruct Hp as (Ho & pre & Epre & Hpre). assert (G : grows h (add_sink h item self)) by apply grows_sink.
      split; [exact G|]. split; [|split; [apply DG; exact G|left; unfold owned; rewrite Et; apply Permutation_refl]].
      apply Go. split; [eapply object_grows; eauto|]. exists (pre ++ [item]). split; [rewrite Epre, <- app_assoc; reflexivity|].
      assert (Hi0 : forall i, In i (pre ++ [item]) -> (i < size h)%nat) by (intros i Hi; apply Hin; rewrite Epre; apply in_or_app; apply in_app_or in Hi; destruct Hi as [Hi|[Hi|[]]]; [auto|subst; right; left; reflexivity]).
      intros i Hi. pose proof (Hi0 i Hi) as Hlt. apply in_app_or in Hi. destruct Hi as [Hi|[Hi|[]]]; [eapply sink_grows; eauto|]. subst i. rewrite nd_add_sink by auto. apply in_or_app. right. left. reflexivity.
  Qed.

  (** all the threads *)
  Variable ts0 : list (thread K).
  Record inv (s : sys K) : Prop := {
    inv_grows : grows h0 (sy_heap s);
    inv_len : length (sy_threads s) = length ts0;
    inv_now : forall i t0 t, nth_error ts0 i = Some t0 -> nth_error (sy_threads s) i = Some t -> now_ok (sy_heap s) (th_todo t0) t /\ done_ok (sy_heap s) (th_todo t0) t;
    inv_own : NoDup (flat_map owned (sy_threads s));
    inv_range : forall x, In x (flat_map owned (sy_threads s)) -> (size h0 <= x < size (sy_heap s))%nat }.
  Lemma flat_map_upd {A B} (g : A -> list B) (l : list A) : forall i x y, nth_error l i = Some x -> exists r, Permutation (flat_map g l) (g x ++ r) /\ Permutation (flat_map g (upd l i y)) (g y ++ r).
  Proof.
    induction l as [|a l IH]; intros [|i] x y E; cbn in E; try discriminate.
    - inversion E; subst. exists (flat_map g l). cbn. split; apply Permutation_refl.
    - destruct (IH i x y E) as (r & P1 & P2). exists (g a ++ r). cbn. split.
      + rewrite P1. rewrite !app_assoc. apply Permutation_app_tail, Permutation_app_comm.
      + rewrite P2. rewrite !app_assoc. apply Permutation_app_tail, Permutation_app_comm.
  Qed.
  Lemma turn_inv s i : (forall t0, In t0 ts0 -> knows0 (th_todo t0)) -> inv s -> inv (turn s i) /\ grows (sy_heap s) (sy_heap (turn s i)).
  Proof.
    intros Hk [G L N O Rg]. unfold turn. destruct (nth_error (sy_threads s) i) as [t|] eqn:Et; [|split; [constructor; auto|apply grows_refl]].
    destruct (tstep (sy_heap s) t) as [[h' t']|] eqn:E; [|split; [constructor; auto|apply grows_refl]].
    destruct (nth_error ts0 i) as [t0|] eqn:E0.
    2:{ exfalso. apply nth_error_None in E0. assert (i < length (sy_threads s))%nat by (apply nth_error_Some; congruence). lia. }
    destruct (N i t0 t E0 Et) as [N1 N2]. destruct (tstep_ok (sy_heap s) t (th_todo t0) h' t') as (G' & N1' & N2' & Ho); auto; [apply G|apply Hk; eapply nth_error_In; eauto|].
    split; [|exact G']. destruct (flat_map_upd owned (sy_threads s) i t t' Et) as (r & P1 & P2). constructor; cbn [sy_heap sy_threads].
    - eapply grows_trans; eauto.
    - rewrite upd_length. exact L.
    - intros j t1 u E1 E2. rewrite nth_error_upd in E2. destruct (Nat.eqb_spec i j) as [->|Hij].
      + rewrite Et in E2. inversion E2; subst u. rewrite E0 in E1. inversion E1; subst. auto.
      + destruct (N j t1 u E1 E2). split; [eapply now_grows; eauto|eapply done_grows; eauto].
    - apply (Permutation_NoDup (Permutation_sym P2)). apply (Permutation_NoDup P1) in O. destruct Ho as [Ho|[[Ho _]|(x & Ho)]].
      + rewrite Ho. exact O.
      + rewrite Ho. cbn. constructor; auto. intros Hx. apply (Permutation_in _ (Permutation_sym P1)) in Hx. apply Rg in Hx. lia.
      + rewrite Ho in O. cbn in O. inversion O; auto.
    - intros x Hx. apply (Permutation_in _ P2) in Hx. destruct G as [Gs _]. destruct G' as [Gs' _].
      assert (Hold : forall x, In x (owned t ++ r) -> (size h0 <= x < size h')%nat) by (intros z Hz; apply (Permutation_in _ (Permutation_sym P1)) in Hz; apply Rg in Hz; lia).
      destruct Ho as [Ho|[[Ho Hl]|(z & Ho)]].
      + apply Hold. rewrite <- Ho. exact Hx.
      + rewrite Ho in Hx. cbn in Hx. destruct Hx as [<-|Hx]; [lia|auto].
      + apply Hold. rewrite Ho. right. exact Hx.
  Qed.
  Lemma turns_inv sched : (forall t0, In t0 ts0 -> knows0 (th_todo t0)) -> forall s, inv s -> inv (turns s sched) /\ grows (sy_heap s) (sy_heap (turns s sched)).
  Proof.
    intros Hk. induction sched as [|i sched IH]; intros s Hs; [split; [exact Hs|apply grows_refl]|]. destruct (turn_inv s i Hk Hs) as [H1 G1]. destruct (IH _ H1) as [H2 G2].
    split; [exact H2|]. eapply grows_trans; eauto.
  Qed.
End Every.

Section Objects.
  Context {K : Type} {OK : OrdRing K}.
  Lemma owned_fresh (ts : list (thread K)) : (forall t, In t ts -> th_now t = None /\ th_done t = []) -> flat_map owned ts = [].
  Proof. induction ts as [|t ts IH]; intros H; auto. cbn. rewrite IH by (intros; apply H; right; auto). destruct (H t (or_introl eq_refl)) as [H1 H2]. unfold owned. rewrite H1, H2. reflexivity. Qed.
  Lemma oks_in l k x : nth_error l k = Some (Ok x) -> In x (oks l).
  Proof. intros E. unfold oks. apply in_flat_map. exists (Ok x). split; [eapply nth_error_In; eauto|left; reflexivity]. Qed.
  Lemma oks_nodup l : NoDup (oks l) -> forall k k' x, nth_error l k = Some (Ok x) -> nth_error l k' = Some (Ok x) -> k = k'.
  Proof.
    induction l as [|r l IH]; intros N [|k] [|k'] x E1 E2; cbn in E1, E2; try discriminate; auto.
    - inversion E1; subst r. cbn in N. inversion N as [|? ? N1 N2]. destruct N1. eapply oks_in; eauto.
    - inversion E2; subst r. cbn in N. inversion N as [|? ? N1 N2]. destruct N1. eapply oks_in; eauto.
    - f_equal. eapply IH; eauto. unfold oks in N. cbn in N. destruct r; cbn in N; auto. inversion N; auto.
  Qed.
  Lemma nodup_app_parts {A} (l m : list A) : NoDup (l ++ m) -> NoDup l /\ NoDup m /\ forall x, In x l -> ~ In x m.
  Proof.
    induction l as [|a l IH]; cbn; intros N; [split; [constructor|]; auto|]. inversion N as [|? ? N1 N2]; subst. destruct (IH N2) as (A1 & A2 & A3).
    split; [constructor; auto; intros Ha; apply N1, in_or_app; auto|]. split; auto. intros x [<-|Hx]; [intros Hm; apply N1, in_or_app; auto|auto].
  Qed.
  Lemma owned_nodup (ts : list (thread K)) : NoDup (flat_map owned ts) -> forall i t i' t' k k' x,
    nth_error ts i = Some t -> nth_error ts i' = Some t' -> nth_error (th_done t) k = Some (Ok x) -> nth_error (th_done t') k' = Some (Ok x) -> i = i' /\ k = k'.
  Proof.
    induction ts as [|a ts IH]; intros N [|i] t [|i'] t' k k' x E E' Ek Ek'; cbn in E, E'; try discriminate; cbn in N; apply nodup_app_parts in N; destruct N as (N1 & N2 & N3).
    - inversion E; subst a. inversion E'; subst t'. split; auto. apply nodup_app_parts in N1. destruct N1 as (_ & N1 & _). eapply oks_nodup; eauto.
    - inversion E; subst a. exfalso. apply (N3 x); [unfold owned; apply in_or_app; right; eapply oks_in; eauto|]. apply in_flat_map. exists t'. split; [eapply nth_error_In; eauto|]. unfold owned. apply in_or_app. right. eapply oks_in; eauto.
    - inversion E'; subst a. exfalso. apply (N3 x); [unfold owned; apply in_or_app; right; eapply oks_in; eauto|]. apply in_flat_map. exists t. split; [eapply nth_error_In; eauto|]. unfold owned. apply in_or_app. right. eapply oks_in; eauto.
    - destruct (IH N2 i t i' t' k k' x E E' Ek Ek'). split; congruence.
  Qed.
  Lemma threads_objects (s : sys K) sched : fresh s -> let e := turns s sched in
    grows (sy_heap s) (sy_heap e) /\
    (forall i t0 t k x, nth_error (sy_threads s) i = Some t0 -> nth_error (sy_threads e) i = Some t -> nth_error (th_done t) k = Some (Ok x) ->
       (size (sy_heap s) <= x)%nat /\ exists f, nth_error (th_todo t0) k = Some f /\ made (sy_heap e) (f (firstn k (th_done t))) x) /\
    (forall i t k i' t' k' x, nth_error (sy_threads e) i = Some t -> nth_error (sy_threads e) i' = Some t' ->
       nth_error (th_done t) k = Some (Ok x) -> nth_error (th_done t') k' = Some (Ok x) -> i = i' /\ k = k').
  Proof.
    intros [Hi Hf] e. assert (Hfl : flat_map owned (sy_threads s) = []) by (apply owned_fresh; intros t Ht; split; [apply Hi; auto|apply Hf; auto]).
    assert (H0 : inv (sy_heap s) (sy_threads s) s).
    { constructor; auto; [apply grows_refl| |rewrite Hfl; constructor|rewrite Hfl; intros x []].
      intros i t0 t E1 E2. rewrite E1 in E2. inversion E2; subst t. pose proof (nth_error_In _ _ E1) as Hin. destruct (Hf t0 Hin) as [Hd _].
      split; [unfold now_ok; rewrite (Hi t0 Hin), Hd; reflexivity|]. intros k x Ek. rewrite Hd in Ek. destruct k; discriminate. }
    destruct (turns_inv (sy_heap s) (sy_threads s) sched) with (s := s) as [[G L N O Rg] _]; auto.
    { intros t0 Ht0. destruct (Hf t0 Ht0) as [_ Hk]. exact Hk. }
    split; [exact G|]. split.
    - intros i t0 t k x E0 Et Ek. destruct (N i t0 t E0 Et) as [_ Hd]. split; [|apply Hd; exact Ek].
      apply Rg. apply in_flat_map. exists t. split; [eapply nth_error_In; eauto|]. unfold owned. apply in_or_app. right. eapply oks_in; eauto.
    - intros i t k i' t' k' x E E' Ek Ek'. apply (owned_nodup (sy_threads e) O i t i' t' k k' x E E' Ek Ek').
  Qed.
End Objects.
