(** Threads that use contexts. *)
From Verif Require Import Base M_Bits M_Kron M_Ops M_Feed M_Func M_Measure M_Graph M_Context M_CtxObj S_CtxObj L_CtxObj2 M_CtxThreads S_CtxThreads.

Section CtxThreads.
  Context {K : Type} {OK : OrdRing K}.
  Variable cn : consts K.
  Notation cstep := (cstep cn).
  Notation orun := (orun cn).
  Notation oworld := (oworld K).
  Notation cthread := (cthread K).

  (** ** One thread *)
  Definition inside (t : cthread) : Prop := ~ outside t.
  (** by steps of the thread alone; in all states but the last it is inside *)
  Inductive reach : oworld -> cthread -> oworld -> cthread -> Prop :=
  | re_end : forall w t, reach w t w t
  | re_step : forall w t w1 t1 w' t', inside t -> cstep w t = Some (w1, t1) -> reach w1 t1 w' t' -> reach w t w' t'.
  Lemma reach_trans : forall w t w1 t1 w2 t2, reach w t w1 t1 -> reach w1 t1 w2 t2 -> reach w t w2 t2.
  Proof. induction 1; intros; auto. eapply re_step; eauto. Qed.
  Lemma inside_phase ph fs : (forall p, ph <> PRun p) -> inside (ph, fs).
  Proof. intros H (p & E). injection E as -> _. exact (H p eq_refl). Qed.
  Lemma inside_frame ph f fs : inside (ph, f :: fs).
  Proof. intros (p & E). discriminate. Qed.
  Ltac go := eapply re_step; [apply inside_phase; discriminate|cbn; reflexivity|].

  Lemma build_reach w c args k fs W T :
    match make_op cn w c args with (w1, Ok outs) => reach w1 (PAfter outs k, fs) W T | (w1, Raise e) => reach w1 (PRun (k (Raise e)), fs) W T end ->
    reach w (PBuild c args k, fs) W T.
  Proof.
    intros H. destruct (make_op cn w c args) as [w1 [outs|e]] eqn:E; (eapply re_step; [apply inside_phase; discriminate|cbn [M_CtxThreads.cstep]; rewrite E; reflexivity|exact H]).
  Qed.
  Lemma split_reach w outs k fs W T :
    match split_context (concat (contents w)) outs with Ok (applied, outs) => reach w (PCheck applied outs k, fs) W T | Raise e => reach w (PRun (k (Raise e)), fs) W T end ->
    reach w (PSplit outs k, fs) W T.
  Proof.
    intros H. destruct (split_context (concat (contents w)) outs) as [[ap o]|e] eqn:E; (eapply re_step; [apply inside_phase; discriminate|cbn [M_CtxThreads.cstep]; rewrite E; reflexivity|exact H]).
  Qed.
  Lemma op_steps c args k w fs : exists w1 t1, cstep w (PRun (COp c args k), fs) = Some (w1, t1) /\
    reach w1 t1 (fst (ocall_op cn w c args)) (PRun (k (snd (ocall_op cn w c args))), fs).
  Proof.
    eexists; eexists. split; [reflexivity|]. unfold ocall_op. change (match o_stack w with [] => false | _ => true end) with (active w). destruct (active w) eqn:Ea.
    - go. go. apply build_reach. unfold make_op. set (all := concat (contents w)).
      set (c1 := wrap_all all c). set (args1 := put_in_order AQ all args).
      destruct (oon_heap w (build cn (o_heap w) c1 args1 no_kw)) as [w1 [q|e]] eqn:E1; cbn [sbind fst snd]; [|apply re_end].
      assert (S1 : o_stack w1 = o_stack w /\ contents w1 = contents w /\ o_total w1 = o_total w) by (unfold oon_heap in E1; injection E1 as <- _; repeat split).
      destruct (oon_heap w1 (split (o_heap w1) q None)) as [w2 [outs|e]] eqn:E2; cbn [sbind fst snd]; [|apply re_end].
      assert (S2 : o_stack w2 = o_stack w1 /\ contents w2 = contents w1 /\ o_total w2 = o_total w1) by (unfold oon_heap in E2; injection E2 as <- _; repeat split).
      destruct S1 as (A1 & A2 & A3), S2 as (B1 & B2 & B3). go. assert (Ea2 : active w2 = true) by (unfold active in *; rewrite B1, A1; exact Ea). rewrite Ea2.
      apply split_reach. rewrite B2, A2. fold all.
      destruct (split_context all outs) as [[ap o]|e]; cbn [sbind fst snd]; [|apply re_end]. go. unfold oset_qubits.
      destruct (negb (zlen ap =? o_total w2)); cbn [sbind fst snd]; [apply re_end|]. go. go. destruct o; apply re_end.
    - apply build_reach. unfold make_op.
      destruct (oon_heap w (build cn (o_heap w) c args no_kw)) as [w1 [q|e]] eqn:E1; cbn [sbind fst snd]; [|apply re_end].
      assert (S1 : o_stack w1 = o_stack w) by (unfold oon_heap in E1; injection E1 as <- _; repeat split).
      destruct (oon_heap w1 (split (o_heap w1) q None)) as [w2 [outs|e]] eqn:E2; cbn [sbind fst snd]; [|apply re_end].
      assert (S2 : o_stack w2 = o_stack w1) by (unfold oon_heap in E2; injection E2 as <- _; repeat split).
      go. assert (Ea2 : active w2 = false) by (unfold active in *; rewrite S2, S1; exact Ea). rewrite Ea2. go. destruct outs; apply re_end.
  Qed.
  Lemma orun_stack : forall p w, o_stack (fst (orun p w)) = o_stack w.
  Proof.
    induction p as [r|c args k IH|set body IHb k IHk|i outs k IH]; intros w; cbn [S_CtxThreads.orun].
    - reflexivity.
    - destruct (ocall_op cn w c args) as [w1 r] eqn:E. rewrite IH. pose proof (even_op cn w c args) as H. rewrite E in H. exact H.
    - destruct (owith_new w set _) as [w1 r] eqn:E. rewrite IHk. unfold owith_new in E.
      pose proof (even_with (fst (new_context w set)) (snd (new_context w set)) (fun w0 => orun (body (snd (new_context w set))) w0) (fun w0 => IHb _ w0)) as H. rewrite E in H. exact H.
    - apply IH.
  Qed.
  Lemma pop_step w r i k fs : o_stack w <> [] -> cstep w (PRun (CEnd r), (i, k) :: fs) = Some (set_stack w (removelast (o_stack w)), (PReadOut i r k, fs)).
  Proof. intros H. cbn. destruct (o_stack w); [congruence|reflexivity]. Qed.
  Lemma with_steps set body k w fs : (forall i w fs, fs <> [] -> reach w (PRun (body i), fs) (fst (orun (body i) w)) (PRun (CEnd (snd (orun (body i) w))), fs)) ->
    exists w1 t1, cstep w (PRun (CWith set body k), fs) = Some (w1, t1) /\
    reach w1 t1 (fst (owith_new w set (fun i w => orun (body i) w))) (PRun (k (snd (owith_new w set (fun i w => orun (body i) w)))), fs).
  Proof.
    intros Hb. eexists; eexists. split; [reflexivity|]. unfold owith_new, owith. set (n := new_context w set). destruct n as [w0 i]. cbn [fst snd].
    go. go. go. fold (oenter w0 i). change (set_total (set_stack w0 (o_stack w0 ++ [i])) (o_total w0 + snd (obj (set_stack w0 (o_stack w0 ++ [i])) i))) with (oenter w0 i).
    eapply reach_trans; [apply Hb; discriminate|]. set (w1 := fst (orun (body i) (oenter w0 i))).
    assert (Es : o_stack w1 = o_stack w0 ++ [i]) by (unfold w1; rewrite orun_stack; reflexivity).
    eapply re_step; [apply inside_frame|apply (pop_step w1); rewrite Es; destruct (o_stack w0); discriminate|].
    go. go. apply re_end.
  Qed.
  Lemma run_code : forall p w fs, fs <> [] -> reach w (PRun p, fs) (fst (orun p w)) (PRun (CEnd (snd (orun p w))), fs).
  Proof.
    induction p as [r|c args k IH|set body IHb k IHk|i outs k IH]; intros w fs Hf; cbn [S_CtxThreads.orun]; (destruct fs as [|f fs]; [congruence|]).
    - apply re_end.
    - destruct (op_steps c args k w (f :: fs)) as (w1 & t1 & E1 & E2). eapply re_step; [apply inside_frame|exact E1|]. eapply reach_trans; [exact E2|].
      destruct (ocall_op cn w c args) as [w2 r]. cbn [fst snd]. apply IH. exact Hf.
    - destruct (with_steps set body k w (f :: fs) IHb) as (w1 & t1 & E1 & E2). eapply re_step; [apply inside_frame|exact E1|]. eapply reach_trans; [exact E2|].
      destruct (owith_new w set _) as [w2 r]. cbn [fst snd]. apply IHk. exact Hf.
    - eapply re_step; [apply inside_frame|reflexivity|]. apply IH. exact Hf.
  Qed.
  Lemma item_steps p w : (exists r, p = CEnd r) \/ exists w1 t1, cstep w (start p) = Some (w1, t1) /\ reach w1 t1 (fst (item cn p w)) (start (snd (item cn p w))).
  Proof.
    destruct p as [r|c args k|set body k|i outs k]; cbn [item].
    - left. eauto.
    - right. destruct (op_steps c args k w []) as (w1 & t1 & E1 & E2). exists w1, t1. split; [exact E1|]. destruct (ocall_op cn w c args). exact E2.
    - right. destruct (with_steps set body k w [] (fun i w fs => run_code (body i) w fs)) as (w1 & t1 & E1 & E2). exists w1, t1. split; [exact E1|]. destruct (owith_new w set _). exact E2.
    - right. eexists; eexists. split; [reflexivity|]. apply re_end.
  Qed.
  Lemma cruns_app : forall s s' w ts, cruns cn w ts (s ++ s') = match cruns cn w ts s with Some (w, ts) => cruns cn w ts s' | None => None end.
  Proof. induction s as [|j s IH]; intros s' w ts; cbn; auto. destruct (nth_error ts j); auto. destruct (M_CtxThreads.cstep cn w c) as [[w1 t1]|]; auto. Qed.
  Lemma upd_upd {A} : forall (l : list A) j x y, upd (upd l j x) j y = upd l j y.
  Proof. induction l as [|a l IH]; intros [|j] x y; cbn; auto. f_equal. apply IH. Qed.
  Lemma upd_nth_error {A} : forall (l : list A) j x, (j < length l)%nat -> nth_error (upd l j x) j = Some x.
  Proof. induction l as [|a l IH]; intros [|j] x H; cbn in *; try lia; auto. apply IH. lia. Qed.
  Lemma upd_nth_other {A} : forall (l : list A) j i x, i <> j -> nth_error (upd l j x) i = nth_error l i.
  Proof. induction l as [|a l IH]; intros [|j] [|i] x H; cbn; congruence || auto. Qed.
  Lemma upd_same {A} : forall (l : list A) j x, nth_error l j = Some x -> upd l j x = l.
  Proof. induction l as [|a l IH]; intros [|j] x H; cbn in *; try congruence. f_equal. auto. Qed.
  Lemma reach_runs : forall w t w' t', reach w t w' t' -> exists n, forall ts j, nth_error ts j = Some t -> cruns cn w ts (repeat j n) = Some (w', upd ts j t').
  Proof.
    induction 1 as [w t|w t w1 t1 w' t' Hi Hs Hr (n & IH)].
    - exists O. intros ts j H. cbn. rewrite (upd_same _ _ _ H). reflexivity.
    - exists (S n). intros ts j H. cbn. rewrite H, Hs. rewrite IH; [rewrite upd_upd; reflexivity|]. apply upd_nth_error. apply nth_error_Some. congruence.
  Qed.
  (** a thread that is alone *)
  Lemma alone : forall p w, exists n, forall ts j, nth_error ts j = Some (start p) ->
    cruns cn w ts (repeat j n) = Some (fst (orun p w), upd ts j (start (CEnd (snd (orun p w))))).
  Proof.
    induction p as [r|c args k IH|set body IHb k IHk|i outs k IH]; intros w.
    - exists O. intros ts j H. cbn. rewrite (upd_same _ _ _ H). reflexivity.
    - destruct (item_steps (COp c args k) w) as [[r E]|(w1 & t1 & E1 & E2)]; [discriminate|]. destruct (reach_runs _ _ _ _ E2) as (n & Hn). cbn [item] in Hn. cbn [S_CtxThreads.orun].
      destruct (ocall_op cn w c args) as [w2 r]. cbn [fst snd] in *. destruct (IH r w2) as (m & Hm). exists (S n + m)%nat. intros ts j H. rewrite repeat_app, cruns_app. cbn [repeat cruns].
      rewrite H, E1. assert (Hl : (j < length ts)%nat) by (apply nth_error_Some; congruence). rewrite Hn by (apply upd_nth_error; auto). rewrite upd_upd.
      rewrite Hm by (apply upd_nth_error; auto). rewrite upd_upd. reflexivity.
    - destruct (item_steps (CWith set body k) w) as [[r E]|(w1 & t1 & E1 & E2)]; [discriminate|]. destruct (reach_runs _ _ _ _ E2) as (n & Hn). cbn [item] in Hn. cbn [S_CtxThreads.orun].
      destruct (owith_new w set _) as [w2 r]. cbn [fst snd] in *. destruct (IHk r w2) as (m & Hm). exists (S n + m)%nat. intros ts j H. rewrite repeat_app, cruns_app. cbn [repeat cruns].
      rewrite H, E1. assert (Hl : (j < length ts)%nat) by (apply nth_error_Some; congruence). rewrite Hn by (apply upd_nth_error; auto). rewrite upd_upd.
      rewrite Hm by (apply upd_nth_error; auto). rewrite upd_upd. reflexivity.
    - destruct (IH (put_in_order (fun i => i) (fst (obj w i)) outs) w) as (m & Hm). exists (S m). intros ts j H. cbn [repeat cruns]. rewrite H. cbn [start M_CtxThreads.cstep].
      assert (Hl : (j < length ts)%nat) by (apply nth_error_Some; congruence). rewrite Hm by (apply upd_nth_error; auto). rewrite upd_upd. reflexivity.
  Qed.

  (** ** Turns *)
  Definition idle (ts : list cthread) : Prop := forall t, In t ts -> outside t.
  Lemma reach_consumes : forall w t W T, reach w t W T -> outside T -> forall ts j sched w' ts', (j < length ts)%nat ->
    exclusive cn w (upd ts j t) sched -> cruns cn w (upd ts j t) sched = Some (w', ts') -> idle ts' ->
    exists sched', (length sched' <= length sched)%nat /\ exclusive cn W (upd ts j T) sched' /\ cruns cn W (upd ts j T) sched' = Some (w', ts').
  Proof.
    induction 1 as [w t|w t w1 t1 W T Hi Hs Hr IH]; intros HT ts j sched w' ts' Hj He Hc Hd; [exists sched; auto|].
    inversion He as [w0 ts0|w0 ts0 i sched0 t0 w2 t2 Ho Hn Hs0 He0]; subst.
    - cbn in Hc. injection Hc as _ <-. destruct Hi. apply Hd. apply nth_error_In with (n := j). apply upd_nth_error. exact Hj.
    - destruct (Nat.eq_dec i j) as [->|Hne]; [|destruct Hi; apply (Ho j); [congruence|apply upd_nth_error; exact Hj]].
      rewrite upd_nth_error in Hn by exact Hj. injection Hn as <-. rewrite Hs in Hs0. injection Hs0 as <- <-. cbn [cruns] in Hc. rewrite upd_nth_error, Hs in Hc by exact Hj. rewrite upd_upd in *.
      destruct (IH HT ts j sched0 w' ts' Hj He0 Hc Hd) as (sched' & H1 & H2). exists sched'. split; [cbn; lia|exact H2].
  Qed.
  Lemma map_upd {A B} (f : A -> B) : forall l j x, map f (upd l j x) = upd (map f l) j (f x).
  Proof. induction l as [|a l IH]; intros [|j] x; cbn; auto. f_equal. apply IH. Qed.
  Lemma turns_aux : forall n sched w ps w' ts', (length sched <= n)%nat -> exclusive cn w (map start ps) sched -> cruns cn w (map start ps) sched = Some (w', ts') -> idle ts' ->
    exists who, in_turn cn w ps who = (w', map (fun t => match t with (PRun p, _) => p | _ => CEnd (Ok []) end) ts') /\ ts' = map start (snd (in_turn cn w ps who)).
  Proof.
    induction n as [|n IH]; intros [|j sched] w ps w' ts' Hl He Hc Hd; cbn [length] in Hl; try lia.
    1,2: cbn in Hc; injection Hc as <- <-; exists []; cbn; split; auto; rewrite map_map, map_id; reflexivity.
    inversion He as [|w0 ts0 i sched0 t w1 t1 Ho Hn Hs He0]; subst. cbn [cruns] in Hc. rewrite Hn, Hs in Hc. rewrite nth_error_map in Hn. destruct (nth_error ps j) as [p|] eqn:Ep; [|discriminate].
    cbn in Hn. injection Hn as <-. assert (Hj : (j < length ps)%nat) by (apply nth_error_Some; congruence).
    destruct (item_steps p w) as [[r ->]|(w2 & t2 & E1 & E2)]; [discriminate|]. rewrite Hs in E1. injection E1 as <- <-.
    destruct (reach_consumes _ _ _ _ E2 (ex_intro _ _ eq_refl) (map start ps) j sched w' ts' ltac:(rewrite map_length; exact Hj) He0 Hc Hd) as (sched' & H1 & H2 & H3).
    rewrite <- map_upd in H2, H3. destruct (IH sched' _ _ _ _ ltac:(lia) H2 H3 Hd) as (who & W1 & W2). exists (j :: who). cbn [in_turn].
    rewrite (nth_error_nth _ _ _ Ep). destruct (item cn p w) as [w3 p3]. cbn [fst snd] in *. auto.
  Qed.
  Lemma turns : forall sched w ps w' ts', exclusive cn w (map start ps) sched -> cruns cn w (map start ps) sched = Some (w', ts') -> (forall t, In t ts' -> outside t) ->
    exists who ps', in_turn cn w ps who = (w', ps') /\ ts' = map start ps'.
  Proof.
    intros sched w ps w' ts' He Hc Hd. destruct (turns_aux _ sched w ps w' ts' (le_n _) He Hc Hd) as (who & W1 & W2). exists who. eexists. split; [exact W1|]. rewrite W1 in W2. exact W2.
  Qed.

  (** ** Contexts without qubits *)
  Definition blank (w : oworld) : Prop := forall i, obj w i = ([], 0).
  Lemma blank_contents w : blank w -> concat (contents w) = [].
  Proof. intros H. unfold contents. induction (o_stack w) as [|i s IH]; auto. cbn. rewrite H, IH. reflexivity. Qed.
  Lemma blank_loop : forall stack w l, blank w -> let w' := oset_loop w stack l in blank w' /\ o_heap w' = o_heap w /\ o_stack w' = o_stack w /\ o_total w' = o_total w.
  Proof.
    induction stack as [|i stack IH]; intros w l H; cbn [oset_loop]; [auto|]. rewrite H. cbn [fst snd set_qubits_set].
    destruct (IH (set_obj w i ([], 0)) l) as (A & B & C & D); [|split; [exact A|]; repeat split; auto].
    intros j. unfold obj, set_obj. cbn [o_objs]. rewrite nth_upd. destruct (_ && _)%bool; auto. apply H.
  Qed.
  Lemma blank_new w : blank w -> blank (fst (new_context w [])).
  Proof.
    intros H j. unfold obj, new_context. cbn [o_objs fst]. destruct (Nat.lt_ge_cases j (length (o_objs w))) as [Hj|Hj]; [rewrite app_nth1 by exact Hj; apply H|].
    rewrite app_nth2 by exact Hj. destruct (j - length (o_objs w))%nat as [|[|m]]; reflexivity.
  Qed.
  Definition shown (outs : list nat) : res (list nat) := match outs with [] => Raise ValueError | _ => Ok outs end.
  Definition plain_of (t : cthread) : pthread :=
    let ks := map snd (snd t) in
    match fst t with
    | PRun p => (p, ks)
    | POrder c args k | PWrap c args k | PBuild c args k => (COp c args k, ks)
    | PAfter outs k | PSplit outs k | PCheck _ outs k | PStore _ outs k | PReturn outs k => (k (shown outs), ks)
    | PPush _ body k => (body, k :: ks)
    | PReadIn _ body | PWriteIn _ body => (body, ks)
    | PReadOut _ r k | PWriteOut _ r k => (k r, ks)
    end.
  Definition quiet (k : res (list nat) -> code K) : Prop := forall r, no_qubits (k r).
  Definition thread_ok (t : cthread) : Prop :=
    (forall i k, In (i, k) (snd t) -> quiet k) /\
    match fst t with
    | PRun p => no_qubits p
    | POrder c args k | PWrap c args k | PBuild c args k => quiet k
    | PAfter _ k | PSplit _ k | PReturn _ k => quiet k
    | PCheck applied _ k | PStore applied _ k => applied = [] /\ quiet k
    | PPush _ body k => no_qubits body /\ quiet k
    | PReadIn _ body => no_qubits body
    | PWriteIn t body => t = 0 /\ no_qubits body
    | PReadOut _ r k => quiet k
    | PWriteOut t r k => t = 0 /\ quiet k
    end.
  Lemma removelast_len {A} : forall l : list A, length (removelast l) = pred (length l).
  Proof. induction l as [|a [|b l] IH]; auto. cbn [length pred] in *. rewrite <- IH. reflexivity. Qed.
  (** one step: nothing in the circuit that the library without contexts does not do *)
  Lemma plain_step w t w' t' : blank w -> o_total w = 0 -> thread_ok t -> (snd t <> [] -> o_stack w <> []) -> cstep w t = Some (w', t') ->
    blank w' /\ o_total w' = 0 /\ thread_ok t' /\ (length (o_stack w') + length (snd t) = length (o_stack w) + length (snd t'))%nat /\
    ((o_heap w' = o_heap w /\ plain_of t' = plain_of t) \/ pstep cn (o_heap w) (plain_of t) (o_heap w') (plain_of t')).
  Proof.
    intros Hb Ht [Hf Hk] Hst Hs. pose proof (blank_contents w Hb) as Hc. destruct t as [ph fs]. cbn [fst snd] in *.
    destruct ph as [p|c args k|c args k|c args k|outs k|outs k|applied outs k|applied outs k|outs k|i body k|i body|tt body|i r k|tt r k]; cbn [M_CtxThreads.cstep] in Hs.
    - destruct p as [r|c args k|set body k|i outs k].
      + destruct fs as [|[i k] fs]; [discriminate|]. change (cstep w (PRun (CEnd r), (i, k) :: fs) = Some (w', t')) in Hs. assert (Hst' : o_stack w <> []) by (apply Hst; discriminate). rewrite pop_step in Hs by exact Hst'.
        assert (Ew : set_stack w (removelast (o_stack w)) = w') by congruence. assert (Et : (PReadOut i r k, fs) = t') by congruence. subst w' t'. clear Hs. cbn [fst snd o_total set_stack o_stack o_heap].
        split; [exact Hb|]. split; [exact Ht|]. split; [split; [intros j k' Hi; apply (Hf j); right; exact Hi|apply (Hf i); left; reflexivity]|].
        split; [rewrite removelast_len; destruct (o_stack w); [congruence|]; cbn; lia|]. right. apply ps_leave.
      + injection Hs as <- <-. inversion Hk; subst. split; [exact Hb|]. split; [exact Ht|]. split; [split; [exact Hf|destruct (active w); assumption]|]. split; [cbn; lia|]. left. split; auto. destruct (active w); reflexivity.
      + inversion Hk as [| |b0 k0 Hb0 Hk0|]; subst. injection Hs as <- <-. split; [apply blank_new; exact Hb|]. split; [exact Ht|]. split; [split; [exact Hf|split; [apply Hb0|exact Hk0]]|]. split; [cbn; lia|]. right. apply ps_with.
      + injection Hs as <- <-. inversion Hk as [| | |i0 o0 k0 Hk0]; subst. rewrite (Hb i). split; [exact Hb|]. split; [exact Ht|]. split; [split; [exact Hf|apply Hk0]|]. split; [cbn; lia|]. right. apply ps_local.
    - injection Hs as <- <-. rewrite Hc. split; [exact Hb|]. split; [exact Ht|]. split; [split; [exact Hf|exact Hk]|]. split; [reflexivity|]. left. split; reflexivity.
    - injection Hs as <- <-. rewrite Hc. split; [exact Hb|]. split; [exact Ht|]. split; [split; [exact Hf|exact Hk]|]. split; [reflexivity|]. left. split; reflexivity.
    - unfold make_op, oon_heap in Hs. unfold plain_of at 2 3. cbn [fst snd]. set (d := direct cn (o_heap w) c args).
      assert (Ed : d = direct cn (o_heap w) c args) by reflexivity. unfold direct in Ed. destruct (build cn (o_heap w) c args no_kw) as [h1 [q|e]]; cbn [sbind fst snd] in Hs, Ed.
      + unfold oset_heap in Hs. cbn [o_heap] in Hs. destruct (split h1 q None) as [h2 [outs|e]]; cbn [sbind fst snd] in Hs, Ed; injection Hs as <- <-.
        * split; [exact Hb|]. split; [exact Ht|]. split; [split; [exact Hf|exact Hk]|]. split; [reflexivity|]. right. cbn [o_heap plain_of fst snd]. fold (shown outs) in Ed. pose proof (ps_op cn (o_heap w) c args k (map snd fs)) as P. fold d in P. rewrite Ed in P. exact P.
        * split; [exact Hb|]. split; [exact Ht|]. split; [split; [exact Hf|apply Hk]|]. split; [reflexivity|]. right. pose proof (ps_op cn (o_heap w) c args k (map snd fs)) as P. fold d in P. rewrite Ed in P. exact P.
      + injection Hs as <- <-. split; [exact Hb|]. split; [exact Ht|]. split; [split; [exact Hf|apply Hk]|]. split; [reflexivity|]. right. pose proof (ps_op cn (o_heap w) c args k (map snd fs)) as P. fold d in P. rewrite Ed in P. exact P.
    - injection Hs as <- <-. split; [exact Hb|]. split; [exact Ht|]. split; [split; [exact Hf|destruct (active w); exact Hk]|]. split; [cbn; lia|]. left. split; auto. destruct (active w); reflexivity.
    - rewrite Hc in Hs. cbn [split_context] in Hs. injection Hs as <- <-. split; [exact Hb|]. split; [exact Ht|]. split; [split; [exact Hf|split; [reflexivity|exact Hk]]|]. split; [cbn; lia|]. left. split; reflexivity.
    - destruct Hk as [-> Hk]. rewrite Ht in Hs. cbn [zlen length Z.of_nat Z.eqb negb] in Hs. injection Hs as <- <-. split; [exact Hb|]. split; [exact Ht|]. split; [split; [exact Hf|split; [reflexivity|exact Hk]]|]. split; [cbn; lia|]. left. split; reflexivity.
    - injection Hs as <- <-. destruct (blank_loop (o_stack w) w applied Hb) as (B1 & B2 & B3 & B4). split; [exact B1|]. split; [congruence|]. split; [split; [exact Hf|apply Hk]|]. rewrite B3. split; [cbn; lia|]. left. split; [exact B2|reflexivity].
    - injection Hs as <- <-. split; [exact Hb|]. split; [exact Ht|]. split; [split; [exact Hf|apply Hk]|]. split; [cbn; lia|]. left. split; reflexivity.
    - injection Hs as <- <-. destruct Hk as [Hk1 Hk2]. split; [exact Hb|]. split; [exact Ht|]. split; [split; [intros j k' [E|Hi]; [injection E as <- <-; exact Hk2|exact (Hf j k' Hi)]|exact Hk1]|].
      split; [cbn [o_stack set_stack snd length]; rewrite app_length; cbn; lia|]. left. split; reflexivity.
    - injection Hs as <- <-. rewrite (Hb i), Ht. split; [exact Hb|]. split; [reflexivity || exact Ht|]. split; [split; [exact Hf|split; [reflexivity|exact Hk]]|]. split; [cbn; lia|]. left. split; reflexivity.
    - injection Hs as <- <-. destruct Hk as [-> Hk]. split; [exact Hb|]. split; [reflexivity|]. split; [split; [exact Hf|exact Hk]|]. split; [cbn; lia|]. left. split; reflexivity.
    - injection Hs as <- <-. rewrite (Hb i), Ht. split; [exact Hb|]. split; [reflexivity || exact Ht|]. split; [split; [exact Hf|split; [reflexivity|exact Hk]]|]. split; [cbn; lia|]. left. split; reflexivity.
    - injection Hs as <- <-. destruct Hk as [-> Hk]. split; [exact Hb|]. split; [reflexivity|]. split; [split; [exact Hf|apply Hk]|]. split; [cbn; lia|]. left. split; reflexivity.
  Qed.
  Definition depths (ts : list cthread) : nat := fold_right (fun t n => (length (snd t) + n)%nat) O ts.
  Lemma depths_upd : forall ts j t t', nth_error ts j = Some t -> (depths (upd ts j t') + length (snd t) = depths ts + length (snd t'))%nat.
  Proof. induction ts as [|a ts IH]; intros [|j] t t' H; cbn in *; try discriminate; [injection H as ->; lia|]. specialize (IH j t t' H). fold (depths (upd ts j t')) (depths ts). lia. Qed.
  Lemma depths_nth : forall ts j t, nth_error ts j = Some t -> (length (snd t) <= depths ts)%nat.
  Proof. induction ts as [|a ts IH]; intros [|j] t H; cbn in *; try discriminate; [injection H as ->; lia|]. specialize (IH j t H). fold (depths ts). lia. Qed.
  Lemma plain_runs : forall sched w ts w' ts', blank w -> o_total w = 0 -> (forall t, In t ts -> thread_ok t) -> length (o_stack w) = depths ts ->
    cruns cn w ts sched = Some (w', ts') ->
    plain cn (o_heap w) (map plain_of ts) (o_heap w') (map plain_of ts') /\ length (o_stack w') = depths ts' /\ o_total w' = 0.
  Proof.
    induction sched as [|j sched IH]; intros w ts w' ts' Hb Ht Hok Hl Hc; cbn [cruns] in Hc.
    - injection Hc as <- <-. split; [apply pl_end|auto].
    - destruct (nth_error ts j) as [t|] eqn:Ej; [|discriminate]. destruct (M_CtxThreads.cstep cn w t) as [[w1 t1]|] eqn:Es; [|discriminate].
      pose proof (depths_nth ts j t Ej) as Hd. pose proof (depths_upd ts j t t1 Ej) as Hu.
      destruct (plain_step w t w1 t1 Hb Ht) as (B1 & B2 & B3 & B4 & B5); [apply Hok; exact (nth_error_In _ _ Ej)|intros H E; rewrite E in Hl; cbn in Hl; destruct (snd t); [congruence|cbn in Hd; lia]|exact Es|].
      assert (Hok1 : forall u, In u (upd ts j t1) -> thread_ok u).
      { intros u Hu0. apply In_nth_error in Hu0. destruct Hu0 as (i & Hi). destruct (Nat.eq_dec i j) as [->|Hne].
        - rewrite upd_nth_error in Hi by (apply nth_error_Some; congruence). injection Hi as <-. exact B3.
        - rewrite upd_nth_other in Hi by exact Hne. apply Hok. exact (nth_error_In _ _ Hi). }
      destruct (IH w1 (upd ts j t1) w' ts' B1 B2 Hok1 ltac:(lia) Hc) as (P & R). split; [|exact R].
      rewrite map_upd in P. destruct B5 as [[E1 E2]|Hp].
      + rewrite E1, E2 in P. rewrite (upd_same (map plain_of ts) j (plain_of t)) in P by (rewrite nth_error_map, Ej; reflexivity). exact P.
      + eapply pl_step; [rewrite nth_error_map, Ej; reflexivity|exact Hp|exact P].
  Qed.
  Lemma threads_plain : forall sched w ps w' ts', (forall i, obj w i = ([], 0)) -> o_total w = 0 -> o_stack w = [] -> (forall p, In p ps -> no_qubits p) ->
    cruns cn w (map start ps) sched = Some (w', ts') ->
    exists qs, plain cn (o_heap w) (map (fun p => (p, [])) ps) (o_heap w') qs /\ length qs = length ts' /\
      (forall j r, (exists t, nth_error ts' j = Some t /\ finished t r) -> nth_error qs j = Some (CEnd r, [])) /\
      ((forall t, In t ts' -> outside t) -> o_stack w' = [] /\ o_total w' = 0).
  Proof.
    intros sched w ps w' ts' Hb Ht Hs Hn Hc. destruct (plain_runs sched w (map start ps) w' ts' Hb Ht) as (P & D & T); auto.
    { intros t Hi. apply in_map_iff in Hi. destruct Hi as (p & <- & Hp). split; [intros i k []|exact (Hn p Hp)]. }
    { rewrite Hs. clear. induction ps; cbn; auto. }
    rewrite map_map in P. exists (map plain_of ts'). split; [exact P|]. split; [apply map_length|]. split.
    - intros j r (t & Hj & Hf). rewrite nth_error_map, Hj. unfold finished in Hf. subst. reflexivity.
    - intros Ho. split; [|exact T]. assert (E : depths ts' = O); [|rewrite E in D; destruct (o_stack w'); [reflexivity|discriminate]].
      clear - Ho. induction ts' as [|t ts' IH]; [reflexivity|]. cbn. fold (depths ts'). rewrite IH by (intros u Hu; apply Ho; right; exact Hu).
      destruct (Ho t (or_introl eq_refl)) as (p & ->). reflexivity.
  Qed.
End CtxThreads.
