(** Deciding the hypotheses of the graph theorems for concrete programs. *)
From Coq Require Import Sorted.
From Verif Require Import Base S_Bits L_Bits M_Kron S_Kron M_Ops S_Ops M_Feed S_Feed M_Func S_Func
  M_Measure S_Measure M_Graph S_Graph L_Graph1 L_Graph2 L_Graph3 L_Graph4 L_Graph5 L_Graph8.

Section Programs.
  Context {K : Type} {OK : OrdRing K}.
  Implicit Types h : heap K.

  (** a program that keeps going after exceptions *)
  Fixpoint program (cs : list (call K)) (h : heap K) (vis : list nat) : option (heap K * list nat) :=
    match cs with
    | [] => Some (h, vis)
    | c :: cs => if forallb (fun i => mem i vis) (call_refs c) then
                   match exec h c with (h', Ok ids) => program cs h' (vis ++ ids) | (h', Raise _) => program cs h' vis end
                 else None
    end.
  Lemma program_built cs : forall h vis h' vis', built h vis -> program cs h vis = Some (h', vis') -> built h' vis'.
  Proof.
    induction cs as [|c cs IH]; cbn [program]; intros h vis h' vis' B E; [inversion E; subst; auto|].
    destruct (forallb _ _) eqn:Ef; [|discriminate]. rewrite forallb_forall in Ef.
    assert (Hr : incl (call_refs c) vis) by (intros i Hi; apply mem_In, Ef, Hi).
    destruct (exec h c) as [h1 [ids|e]] eqn:Ex.
    - eapply IH; [eapply built_ok; eauto|exact E].
    - eapply IH; [eapply built_raise; eauto|exact E].
  Qed.
  Lemma program_session cs c l : forall h vis h' vis', session h vis c l -> program cs h vis = Some (h', vis') -> session h' vis' c l.
  Proof.
    induction cs as [|x cs IH]; cbn [program]; intros h vis h' vis' B E; [inversion E; subst; auto|].
    destruct (forallb _ _) eqn:Ef; [|discriminate]. rewrite forallb_forall in Ef.
    assert (Hr : incl (call_refs x) vis) by (intros i Hi; apply mem_In, Ef, Hi).
    destruct (exec h x) as [h1 [ids|e]] eqn:Ex.
    - eapply IH; [eapply session_call; eauto|exact E].
    - eapply IH; [eapply session_raise; eauto|exact E].
  Qed.

  Lemma anc_iff h args L : incl args L -> (forall i, In i L -> incl (inputs_of h i) L) -> Forall (ancestor h args) L ->
    forall i, ancestor h args i <-> In i L.
  Proof.
    intros Ha Hc HF i. rewrite Forall_forall in HF. split; auto.
    induction 1 as [i Hi|i j _ IH Hj]; auto. eapply Hc; eauto.
  Qed.
  Lemma sources_iff h args L srcs : (forall i, ancestor h args i <-> In i L) -> StronglySorted lt srcs ->
    srcs = filter (fun i => match inputs_of h i with [] => true | _ => false end) L -> sources h args srcs.
  Proof.
    intros HL Hs ->. split; auto. intros i. rewrite filter_In, HL. destruct (inputs_of h i); split; intros [A B]; split; auto; discriminate.
  Qed.
  Definition node_ok' h (gs : list (list Z)) (n : Z) (i : nat) : Prop :=
    match nd_kind (nd h i) with
    | KQubit | KSplit _ => True
    | k =>
        inputs_of h i <> [] /\ NoDup (concat gs) /\
        match k with
        | KMat o true => has_swap o = false
        | KF func => forall reg1 reg2, gs = [reg1; reg2] -> (zlen (others n reg1 reg2) = zlen reg2 \/ others n reg1 reg2 = []) /\
            exists f, forall x, 0 <= x < 2 ^ zlen reg1 -> func x = Ok (f x)
        | KStoch k => k = 0 \/ 2 ^ widths h (inputs_of h i) <= k
        | _ => True
        end
    end.
  Lemma circuit_ok_iff h vis args L srcs n : built h vis -> incl args vis -> splits_in_range h vis ->
    (forall i, ancestor h args i <-> In i L) -> sources h args srcs ->
    Forall (fun i => node_ok' h (map (wire h srcs) (inputs_of h i)) n i) L -> circuit_ok h args srcs n.
  Proof.
    intros B Ha Hs HL Hsrc HF i Hi. rewrite Forall_forall in HF. specialize (HF i (proj1 (HL i) Hi)).
    pose proof (built_wf _ _ B) as W. pose proof (splits_anc h vis args W Ha Hs) as Hsp.
    pose proof (fun gs => wires_inputs_fun h vis args srcs W Ha Hsp Hsrc i gs Hi) as Hw.
    unfold node_ok, node_ok' in *. destruct (nd_kind (nd h i)) as [|idx|o [|]|func| |k]; auto;
      destruct HF as (H1 & H2 & H3); (split; [auto|split; [intros gs Hgs; rewrite (Hw gs Hgs); auto|]]); auto.
    intros r1 r2 Hr. apply H3. symmetry. apply Hw. exact Hr.
  Qed.
End Programs.

(** ** counterexamples *)
Definition bad_env : env Z :=
  mkEnv (fun _ => O) (fun l => l) (fun _ => zrange 0 4) (fun _ => 0) (fun _ => 0) (fun x => x) (fun _ => (0, 0)) strict.
Definition bad2 : heap Z * list nat :=
  Eval vm_compute in match program [NewQubit (Some 2) None] empty_heap [] with Some x => x | None => (empty_heap, []) end.
Lemma invalid_splits : exists (h : heap Z) vis self, built h vis /\ In self vis /\ width h self = 2 /\
  (forall l, In l [[-1; 0]; [1; 2; 3]] -> exists h' ids, exec h (Split self (Some l)) = (h', Ok ids) /\
     exists p, In p ids /\ exists k idx, nd_kind (nd h' p) = KSplit idx /\ In k idx /\ ~ (0 <= k < 2)) /\
  (exists h' a b, exec h (Extract self (IList [0; 0; 7])) = (h', Ok [a; b]) /\ nd_kind (nd h' a) = KSplit [0; 0] /\ nd_kind (nd h' b) = KSplit [1]) /\
  snd (exec h (Extract self (IInt 0))) = Raise TypeError /\ snd (exec h (Extract self (IList [0; 1]))) = Raise GenericException.
Proof.
  exists (fst bad2), (snd bad2), 0%nat. split; [|split; [cbn; auto|split; [reflexivity|split; [|split; [|split; reflexivity]]]]].
  - apply (program_built [NewQubit (Some 2) None] empty_heap []); [constructor|reflexivity].
  - intros l [<-|[<-|[]]].
    + eexists _, _. split; [vm_compute; reflexivity|]. exists 1%nat. split; [left; reflexivity|].
      exists (-1), [-1]. cbn. split; [reflexivity|]. split; [auto|lia].
    + eexists _, _. split; [vm_compute; reflexivity|]. exists 3%nat. split; [right; right; left; reflexivity|].
      exists 2, [2]. cbn. split; [reflexivity|]. split; [auto|lia].
  - eexists _, _, _. split; [vm_compute; reflexivity|]. split; reflexivity.
Qed.
Definition stale_calls : list (call Z) := [NewQubit None None; NewQubit None None; Gate GNot [1%nat] false].
Definition stale : heap Z * list nat :=
  Eval vm_compute in match program stale_calls empty_heap [] with Some x => x | None => (empty_heap, []) end.
Lemma stale_cache : exists (h : heap Z) vis c args, session h vis c [[2%nat]] /\ splits_in_range h vis /\ incl args vis /\
  no_swap_dagger h vis /\ exists ev, enum_ok ev /\
  snd (run ev c h args [] false SNone) = Ok ([(0, 0); (0, 0); (1, 0); (0, 0)], [(0%nat, CZero); (1%nat, CZero); (2%nat, CZero)]) /\
  snd (run ev cache0 h args [] false SNone) = Ok ([(0, 0); (1, 0); (0, 0); (0, 0)], [(0%nat, CZero); (1%nat, CZero); (2%nat, CZero)]).
Proof.
  exists (fst stale), (snd stale), (fst (run bad_env cache0 (fst stale) [2%nat] [] false SNone)), [0; 2]%nat.
  assert (He : enum_ok bad_env) by (intros l; apply Permutation_refl).
  split; [|split; [|split; [|split]]].
  - eapply session_run with (ev := bad_env) (feed := []) (strict := false) (state := SNone);
      [|intros i [<-|[]]; cbn; auto|exact He|apply surjective_pairing].
    apply (program_session stale_calls cache0 [] empty_heap []); [constructor|reflexivity].
  - intros i idx k Hi Hk. cbn in Hi. repeat destruct Hi as [<-|Hi]; try (destruct Hi; fail); discriminate.
  - intros i [<-|[<-|[]]]; cbn; auto.
  - intros i o Hi Hk. cbn in Hi. repeat destruct Hi as [<-|Hi]; try (destruct Hi; fail); discriminate.
  - exists bad_env. split; [exact He|]. split; vm_compute; reflexivity.
Qed.
Definition swd_calls : list (call Z) := [NewQubit None None; NewQubit None None; Gate GSwap [0; 1]%nat true].
Definition swd : heap Z * list nat :=
  Eval vm_compute in match program swd_calls empty_heap [] with Some x => x | None => (empty_heap, []) end.
Lemma swap_dagger_reuse : exists (h : heap Z) vis args ev, built h vis /\ incl args vis /\ enum_ok ev /\
  let '(c, r) := run ev cache0 h args [] false SNone in
  r = Raise AttributeError /\ exists x, snd (run ev c h args [] false SNone) = Ok x.
Proof.
  exists (fst swd), (snd swd), [2%nat], bad_env. split; [|split; [|split]].
  - apply (program_built swd_calls empty_heap []); [constructor|reflexivity].
  - intros i [<-|[]]; cbn; auto.
  - intros l; apply Permutation_refl.
  - destruct (run bad_env cache0 (fst swd) [2%nat] [] false SNone) as [c r] eqn:E.
    assert (Er : r = Raise AttributeError) by (change r with (snd (c, r)); rewrite <- E; vm_compute; reflexivity).
    split; [exact Er|]. change c with (fst (c, r)). rewrite <- E. eexists. vm_compute. reflexivity.
Qed.
