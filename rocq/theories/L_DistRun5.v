(** Circuits on the distributed backend: the messages of all circuits. *)
From Coq Require Import Sorted.
From Verif Require Import Base M_Bits S_Bits L_Bits M_Kron S_Kron M_Ops S_Ops M_Feed S_Feed L_Feed M_Measure S_Measure M_Pool M_Net M_Worker S_Worker M_Proto S_Proto L_Proto M_Client
  M_Graph S_Graph L_Graph1 L_Graph2 L_Graph3 L_Graph4 L_Graph5 L_Graph6 L_Graph7 L_Graph8 L_Graph9 L_Graph10 L_Graph11 M_DistRun S_DistRun L_DistRun1.

Section Talk.
  Context {K : Type} {OK : OrdRing K}.
  Notation C := (Cx K).
  Implicit Types h : heap K.

  (** one call *)
  Lemma call_sends (a : dacc K) (cl : M_Client.call K) a' v : dist_call a cl = (a', Ok v) -> exists op m r,
    request cl = Ok op /\ encode_op op = Ok m /\ d_answers a = r :: d_answers a' /\ v = response cl r /\ d_sent a' = d_sent a ++ [m] /\ d_cm a' = d_cm a.
  Proof.
    unfold dist_call. destruct (request cl) as [op|e]; cbn [bind]; [|discriminate]. destruct (encode_op op) as [m|e] eqn:Em; [|discriminate].
    unfold talk. destruct (d_answers a) as [|r rs]; cbn [sbind]; [discriminate|]. intros E. inversion E. subst. exists op, m, r. cbn. auto 10.
  Qed.
  Lemma indices_back l l' : indices_to_pbindices l = Ok l' -> l' = l.
  Proof.
    unfold indices_to_pbindices. revert l'. induction l as [|q l IH]; intros l' E; cbn [mmap] in E; [inversion E; reflexivity|].
    unfold int32 at 1 in E. destruct ((_ && _)%bool) in E; cbn [bind] in E; [|discriminate].
    destruct (mmap int32 l) as [y|e]; cbn [bind] in E; inversion E. f_equal. apply IH. reflexivity.
  Qed.
  Lemma encoded_understood (op : wop K) m : encode_op op = Ok m -> match op with OKron _ | OMeasure _ => understood m op | _ => True end.
  Proof.
    destruct op as [ms|mo| | |]; cbn [encode_op]; auto; try discriminate.
    - destruct (encode_kronprod ms) as [l|e]; cbn [bind]; [|discriminate]. intros E. inversion E. cbn. eauto.
    - destruct (indices_to_pbindices (m_indices mo)) as [l|e] eqn:El; cbn [bind]; [|discriminate]. intros E. inversion E. cbn.
      apply indices_back in El. subst l. destruct mo; reflexivity.
  Qed.

  Lemma fold_talks h srcs (gsof : nat -> list (list Z)) : forall todo (a a' : dacc K), NoDup todo ->
    (forall i, In i todo -> Forall2 (wires h srcs) (inputs_of h i) (gsof i)) -> (forall i, In i todo -> ~ In i (map fst (d_cm a))) ->
    sfold (fun a i => dist_feed h a i (gsof i)) todo a = (a', Ok tt) ->
    exists ops msgs cm, talks h srcs todo ops (d_answers a) cm /\ d_sent a' = d_sent a ++ msgs /\ Forall2 understood msgs ops /\ d_cm a' = d_cm a ++ cm.
  Proof.
    induction todo as [|i todo IH]; intros a a' Hd Hg Hf E; cbn [sfold] in E.
    { inversion E; subst. exists [], [], []. rewrite !app_nil_r. split; [constructor|]. auto. }
    inversion Hd as [|x y Hni Hd']; subst. assert (Hgi := Hg i (or_introl eq_refl)). assert (Hfi := Hf i (or_introl eq_refl)).
    destruct (dist_feed h a i (gsof i)) as [a1 [[]|e]] eqn:E1; cbn [sbind] in E; [|discriminate].
    assert (Next : forall x, d_cm a1 = odict_set (d_cm a) i x -> exists ops msgs cm, talks h srcs todo ops (d_answers a1) cm /\
      d_sent a' = d_sent a1 ++ msgs /\ Forall2 understood msgs ops /\ d_cm a' = d_cm a ++ (i, x) :: cm).
    { intros x Ex. rewrite odict_set_fresh in Ex by auto. destruct (IH a1 a' Hd') as (ops & msgs & cm & H1 & H2 & H3 & H4); auto.
      - intros j Hj. apply Hg. right; auto.
      - intros j Hj. rewrite Ex, map_app, in_app_iff. intros [H|[<-|[]]]; auto. apply (Hf j); auto. right; auto.
      - exists ops, msgs, cm. rewrite H4, Ex, <- app_assoc. auto. }
    unfold dist_feed in E1. destruct (nd_kind (nd h i)) as [|ix|o d|f| |k] eqn:Ek.
    - inversion E1; subst a1. destruct (Next _ eq_refl) as (ops & msgs & cm & H1 & H2 & H3 & H4). exists ops, msgs, ((i, CZero) :: cm).
      split; [apply talks_qubit; auto|]. auto.
    - inversion E1; subst a1. destruct (Next _ eq_refl) as (ops & msgs & cm & H1 & H2 & H3 & H4). exists ops, msgs, ((i, CZero) :: cm).
      split; [apply talks_qubit; eauto|]. auto.
    - destruct (op_mats (d_cache a) i o d (gsof i)) as [c [ms|e]]; [|discriminate].
      destruct (dist_call _ _) as [a2 [v|e]] eqn:Ec; cbn [sbind] in E1; [|discriminate]. inversion E1; subst a1. clear E1.
      apply call_sends in Ec. destruct Ec as (op & m & r & R1 & R2 & R3 & R4 & R5 & R6). cbn [d_answers d_sent d_cm] in *.
      cbn [request] in R1. inversion R1; subst op. apply encoded_understood in R2.
      destruct (Next CZero) as (ops & msgs & cm & H1 & H2 & H3 & H4); [rewrite R6; reflexivity|].
      exists (OKron ms :: ops), (m :: msgs), ((i, CZero) :: cm). rewrite R3. split; [eapply talks_op; eauto|].
      split; [rewrite H2, R5, <- app_assoc; reflexivity|]. split; auto.
    - destruct (do reg1 <- pyget _ 0; _) as [[r1 r2]|e]; [|discriminate]. unfold dist_call in E1. cbn [request bind sbind] in E1. discriminate.
    - destruct (dist_call _ _) as [a2 [v|e]] eqn:Ec; cbn [sbind] in E1; [|discriminate]. inversion E1; subst a1. clear E1.
      apply call_sends in Ec. destruct Ec as (op & m & r & R1 & R2 & R3 & R4 & R5 & R6).
      cbn [request] in R1. inversion R1; subst op. apply encoded_understood in R2. cbn [d_answers d_sent d_cm] in *.
      eassert (X : _) by (apply Next; rewrite R6; reflexivity). destruct X as (ops & msgs & cm & H1 & H2 & H3 & H4).
      eexists (_ :: ops), (m :: msgs), (_ :: cm). rewrite R3. split; [|split; [rewrite H2, R5, <- app_assoc; reflexivity|split; [constructor; [exact R2|exact H3]|exact H4]]].
      subst v. cbn [response]. destruct r as [[[m0 p0]|[[x y] z]]|]; apply talks_measure; auto.
    - destruct (dist_call _ _) as [a2 [v|e]] eqn:Ec; cbn [sbind] in E1; [|discriminate]. inversion E1; subst a1. clear E1.
      apply call_sends in Ec. destruct Ec as (op & m & r & R1 & R2 & R3 & R4 & R5 & R6).
      cbn [request] in R1. inversion R1; subst op. apply encoded_understood in R2. cbn [d_answers d_sent d_cm] in *.
      eassert (X : _) by (apply Next; rewrite R6; reflexivity). destruct X as (ops & msgs & cm & H1 & H2 & H3 & H4).
      eexists (_ :: ops), (m :: msgs), (_ :: cm). rewrite R3. split; [|split; [rewrite H2, R5, <- app_assoc; reflexivity|split; [constructor; [exact R2|exact H3]|exact H4]]].
      subst v. cbn [response]. destruct r as [[[m0 p0]|[[x y] z]]|]; apply talks_probs; auto.
  Qed.

  Lemma dist_messages h vis args srcs ev c feed strict state job answers job' cm :
    built h vis -> splits_in_range h vis -> incl args vis -> sources h args srcs -> enum_ok ev ->
    o_result (dist_run job ev c h args feed strict state answers) = Ok (job', cm) ->
    exists order ops, StronglySorted lt order /\ (forall i, In i order <-> ancestor h args i) /\ talks h srcs order ops answers cm /\
      Forall2 understood (o_sent (dist_run job ev c h args feed strict state answers)) ops.
  Proof.
    intros B Hs Ha Hsrc He E. pose proof (built_wf _ _ B) as W. pose proof (splits_anc h vis args W Ha Hs) as Hsp.
    destruct (ord_exists h vis args W Ha) as (ord & Ho & Hoi).
    destruct (graph_trace h vis args srcs ord W Ha Hsp Hsrc Ho Hoi ev He) as (fr0 & gn0 & E1 & Pf & Es & E2).
    exists ord. unfold dist_run in *. destruct (prepare ev h args feed strict state) as [[[[[fr gn] n] g] sts]|e] eqn:Ep; [|discriminate].
    assert (fr = srcs /\ gn = gn0) as [Efr Egn].
    { unfold prepare in Ep. rewrite E1 in Ep. cbn [bind] in Ep. rewrite Es in Ep. destruct (strict && _); [discriminate|]. destruct (assign_indices h srcs) as [qb m].
      destruct (mmap _ _) as [gs|e]; cbn [bind] in Ep; [|discriminate]. destruct (truthy state) as [[|]|e]; cbn [bind] in Ep; inversion Ep; auto. }
    subst fr gn. destruct (encode_states g sts) as [setup|e]; [|discriminate]. rewrite E2 in * by reflexivity.
    destruct (sfold _ ord _) as [a' [[]|e]] eqn:Ef; cbn [o_result o_sent] in *; [|discriminate]. inversion E as [[Ej Ecm]].
    destruct (fold_talks h srcs (fun i => map (wire h srcs) (inputs_of h i)) ord (mkDacc [] answers [] c) a' (sorted_lt_NoDup _ Ho)) as (ops & msgs & cm' & H1 & H2 & H3 & H4).
    - intros i Hi. eapply a_inputs; eauto. apply Hoi; auto.
    - intros i _ [].
    - exact Ef.
    - exists ops. cbn [d_sent d_cm d_answers app] in *. rewrite H2. try rewrite <- Ecm. rewrite ?H4. auto.
  Qed.
End Talk.
