(** Connections of workers: the connections of a pool. *)
From Verif Require Import Base M_Pool S_Pool M_Worker S_Worker L_Alg L_Worker1 L_Worker4 L_Worker5 M_Connect S_Connect L_Connect1.

Definition eid (e : entry) : Z := wk_id (en_worker e).
Definition wids (p : Z) (ev : event) : list wid :=
  match ev with EConnect me _ mine e => (if eid e =? p then [mine] else []) ++ (if me =? p then [fst e] else []) | _ => [] end.

Lemma sides_wids j p : forall evs k, (forall ev, In ev evs -> open j ev) -> map fst (sides j p k evs) = concat (map (wids p) (filter (of_job j) evs)).
Proof.
  induction evs as [|ev evs IH]; intros k Ho; [reflexivity|]. assert (Ho' : forall ev, In ev evs -> open j ev) by (intros; apply Ho; right; assumption).
  destruct ev as [me j' mine e|me|me|me j']; cbn [sides filter of_job].
  - destruct (j' =? j); cbn [app map concat wids]; [|apply IH; exact Ho']. rewrite <- (IH (S k) Ho'). unfold eid. destruct (wk_id (en_worker e) =? p), (me =? p); reflexivity.
  - apply IH, Ho'.
  - apply IH, Ho'.
  - specialize (Ho _ (or_introl eq_refl)). cbn [open] in Ho. destruct (Z.eqb_spec j' j); [contradiction|]. apply IH, Ho'.
Qed.
Lemma sides_in j p : forall evs k w c b, In (w, (c, b)) (sides j p k evs) ->
  exists me mine e, In (EConnect me j mine e) evs /\ (if b then eid e = p /\ w = mine else me = p /\ w = fst e) /\
    In (mine, (c, true)) (sides j (eid e) k evs) /\ In (fst e, (c, false)) (sides j me k evs).
Proof.
  induction evs as [|ev evs IH]; intros k w c b H; [destruct H|]. destruct ev as [me j' mine e|me|me|me j']; cbn [sides] in H.
  - apply in_app_iff in H. destruct H as [H|H].
    + destruct (Z.eqb_spec j' j) as [->|]; [|destruct H]. exists me, mine, e. split; [left; reflexivity|].
      assert (X : (mine, (k, true)) = (w, (c, b)) /\ eid e = p \/ (fst e, (k, false)) = (w, (c, b)) /\ me = p).
      { apply in_app_iff in H. destruct H as [H|H]; [left; destruct (Z.eqb_spec (wk_id (en_worker e)) p)|right; destruct (Z.eqb_spec me p)]; try (destruct H; fail); destruct H as [H|[]]; auto. }
      assert (Y : c = k) by (destruct X as [[X _]|[X _]]; inversion X; reflexivity). subst c. split; [|split].
      * destruct X as [[X E]|[X E]]; inversion X; subst; auto.
      * cbn [sides]. rewrite Z.eqb_refl. unfold eid. rewrite Z.eqb_refl. left. reflexivity.
      * cbn [sides]. rewrite Z.eqb_refl. apply in_app_iff. left. apply in_app_iff. right. rewrite Z.eqb_refl. left. reflexivity.
    + destruct (IH _ _ _ _ H) as (me' & mine' & e' & H1 & H2 & H3 & H4). exists me', mine', e'. split; [right; exact H1|]. split; [exact H2|]. split; cbn [sides]; apply in_app_iff; right; assumption.
  - destruct (IH _ _ _ _ H) as (me' & mine' & e' & H1 & H2 & H3 & H4). exists me', mine', e'. split; [right; exact H1|]. auto.
  - destruct (IH _ _ _ _ H) as (me' & mine' & e' & H1 & H2 & H3 & H4). exists me', mine', e'. split; [right; exact H1|]. auto.
  - destruct (IH _ _ _ _ H) as (me' & mine' & e' & H1 & H2 & H3 & H4). exists me', mine', e'. split; [right; exact H1|]. auto.
Qed.

Lemma concat_single {A B} (f : A -> list B) l e : NoDup l -> In e l -> (forall x, In x l -> x <> e -> f x = []) -> concat (map f l) = f e.
Proof.
  induction l as [|a l IH]; intros Hn Hi Hf; [destruct Hi|]. inversion Hn as [|x y Hx Hy]; subst. cbn [map concat]. destruct Hi as [->|Hi].
  - assert (G : forall l', incl l' l -> concat (map f l') = []).
    { induction l' as [|b l' IH']; intros Hl; [reflexivity|]. cbn [map concat]. rewrite (Hf b); [|right; apply Hl; left; reflexivity|intros ->; apply Hx, Hl; left; reflexivity]. apply IH'. intros x Hx'. apply Hl. right. exact Hx'. }
    assert (E : concat (map f l) = []) by (apply G, incl_refl).
    rewrite E, app_nil_r. reflexivity.
  - rewrite (Hf a); [|left; reflexivity|intros ->; contradiction]. apply IH; [exact Hy|exact Hi|]. intros x Hx'. apply Hf. right. exact Hx'.
Qed.
Lemma concat_none {A B} (f : A -> list B) l : (forall x, In x l -> f x = []) -> concat (map f l) = [].
Proof. induction l as [|a l IH]; intros H; [reflexivity|]. cbn [map concat]. rewrite (H a) by (left; reflexivity). apply IH. intros x Hx. apply H. right. exact Hx. Qed.
Lemma concat_filter {A B} (g : A -> B) (P : A -> bool) l : concat (map (fun x => if P x then [g x] else []) l) = map g (filter P l).
Proof. induction l as [|a l IH]; [reflexivity|]. cbn [map concat filter]. rewrite IH. destruct (P a); reflexivity. Qed.

Section Pool.
  Context (n bq : Z) (pool : list entry).
  Hypothesis Hbq : 0 <= bq <= n.
  Hypothesis Ht : tiles (2 ^ n) pool.
  Hypothesis Hb : blocks (2 ^ bq) pool.
  Hypothesis Hid : NoDup (map eid pool).
  Notation ws := (map fst pool).

  Lemma eid_inj e e' : In e pool -> In e' pool -> eid e = eid e' -> e = e'.
  Proof.
    intros H H' E. clear - Hid H H' E. induction pool as [|a l IH]; [destruct H|]. inversion Hid as [|x y Hx Hy]; subst.
    destruct H as [->|H], H' as [->|H']; auto; exfalso; apply Hx; [rewrite E|rewrite <- E]; apply in_map; assumption.
  Qed.
  Lemma wid_inj e e' : In e pool -> In e' pool -> fst e = fst e' -> e = e'.
  Proof.
    assert (Hnd := Hnd n bq pool Hbq Ht Hb). intros H H' E. clear - Hnd H H' E. induction pool as [|a l IH]; [destruct H|]. cbn [map] in Hnd. inversion Hnd as [|x y Hx Hy]; subst.
    destruct H as [->|H], H' as [->|H']; auto; exfalso; apply Hx; [rewrite E|rewrite <- E]; apply in_map; assumption.
  Qed.
  Lemma pool_nd : NoDup pool. Proof. apply (NoDup_map_inv eid), Hid. Qed.
  Lemma start_eq r r' : In r (blks (2 ^ bq) (2 ^ (n - bq))) -> In r' (blks (2 ^ bq) (2 ^ (n - bq))) -> (fst r =? fst r') = range_eqb r r'.
  Proof.
    intros H H'. apply blks_in in H, H'. destruct H as (i & Hi & ->), H' as (i' & Hi' & ->). unfold range_eqb, blk. cbn [fst snd]. assert (0 < 2 ^ bq) by (apply Z.pow_pos_nonneg; lia).
    destruct (Z.eqb_spec (i * 2 ^ bq) (i' * 2 ^ bq)) as [E|E]; cbn [andb]; [|reflexivity]. assert (i = i') by nia. subst. symmetry. apply Z.eqb_refl.
  Qed.
  Lemma in_ranges e : In e pool -> In (en_in e) (blks (2 ^ bq) (2 ^ (n - bq))) /\ In (en_out e) (blks (2 ^ bq) (2 ^ (n - bq))).
  Proof. intros H. apply (Hws n bq pool Hbq Ht Hb). apply in_map. exact H. Qed.

  Lemma partner_en (e p : entry) : partner (fst e) (fst p) = if range_eqb (en_in e) (en_out e)
    then negb (range_eqb (en_in p) (en_out p)) && (range_eqb (en_in p) (en_in e) || range_eqb (en_out p) (en_in e))
    else range_eqb (en_in p) (en_out p) && (range_eqb (en_in p) (en_in e) || range_eqb (en_in p) (en_out e)).
  Proof. reflexivity. Qed.
  Definition target (e p : entry) : bool := partner (fst e) (fst p) && negb (range_eqb (en_in e) (en_out e)).
  Lemma connects_eq job e : In e pool -> connects job pool e = map (fun p => EConnect (eid e) job (fst e) p) (filter (target e) pool).
  Proof.
    intros He. destruct (in_ranges e He) as [R1 R2]. unfold connects. rewrite (start_eq _ _ R1 R2). unfold target. destruct (range_eqb (en_in e) (en_out e)) eqn:Ed.
    - cbn [negb]. replace (filter _ pool) with (@nil entry); [reflexivity|]. symmetry. clear. induction pool as [|a l IH]; [reflexivity|]. cbn [filter]. rewrite andb_false_r. exact IH.
    - cbn [negb]. rewrite <- (concat_filter (fun p => EConnect (eid e) job (fst e) p)). f_equal. apply map_ext_in. intros p Hp. destruct (in_ranges p Hp) as [P1 P2].
      rewrite (start_eq _ _ P1 P2), (start_eq _ _ P1 R1), (start_eq _ _ P1 R2), andb_true_r. rewrite partner_en, Ed. destruct (range_eqb (en_in p) (en_out p)); cbn [negb andb]; [|reflexivity]. destruct (_ || _); reflexivity.
  Qed.
  Lemma target_diag e p : target e p = true -> range_eqb (en_in p) (en_out p) = true /\ range_eqb (en_in e) (en_out e) = false.
  Proof.
    unfold target. intros H. apply andb_true_iff in H. destruct H as [H1 H2]. apply negb_true_iff in H2. split; [|exact H2]. rewrite partner_en, H2 in H1. apply andb_true_iff in H1. apply H1.
  Qed.
  Lemma target_partner e p : range_eqb (en_in p) (en_out p) = true -> In e pool -> In p pool -> target e p = partner (fst p) (fst e).
  Proof.
    intros Hp He Hpp. unfold target. rewrite !partner_en, Hp. destruct (range_eqb (en_in e) (en_out e)); cbn [negb andb]; [reflexivity|]. rewrite andb_true_r.
    assert (S : forall a b, range_eqb a b = range_eqb b a) by (intros; unfold range_eqb; rewrite (Z.eqb_sym (fst a)), (Z.eqb_sym (snd a)); reflexivity). rewrite (S (en_in e)), (S (en_out e)). reflexivity.
  Qed.
  Lemma filter_map_fst (P : wid -> bool) (l : list entry) : filter P (map fst l) = map fst (filter (fun e => P (fst e)) l).
  Proof. induction l as [|a l IH]; [reflexivity|]. destruct a as [w k]. cbn [map filter fst]. rewrite IH. destruct (P w); reflexivity. Qed.

  Lemma all_wids job e : In e pool -> concat (map (wids (eid e)) (all_connects job pool)) = filter (partner (fst e)) ws.
  Proof.
    intros He. unfold all_connects. rewrite concat_map, map_map.
    assert (E1 : forall e1, In e1 pool -> concat (map (wids (eid e)) (connects job pool e1)) =
       concat (map (fun t => (if eid t =? eid e then [fst e1] else []) ++ (if eid e1 =? eid e then [fst t] else [])) (filter (target e1) pool))).
    { intros e1 H1. rewrite (connects_eq job e1 H1), map_map. reflexivity. }
    assert (E2 : concat (concat (map (fun x => map (wids (eid e)) (connects job pool x)) pool)) = concat (map (fun e1 => concat (map (wids (eid e)) (connects job pool e1))) pool)).
    { clear. induction pool as [|a l IH] at 2 4; [reflexivity|]. cbn [map concat]. rewrite concat_app, IH. reflexivity. }
    rewrite E2. destruct (range_eqb (en_in e) (en_out e)) eqn:Ed.
    - rewrite filter_map_fst, <- (concat_filter fst (fun x => partner (fst e) (fst x))). f_equal. apply map_ext_in. intros e1 H1. rewrite (E1 e1 H1).
      transitivity (if target e1 e then [fst e1] else []); [|rewrite (target_partner e1 e Ed H1 He); reflexivity].
      destruct (target e1 e) eqn:Et.
      + rewrite (concat_single _ _ e); [|apply NoDup_filter, pool_nd|apply filter_In; auto|].
        * rewrite Z.eqb_refl. destruct (Z.eqb_spec (eid e1) (eid e)) as [E|E]; [|reflexivity]. apply eid_inj in E; [|assumption|assumption]. subst e1. apply target_diag in Et. destruct Et. congruence.
        * intros x Hx Hne. apply filter_In in Hx. destruct Hx as [Hx Tx]. destruct (Z.eqb_spec (eid x) (eid e)) as [E|E]; [apply eid_inj in E; [contradiction|assumption|assumption]|].
          destruct (Z.eqb_spec (eid e1) (eid e)) as [E'|E']; [|reflexivity]. apply eid_inj in E'; [|assumption|assumption]. subst e1. apply target_diag in Tx. destruct Tx. congruence.
      + apply concat_none. intros x Hx. apply filter_In in Hx. destruct Hx as [Hx Tx]. destruct (Z.eqb_spec (eid x) (eid e)) as [E|E]; [apply eid_inj in E; [subst x; congruence|assumption|assumption]|].
        destruct (Z.eqb_spec (eid e1) (eid e)) as [E'|E']; [|reflexivity]. apply eid_inj in E'; [|assumption|assumption]. subst e1. apply target_diag in Tx. destruct Tx. congruence.
    - rewrite (concat_single _ _ e); [|apply pool_nd|exact He|].
      + rewrite (E1 e He). rewrite filter_map_fst.
        assert (Ef : filter (target e) pool = filter (fun x => partner (fst e) (fst x)) pool) by (apply filter_ext; intros x; unfold target; rewrite Ed, andb_true_r; reflexivity). rewrite Ef.
        transitivity (concat (map (fun t => [fst t]) (filter (fun x => partner (fst e) (fst x)) pool))).
        * apply (f_equal (@concat wid)). apply map_ext_in. intros t Htt. rewrite Z.eqb_refl. destruct (Z.eqb_spec (eid t) (eid e)) as [E|E]; [|reflexivity]. rewrite <- Ef in Htt. apply filter_In in Htt. destruct Htt as [H1 H2]. apply eid_inj in E; [|assumption|assumption]. subst t. apply target_diag in H2. destruct H2. congruence.
        * clear. induction (filter (fun x => partner (fst e) (fst x)) pool) as [|a l IH]; [reflexivity|]. cbn [map concat app]. rewrite IH. reflexivity.
      + intros x Hx Hne. rewrite (E1 x Hx). apply concat_none. intros t Htt. apply filter_In in Htt. destruct Htt as [H1 H2]. destruct (Z.eqb_spec (eid t) (eid e)) as [E|E]; [apply eid_inj in E; [subst t; apply target_diag in H2; destruct H2; congruence|assumption|assumption]|].
        destruct (Z.eqb_spec (eid x) (eid e)) as [E'|E']; [apply eid_inj in E'; [contradiction|assumption|assumption]|reflexivity].
  Qed.
  Lemma all_connects_in job ev : In ev (all_connects job pool) -> exists e t, In e pool /\ In t pool /\ ev = EConnect (eid e) job (fst e) t.
  Proof.
    unfold all_connects. intros H. apply in_concat in H. destruct H as (l & Hl & H). apply in_map_iff in Hl. destruct Hl as (e & <- & He). rewrite (connects_eq job e He) in H. apply in_map_iff in H. destruct H as (t & <- & H). apply filter_In in H. exists e, t. tauto.
  Qed.
  Lemma no_wids job p : ~ In p (map eid pool) -> concat (map (wids p) (all_connects job pool)) = [].
  Proof.
    intros Hp. apply concat_none. intros ev H. apply all_connects_in in H. destruct H as (e & t & He & Ht' & ->). cbn [wids].
    destruct (Z.eqb_spec (eid t) p) as [E|E]; [exfalso; apply Hp; subst p; apply in_map; exact Ht'|]. destruct (Z.eqb_spec (eid e) p) as [E'|E']; [exfalso; apply Hp; subst p; apply in_map; exact He|reflexivity].
  Qed.

  Section History.
    Context (job : Z) (evs : list event).
    Hypothesis HP : Permutation (filter (of_job job) evs) (all_connects job pool).
    Lemma all_open ev : In ev evs -> open job ev.
    Proof.
      intros H. destruct ev as [me j' mine e|me|me|me j']; try exact I. cbn [open]. intros ->. assert (X : In (EClose me job) (filter (of_job job) evs)) by (apply filter_In; split; [exact H|apply Z.eqb_refl]).
      rewrite HP in X. apply all_connects_in in X. destruct X as (e & t & _ & _ & X). discriminate X.
    Qed.
    Lemma sides_perm p k : Permutation (map fst (sides job p k evs)) (concat (map (wids p) (all_connects job pool))).
    Proof.
      rewrite (sides_wids job p evs k all_open). rewrite <- !flat_map_concat_map. apply Permutation_flat_map, HP.
    Qed.
    Lemma sides_nodup p k : NoDup (map fst (sides job p k evs)).
    Proof.
      apply (Permutation_NoDup (Permutation_sym (sides_perm p k))). destruct (in_dec Z.eq_dec p (map eid pool)) as [H|H].
      - apply in_map_iff in H. destruct H as (e & <- & He). rewrite (all_wids job e He). apply NoDup_filter, (Hnd n bq pool Hbq Ht Hb).
      - rewrite (no_wids job p H). constructor.
    Qed.
    Lemma history_good : exists l, good job (happen empty_cluster evs) l (fun p => sides job p 0 evs).
    Proof.
      apply (happen_good job evs empty_cluster (fun _ => []) (fun _ => [])); [exact all_open| |].
      - intros p. split; [apply view_empty|constructor].
      - intros p. apply sides_nodup.
    Qed.
    Hypothesis Hset : settled job (happen empty_cluster evs).
    Lemma waiting_none b (q : list (nat * fkey)) : (forall c w, ~ In (c, (job, w)) q) -> waiting job b q = [].
    Proof.
      induction q as [|[c [j w]] q IH]; intros H; [reflexivity|]. destruct (Z.eq_dec j job) as [->|Hj]; [exfalso; apply (H c w); left; reflexivity|].
      etransitivity; [apply (waiting_other job j b c w q Hj)|]. apply IH. intros c' w' X. apply (H c' w'). right. exact X.
    Qed.
    Lemma history_log : exists l : Z -> log, forall p, view job (cl_srv (happen empty_cluster evs) p) (l p) /\ Permutation (l p) (sides job p 0 evs) /\ NoDup (map fst (l p)).
    Proof.
      destruct history_good as (l & Hl). exists l. intros p. destruct (Hl p) as [H1 H2]. split; [exact H1|].
      rewrite (waiting_none true), (waiting_none false), !app_nil_r in H2; [|intros c w; apply (Hset p c w)|intros c w; apply (Hset p c w)]. split; [exact H2|].
      apply (Permutation_NoDup (Permutation_map fst (Permutation_sym H2))), sides_nodup.
    Qed.

    Lemma pool_connected e : In e pool -> let sv := cl_srv (happen empty_cluster evs) (eid e) in
      Permutation (registered sv job) (filter (partner (fst e)) ws) /\
      (forall e', In e' pool -> partner (fst e) (fst e') = true ->
        exists c b, socket_to sv job (fst e') = Some (c, b) /\ socket_to (cl_srv (happen empty_cluster evs) (eid e')) job (fst e) = Some (c, negb b)) /\
      (forall r, map (fun x => (r, snd x)) (to_inputs sv job r) = input_workers (registered sv job) r) /\
      (forall r, map (fun x => (snd x, r)) (to_outputs sv job r) = output_workers (registered sv job) r) /\
      (forall r s o, In (s, o) (to_inputs sv job r) -> socket_to sv job (r, o) = Some s) /\
      (forall r s i, In (s, i) (to_outputs sv job r) -> socket_to sv job (i, r) = Some s).
    Proof.
      intros He sv. destruct history_log as (l & Hl). destruct (Hl (eid e)) as (V & P & N). fold sv in V. split; [|split; [|split; [|split; [|split]]]].
      - rewrite (view_registered _ _ _ V). rewrite <- (all_wids job e He). rewrite <- (sides_perm (eid e) 0). apply Permutation_map, P.
      - intros e' He' Hp. assert (X : In (fst e') (map fst (l (eid e)))).
        { rewrite (Permutation_map fst P), (sides_perm (eid e) 0), (all_wids job e He). apply filter_In. split; [apply in_map; exact He'|exact Hp]. }
        apply in_map_iff in X. destruct X as ([w [c b]] & E & X). cbn [fst] in E. exists c, b. split; [apply (view_socket _ _ _ _ _ V N); rewrite <- E; exact X|].
        destruct (Hl (eid e')) as (V' & P' & N'). apply (view_socket _ _ _ _ _ V' N'). rewrite P'. rewrite P in X. subst w. apply sides_in in X. destruct X as (me & mine & t & H1 & H2 & H3 & H4).
        assert (Y : In (EConnect me job mine t) (filter (of_job job) evs)) by (apply filter_In; split; [exact H1|apply Z.eqb_refl]). rewrite HP in Y. apply all_connects_in in Y. destruct Y as (e1 & t1 & I1 & I2 & E). inversion E; subst me mine t1. clear E.
        destruct b; destruct H2 as [H2 H2']; cbn [negb].
        + apply eid_inj in H2; [|assumption|assumption]. apply wid_inj in H2'; [|assumption|assumption]. subst t e1. exact H4.
        + apply eid_inj in H2; [|assumption|assumption]. apply wid_inj in H2'; [|assumption|assumption]. subst t e1. exact H3.
      - intros r. destruct V as (V1 & V2 & V3). rewrite V2, (view_registered job sv (l (eid e))) by (repeat split; assumption). rewrite map_map. unfold input_workers. clear. induction (l (eid e)) as [|[[i o] s] l' IH]; [reflexivity|]. cbn [filter map fst snd] in *.
        destruct (range_eqb i r) eqn:E; cbn [map fst snd]; [|exact IH]. apply range_eqb_ok in E. subst. apply (f_equal (cons (r, o))), IH.
      - intros r. destruct V as (V1 & V2 & V3). rewrite V3, (view_registered job sv (l (eid e))) by (repeat split; assumption). rewrite map_map. unfold output_workers. clear. induction (l (eid e)) as [|[[i o] s] l' IH]; [reflexivity|]. cbn [filter map fst snd] in *.
        destruct (range_eqb o r) eqn:E; cbn [map fst snd]; [|exact IH]. apply range_eqb_ok in E. subst. apply (f_equal (cons (i, r))), IH.
      - intros r s o H. apply (view_socket _ _ _ _ _ V N). destruct V as (V1 & V2 & V3). rewrite V2 in H. apply in_map_iff in H. destruct H as ([[i o'] s'] & E & H). inversion E; subst. apply filter_In in H. destruct H as [H Er]. cbn [fst snd] in *. apply range_eqb_ok in Er. subst. exact H.
      - intros r s i H. apply (view_socket _ _ _ _ _ V N). destruct V as (V1 & V2 & V3). rewrite V3 in H. apply in_map_iff in H. destruct H as ([[i' o] s'] & E & H). inversion E; subst. apply filter_In in H. destruct H as [H Er]. cbn [fst snd] in *. apply range_eqb_ok in Er. subst. exact H.
    Qed.
  End History.
End Pool.
