(** Connections of workers: dictionaries and histories. *)
From Verif Require Import Base M_Pool M_Worker S_Worker L_Worker1 L_Worker4 L_Alg M_Connect S_Connect.

Lemma fkey_eqb_ok a b : fkey_eqb a b = true <-> a = b.
Proof. destruct a as [a1 a2], b as [b1 b2]. unfold fkey_eqb. cbn [fst snd]. rewrite andb_true_iff, Z.eqb_eq, wid_eqb_ok. split; [intros [-> ->]; reflexivity|intros E; inversion E; auto]. Qed.
Lemma rkey_eqb_ok a b : rkey_eqb a b = true <-> a = b.
Proof. destruct a as [a1 a2], b as [b1 b2]. unfold rkey_eqb. cbn [fst snd]. rewrite andb_true_iff, Z.eqb_eq, range_eqb_ok. split; [intros [-> ->]; reflexivity|intros E; inversion E; auto]. Qed.

Section Dict.
  Context {A V : Type} (eqb : A -> A -> bool) (eqb_ok : forall a b, eqb a b = true <-> a = b).
  Implicit Types (d : list (A * V)).
  Lemma eqb_no a b : a <> b -> eqb a b = false.
  Proof. intros H. destruct (eqb a b) eqn:E; [|reflexivity]. apply eqb_ok in E. contradiction. Qed.
  Lemma dset_new d k v : ~ In k (map fst d) -> dset eqb d k v = d ++ [(k, v)].
  Proof.
    induction d as [|[a b] d IH]; cbn [dset map fst]; intros H; [reflexivity|]. rewrite eqb_no by (intros ->; apply H; left; reflexivity).
    cbn [app]. f_equal. apply IH. intros X. apply H. right. exact X.
  Qed.
  Lemma dset_filter_other P d k v : P k = false -> filter (fun e => P (fst e)) (dset eqb d k v) = filter (fun e => P (fst e)) d.
  Proof.
    intros HP. induction d as [|[a b] d IH]; cbn [dset filter fst]; [rewrite HP; reflexivity|]. destruct (eqb a k) eqn:E; cbn [filter fst].
    - apply eqb_ok in E. subst a. rewrite HP. reflexivity.
    - rewrite IH. reflexivity.
  Qed.
  Lemma dset_filter_new P d k v : P k = true -> ~ In k (map fst (filter (fun e => P (fst e)) d)) ->
    filter (fun e => P (fst e)) (dset eqb d k v) = filter (fun e => P (fst e)) d ++ [(k, v)].
  Proof.
    intros HP H. rewrite dset_new; [rewrite filter_app; cbn [filter fst]; rewrite HP; reflexivity|]. intros X. apply H. apply in_map_iff in X. destruct X as ([a b] & E & X). cbn [fst] in E. subst a.
    apply in_map_iff. exists (k, b). split; [reflexivity|]. apply filter_In. split; [exact X|exact HP].
  Qed.
  Lemma dget_dset_same d k v : dget eqb (dset eqb d k v) k = Some v.
  Proof.
    assert (R : eqb k k = true) by (apply eqb_ok; reflexivity). unfold dget. induction d as [|[a b] d IH]; cbn [dset find fst]; [rewrite R; reflexivity|].
    destruct (eqb a k) eqn:E; cbn [find fst]; rewrite E; [reflexivity|exact IH].
  Qed.
  Lemma dget_dset_other d k k' v : k <> k' -> dget eqb (dset eqb d k v) k' = dget eqb d k'.
  Proof.
    intros H. unfold dget. induction d as [|[a b] d IH]; cbn [dset find fst]; [rewrite (eqb_no k k' H); reflexivity|].
    destruct (eqb a k) eqn:E; cbn [find fst].
    - apply eqb_ok in E. subst a. rewrite (eqb_no k k' H). reflexivity.
    - destruct (eqb a k'); [reflexivity|exact IH].
  Qed.
  Lemma dget_filter P d k : P k = true -> dget eqb (filter (fun e => P (fst e)) d) k = dget eqb d k.
  Proof.
    intros HP. unfold dget. induction d as [|[a b] d IH]; cbn [filter find fst]; [reflexivity|]. destruct (eqb a k) eqn:E.
    - apply eqb_ok in E. subst a. rewrite HP. cbn [find fst]. assert (R : eqb k k = true) by (apply eqb_ok; reflexivity). rewrite R. reflexivity.
    - destruct (P a); [cbn [find fst]; rewrite E|]; exact IH.
  Qed.
  Lemma dget_in d k v : NoDup (map fst d) -> In (k, v) d -> dget eqb d k = Some v.
  Proof.
    unfold dget. induction d as [|[a b] d IH]; cbn [map fst find]; intros Hn Hi; [destruct Hi|]. inversion Hn as [|x l Hx Hl]; subst. destruct Hi as [E|Hi].
    - inversion E; subst. assert (R : eqb k k = true) by (apply eqb_ok; reflexivity). rewrite R. reflexivity.
    - rewrite eqb_no; [apply IH; assumption|]. intros ->. apply Hx. apply in_map_iff. exists (k, v). auto.
  Qed.
  Lemma dset_vals d k v x : In x (map snd (dset eqb d k v)) -> x = v \/ In x (map snd d).
  Proof.
    induction d as [|[a b] d IH]; cbn [dset map snd]; [intros [H|[]]; auto|]. destruct (eqb a k); cbn [map snd]; intros [H|H]; auto; [right; right; exact H|right; left; exact H|].
    destruct (IH H); [left|right; right]; assumption.
  Qed.
  Lemma dset_vals_nodup d k v : NoDup (map snd d) -> ~ In v (map snd d) -> NoDup (map snd (dset eqb d k v)).
  Proof.
    induction d as [|[a b] d IH]; cbn [dset map snd]; intros Hn Hv; [constructor; [intros []|constructor]|]. inversion Hn as [|x l Hx Hl]; subst. destruct (eqb a k); cbn [map snd].
    - constructor; [|exact Hl]. intros X. apply Hv. right. exact X.
    - constructor; [|apply IH; [exact Hl|intros X; apply Hv; right; exact X]]. intros X. apply dset_vals in X. destruct X as [X|X]; [subst; apply Hv; left; reflexivity|contradiction].
  Qed.
End Dict.

(** ** One server *)
Definition log : Type := list (wid * sock).
Definition view (j : Z) (sv : server) (l : log) : Prop :=
  filter (fun e => fst (fst e) =? j) (sv_workers sv) = map (fun x => ((j, fst x), snd x)) l /\
  (forall r, to_inputs sv j r = map (fun x => (snd x, snd (fst x))) (filter (fun x => range_eqb (fst (fst x)) r) l)) /\
  (forall r, to_outputs sv j r = map (fun x => (snd x, fst (fst x))) (filter (fun x => range_eqb (snd (fst x)) r) l)).

Lemma view_empty j : view j (mkServer [] [] []) [].
Proof. repeat split. Qed.
Lemma dappend_get d k x k' : match dget rkey_eqb (dappend d k x) k' with Some l => l | None => [] end =
  match dget rkey_eqb d k' with Some l => l | None => [] end ++ (if rkey_eqb k k' then [x] else []).
Proof.
  unfold dappend. destruct (rkey_eqb k k') eqn:E.
  - apply rkey_eqb_ok in E. subst k'. rewrite (dget_dset_same _ rkey_eqb_ok). reflexivity.
  - rewrite (dget_dset_other _ rkey_eqb_ok); [rewrite app_nil_r; reflexivity|]. intros X. apply rkey_eqb_ok in X. congruence.
Qed.
Lemma view_register j sv l w s : view j sv l -> ~ In w (map fst l) -> view j (register sv j w s) (l ++ [(w, s)]).
Proof.
  intros (H1 & H2 & H3) Hw. split; [|split].
  - cbn [register sv_workers]. etransitivity; [apply (dset_filter_new (V := sock) fkey_eqb fkey_eqb_ok (fun k => fst k =? j) (sv_workers sv) (j, w) s)|].
    + apply Z.eqb_refl.
    + assert (X : map fst (filter (fun e : fkey * sock => fst (fst e) =? j) (sv_workers sv)) = map (fun x => (j, fst x)) l) by (etransitivity; [apply (f_equal (map fst) H1)|apply map_map]).
      intros Y. apply Hw. assert (Y' : In (j, w) (map (fun x => (j, fst x)) l)) by (rewrite <- X; exact Y). apply in_map_iff in Y'. destruct Y' as (y & E & Y'). inversion E. subst. apply in_map. exact Y'.
    + rewrite map_app. cbn [map fst snd]. apply (f_equal (fun z => z ++ [((j, w), s)])). exact H1.
  - intros r. unfold to_inputs. cbn [register sv_inputs]. rewrite dappend_get. unfold to_inputs in H2. rewrite H2, filter_app, map_app. f_equal. cbn [filter map fst snd]. unfold rkey_eqb. cbn [fst snd]. rewrite Z.eqb_refl. cbn [andb]. destruct (range_eqb (fst w) r); reflexivity.
  - intros r. unfold to_outputs. cbn [register sv_outputs]. rewrite dappend_get. unfold to_outputs in H3. rewrite H3, filter_app, map_app. f_equal. cbn [filter map fst snd]. unfold rkey_eqb. cbn [fst snd]. rewrite Z.eqb_refl. cbn [andb]. destruct (range_eqb (snd w) r); reflexivity.
Qed.
Lemma view_other j j' sv l w s : j' <> j -> view j sv l -> view j (register sv j' w s) l.
Proof.
  intros Hj (H1 & H2 & H3). assert (E : (j' =? j) = false) by (apply Z.eqb_neq; exact Hj). split; [|split].
  - cbn [register sv_workers]. etransitivity; [apply (dset_filter_other (V := sock) fkey_eqb fkey_eqb_ok (fun k => fst k =? j) (sv_workers sv) (j', w) s); exact E|exact H1].
  - intros r. unfold to_inputs. cbn [register sv_inputs]. rewrite dappend_get. unfold rkey_eqb. cbn [fst]. rewrite E. cbn [andb]. rewrite app_nil_r. apply H2.
  - intros r. unfold to_outputs. cbn [register sv_outputs]. rewrite dappend_get. unfold rkey_eqb. cbn [fst]. rewrite E. cbn [andb]. rewrite app_nil_r. apply H3.
Qed.
Lemma view_close j j' sv l : j' <> j -> view j sv l -> view j (close_connections sv j') l.
Proof.
  intros Hj (H1 & H2 & H3). assert (E : negb (j' =? j) = true) by (apply negb_true_iff, Z.eqb_neq; exact Hj). split; [|split].
  - rewrite <- H1. cbn [close_connections sv_workers]. clear - Hj. induction (sv_workers sv) as [|[[a b] c] d IH]; [reflexivity|]. cbn [filter fst snd].
    destruct (Z.eqb_spec j' a); cbn [negb filter fst snd].
    + subst. rewrite IH. destruct (Z.eqb_spec a j); [contradiction|reflexivity].
    + rewrite IH. reflexivity.
  - intros r. unfold to_inputs. cbn [close_connections sv_inputs]. assert (X := dget_filter rkey_eqb rkey_eqb_ok (fun k => negb (j' =? fst k)) (sv_inputs sv) (j, r) E). etransitivity; [exact (f_equal (fun o => match o with Some l => l | None => [] end) X)|apply H2].
  - intros r. unfold to_outputs. cbn [close_connections sv_outputs]. assert (X := dget_filter rkey_eqb rkey_eqb_ok (fun k => negb (j' =? fst k)) (sv_outputs sv) (j, r) E). etransitivity; [exact (f_equal (fun o => match o with Some l => l | None => [] end) X)|apply H3].
Qed.
Lemma view_registered j sv l : view j sv l -> registered sv j = map fst l.
Proof. intros (H & _). unfold registered. rewrite H, map_map. reflexivity. Qed.
Lemma view_socket j sv l w s : view j sv l -> NoDup (map fst l) -> In (w, s) l -> socket_to sv j w = Some s.
Proof.
  intros (H & _) Hn Hi. unfold socket_to. assert (E := dget_filter fkey_eqb fkey_eqb_ok (fun k => fst k =? j) (sv_workers sv) (j, w) (Z.eqb_refl j)). etransitivity; [symmetry; exact E|]. etransitivity; [exact (f_equal (fun d => dget fkey_eqb d (j, w)) H)|]. apply (dget_in _ fkey_eqb_ok).
  - rewrite map_map. cbn [fst]. clear - Hn. induction l as [|[a b] l IH]; [constructor|]. cbn [map fst] in *. inversion Hn as [|x y Hx Hy]; subst. constructor; [|apply IH; exact Hy].
    intros X. apply in_map_iff in X. destruct X as (z & E & X). inversion E. subst. apply Hx. apply in_map. exact X.
  - apply in_map_iff. exists (w, s). auto.
Qed.

(** ** Histories *)
(** the registrations at p that the connections of job j in a history lead to; k numbers the first connection *)
Fixpoint sides (j p : Z) (k : nat) (evs : list event) : log :=
  match evs with
  | [] => []
  | EConnect me j' mine e :: evs =>
      (if j' =? j then (if wk_id (en_worker e) =? p then [(mine, (k, true))] else []) ++ (if me =? p then [(fst e, (k, false))] else []) else [])
      ++ sides j p (S k) evs
  | _ :: evs => sides j p k evs
  end.
Definition waiting (j : Z) (b : bool) (q : list (nat * fkey)) : log := map (fun x => (snd (snd x), (fst x, b))) (filter (fun x => fst (snd x) =? j) q).
Lemma waiting_app j b q q' : waiting j b (q ++ q') = waiting j b q ++ waiting j b q'.
Proof. unfold waiting. rewrite filter_app, map_app. reflexivity. Qed.

Lemma waiting_same j b c w q : waiting j b (@cons (nat * fkey) (c, (j, w)) q) = (w, (c, b)) :: waiting j b q.
Proof. unfold waiting. cbn [filter fst snd]. rewrite Z.eqb_refl. reflexivity. Qed.
Lemma waiting_other j j' b c w q : j' <> j -> waiting j b (@cons (nat * fkey) (c, (j', w)) q) = waiting j b q.
Proof. intros H. unfold waiting. cbn [filter fst snd]. destruct (Z.eqb_spec j' j); [contradiction|reflexivity]. Qed.

Definition open (j : Z) (ev : event) : Prop := match ev with EClose _ j' => j' <> j | _ => True end.
Lemma at_same {A} (f : Z -> A) p a : at_worker f p a p = a.
Proof. unfold at_worker. rewrite Z.eqb_refl. reflexivity. Qed.
Lemma at_other {A} (f : Z -> A) p q a : q <> p -> at_worker f p a q = f q.
Proof. intros H. unfold at_worker. destruct (Z.eqb_spec q p); [contradiction|reflexivity]. Qed.
Lemma nodup_head {A B} (f : A -> B) l l' x r : Permutation (l ++ x :: r) l' -> NoDup (map f l') -> ~ In (f x) (map f l).
Proof.
  intros HP Hn. apply (Permutation_map f) in HP. apply Permutation_sym in HP. apply (Permutation_NoDup HP) in Hn. rewrite map_app in Hn. cbn [map] in Hn.
  apply NoDup_remove_2 in Hn. intros X. apply Hn. apply in_or_app. left. exact X.
Qed.
Lemma move_front {A} (l q d s : list A) x : Permutation (l ++ (x :: q) ++ d) s -> Permutation ((l ++ [x]) ++ q ++ d) s.
Proof. intros H. rewrite <- app_assoc. exact H. Qed.
Lemma move_front2 {A} (l q d s : list A) x : Permutation (l ++ q ++ x :: d) s -> Permutation ((l ++ [x]) ++ q ++ d) s.
Proof. intros H. rewrite <- H, <- app_assoc. apply Permutation_app_head. cbn [app]. apply Permutation_middle. Qed.

Definition good (j : Z) (cl : cluster) (l : Z -> log) (a : Z -> log) : Prop :=
  forall p, view j (cl_srv cl p) (l p) /\ Permutation (l p ++ waiting j true (cl_queue cl p) ++ waiting j false (cl_dialled cl p)) (a p).

Lemma happen_good j : forall evs cl l a, (forall ev, In ev evs -> open j ev) -> good j cl l a ->
  (forall p, NoDup (map fst (a p ++ sides j p (cl_next cl) evs))) ->
  exists l', good j (happen cl evs) l' (fun p => a p ++ sides j p (cl_next cl) evs).
Proof.
  induction evs as [|ev evs IH]; intros cl l a Ho Hg Hn.
  - exists l. intros p. cbn [sides happen fold_left]. rewrite app_nil_r. apply Hg.
  - assert (Ho' : forall ev, In ev evs -> open j ev) by (intros; apply Ho; right; assumption).
    assert (Hna : forall p, NoDup (map fst (a p))). { intros p. specialize (Hn p). rewrite map_app in Hn. apply L_Alg.NoDup_app_inv in Hn. apply Hn. }
    destruct ev as [me j' mine e|me|me|me j']; cbn [happen fold_left] in *.
    + set (h := fun p => if j' =? j then (if wk_id (en_worker e) =? p then [(mine, (cl_next cl, true))] else []) ++ (if me =? p then [(fst e, (cl_next cl, false))] else []) else []).
      destruct (IH (dial cl me j' mine e) l (fun p => a p ++ h p)) as (l' & Hl').
      * exact Ho'.
      * intros p. destruct (Hg p) as [Hv HP]. split; [exact Hv|]. cbn [dial cl_queue cl_dialled].
        assert (E1 : waiting j true (at_worker (cl_queue cl) (wk_id (en_worker e)) (cl_queue cl (wk_id (en_worker e)) ++ [(cl_next cl, (j', mine))]) p) =
                     waiting j true (cl_queue cl p) ++ (if (j' =? j) && (wk_id (en_worker e) =? p) then [(mine, (cl_next cl, true))] else [])).
        { unfold at_worker. rewrite (Z.eqb_sym p). destruct (Z.eqb_spec (wk_id (en_worker e)) p) as [<-|Hp]; [|rewrite andb_false_r, app_nil_r; reflexivity]. rewrite waiting_app. f_equal. unfold waiting. cbn [filter fst snd map]. rewrite andb_true_r. destruct (j' =? j); reflexivity. }
        assert (E2 : waiting j false (at_worker (cl_dialled cl) me (cl_dialled cl me ++ [(cl_next cl, (j', fst e))]) p) =
                     waiting j false (cl_dialled cl p) ++ (if (j' =? j) && (me =? p) then [(fst e, (cl_next cl, false))] else [])).
        { unfold at_worker. rewrite (Z.eqb_sym p). destruct (Z.eqb_spec me p) as [<-|Hp]; [|rewrite andb_false_r, app_nil_r; reflexivity]. rewrite waiting_app. f_equal. unfold waiting. cbn [filter fst snd map]. rewrite andb_true_r. destruct (j' =? j); reflexivity. }
        rewrite E1, E2, <- HP. assert (Eh : h p = (if (j' =? j) && (wk_id (en_worker e) =? p) then [(mine, (cl_next cl, true))] else []) ++ (if (j' =? j) && (me =? p) then [(fst e, (cl_next cl, false))] else [])) by (unfold h; destruct (j' =? j); reflexivity).
        rewrite Eh. rewrite <- !app_assoc. apply Permutation_app_head, Permutation_app_head.
        rewrite !app_assoc. apply Permutation_app_tail. apply Permutation_app_comm.
      * intros p. rewrite <- app_assoc. exact (Hn p).
      * exists l'. intros p. destruct (Hl' p) as [X1 X2]. split; [exact X1|]. etransitivity; [exact X2|]. cbn [sides dial cl_next]. rewrite <- app_assoc. apply Permutation_refl.
    + cbn [sides step] in *. unfold note_dialled in *. destruct (cl_dialled cl me) as [|[c [j' w]] q] eqn:Eq.
      * apply (IH cl l a); assumption.
      * apply (IH (mkCluster (at_worker (cl_srv cl) me (register (cl_srv cl me) j' w (c, false))) (cl_queue cl) (at_worker (cl_dialled cl) me q) (cl_next cl)) (fun p => if (j' =? j) && (p =? me) then l p ++ [(w, (c, false))] else l p) a); [exact Ho'| |exact Hn].
        intros p. destruct (Hg p) as [Hv HP]. cbn [cl_srv cl_queue cl_dialled]. destruct (Z.eqb_spec p me) as [->|Hp].
        -- rewrite !at_same. rewrite Eq in HP. destruct (Z.eqb_spec j' j) as [->|Hj]; cbn [andb].
           ++ rewrite waiting_same in HP. apply move_front2 in HP. split; [|exact HP].
              apply view_register; [exact Hv|]. rewrite <- app_assoc in HP. exact (nodup_head fst _ _ _ _ HP (Hna me)).
           ++ split; [apply view_other; assumption|]. rewrite waiting_other in HP by exact Hj. exact HP.
        -- rewrite !at_other by exact Hp. rewrite andb_false_r. split; [exact Hv|exact HP].
    + cbn [sides step] in *. unfold accept in *. destruct (cl_queue cl me) as [|[c [j' w]] q] eqn:Eq.
      * apply (IH cl l a); assumption.
      * apply (IH (mkCluster (at_worker (cl_srv cl) me (register (cl_srv cl me) j' w (c, true))) (at_worker (cl_queue cl) me q) (cl_dialled cl) (cl_next cl)) (fun p => if (j' =? j) && (p =? me) then l p ++ [(w, (c, true))] else l p) a); [exact Ho'| |exact Hn].
        intros p. destruct (Hg p) as [Hv HP]. cbn [cl_srv cl_queue cl_dialled]. destruct (Z.eqb_spec p me) as [->|Hp].
        -- rewrite !at_same. rewrite Eq in HP. destruct (Z.eqb_spec j' j) as [->|Hj]; cbn [andb].
           ++ rewrite waiting_same in HP. apply move_front in HP. split; [|exact HP].
              apply view_register; [exact Hv|]. rewrite <- app_assoc in HP. exact (nodup_head fst _ _ _ _ HP (Hna me)).
           ++ split; [apply view_other; assumption|]. rewrite waiting_other in HP by exact Hj. exact HP.
        -- rewrite !at_other by exact Hp. rewrite andb_false_r. split; [exact Hv|exact HP].
    + cbn [sides step] in *. assert (Hj : j' <> j) by exact (Ho _ (or_introl eq_refl)).
      apply (IH (mkCluster (at_worker (cl_srv cl) me (close_connections (cl_srv cl me) j')) (cl_queue cl) (cl_dialled cl) (cl_next cl)) l a); [exact Ho'| |exact Hn].
      intros p. destruct (Hg p) as [Hv HP]. cbn [cl_srv cl_queue cl_dialled]. split; [|exact HP]. unfold at_worker. destruct (Z.eqb_spec p me) as [->|Hp]; [apply view_close; assumption|exact Hv].
Qed.
