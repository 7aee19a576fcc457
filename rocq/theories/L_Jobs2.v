(** Several jobs: the invariant that every job by itself is somewhere on one of its own executions. *)
From Coq Require Import Sorted.
From Verif Require Import Base M_Kron M_Measure M_Net S_Net L_Net M_Worker L_Worker1 M_Jobs S_Jobs L_Jobs1.

Lemma zset_eq {A} (f : Z -> A) i a : zset f i a i = a.
Proof. unfold zset. rewrite Z.eqb_refl. reflexivity. Qed.
Lemma zset_ne {A} (f : Z -> A) i a k : k <> i -> zset f i a k = f k.
Proof. intros H. unfold zset. destruct (Z.eqb_spec k i); [contradiction|reflexivity]. Qed.
Lemma nset_eq {A} (f : nat -> A) i a : nset f i a i = a.
Proof. unfold nset. rewrite Nat.eqb_refl. reflexivity. Qed.
Lemma nset_ne {A} (f : nat -> A) i a k : k <> i -> nset f i a k = f k.
Proof. intros H. unfold nset. destruct (Nat.eqb_spec k i); [contradiction|reflexivity]. Qed.

Section Sorted.
  Context {A : Type} (lt : A -> A -> Prop).
  Lemma sorted_snoc l x : StronglySorted lt l -> (forall a, In a l -> lt a x) -> StronglySorted lt (l ++ [x]).
  Proof.
    induction 1 as [|a l Hl IH Ha]; intros H; cbn; [repeat constructor|]. constructor; [apply IH; intros; apply H; right; assumption|].
    rewrite Forall_forall in *. intros y Hy. apply in_app_or in Hy. destruct Hy as [Hy|[<-|[]]]; [apply Ha; exact Hy|apply H; left; reflexivity].
  Qed.
  Lemma sorted_ext (lt' : A -> A -> Prop) l : (forall a b, In a l -> In b l -> lt a b -> lt' a b) -> StronglySorted lt l -> StronglySorted lt' l.
  Proof.
    intros H Hl. induction Hl as [|a l Hl IH Ha]; [constructor|]. constructor; [apply IH; intros; apply H; try (right; assumption); assumption|].
    rewrite Forall_forall in *. intros y Hy. apply H; [left; reflexivity|right; exact Hy|auto].
  Qed.
  Lemma sorted_last l x y pre : StronglySorted lt (x :: l) -> x :: l = pre ++ [y] -> (forall a, ~ lt a a) -> x = y -> l = [].
  Proof.
    intros Hs E Hirr ->. destruct pre as [|z pre]; cbn in E; [injection E as <-; reflexivity|]. injection E as <- ->.
    inversion Hs as [|? ? _ Hf]; subst. rewrite Forall_forall in Hf. exfalso. apply (Hirr y), Hf, in_or_app. right. left. reflexivity.
  Qed.
End Sorted.

Section Inv.
  Context {K : Type} {OK : OrdRing K}.
  Variables (rsqrt : K -> K) (capd capu : Z -> option nat) (capw : nat -> wid -> wid -> option nat) (jobs : nat -> job K).
  Notation net := (net pid (msg K) (ending K)).
  Notation proc := (proc pid (msg K) (ending K)).
  Notation world := (world K).
  Notation cap := (job_cap capd capu capw jobs).
  Notation at_ j w := (j_at (jobs j) w).
  Notation ws j := (j_ws (jobs j)).
  Notation exec j := (exec pid_eqb (cap j)).
  Notation wexec := (wexec rsqrt capd capu capw jobs).
  Hypothesis Hplaced : forall j, placed jobs j.
  Hypothesis Hclean : forall j, clean rsqrt capd capu capw jobs j.

  (** ** Of one process *)
  Lemma worker_recv (x : job K) w : exists k, j_worker rsqrt x w = Recv Mgr k.
  Proof. unfold j_worker. destruct (j_envs x w); cbn; eexists; reflexivity. Qed.
  Lemma net_worker (x : job K) w : In w (j_ws x) -> procs (j_net rsqrt x) (Wk w) = j_worker rsqrt x w.
  Proof.
    intros H. unfold j_net, job_net. cbn [procs]. destruct (existsb (wid_eqb w) (j_ws x)) eqn:E; [reflexivity|].
    assert (existsb (wid_eqb w) (j_ws x) = true) by (apply existsb_exists; exists w; split; [exact H|apply wid_eqb_ok; reflexivity]). congruence.
  Qed.

  (** ** The invariant *)
  Definition cur (s : wstate K) : list (nat * wid) := match s with WJob j w _ => [(j, w)] | _ => [] end.
  Definition body (S : nat -> net) (s : wstate K) : list (down K) := match s with WJob j w _ => map DOp (chans (S j) Mgr (Wk w)) | _ => [] end.
  Definition seg (S : nat -> net) (q : nat * wid) : list (down K) := DSetup (fst q) (snd q) :: map DOp (chans (S (fst q)) Mgr (Wk (snd q))).
  Definition flat (S : nat -> net) (l : list (nat * wid)) : list (down K) := concat (map (seg S) l).
  Definition unf (t : option (thread K)) : Prop := match t with Some (Setting _) | Some (Serving _) => True | _ => False end.
  Definition uns (t : option (thread K)) (w : wid) : Prop := match t with Some (Setting rest) => In w rest | _ => False end.

  Record inv (W : world) (S : nat -> net) (segs : Z -> list (nat * wid)) (T : nat -> nat) (N : nat) : Prop := mkInv {
    i_alone : forall j, alone rsqrt capd capu capw jobs j (S j);
    i_thread : forall j, match threads W j with
                         | None | Some (Setting _) => S j = j_net rsqrt (jobs j)
                         | Some (Serving p) => procs (S j) Mgr = p
                         | Some (Returned p) => procs (S j) Mgr = p /\ ended p
                         end;
    i_rest : forall j rest, threads W j = Some (Setting rest) -> NoDup rest /\ incl rest (ws j);
    i_data : forall j w v, data W j w v = chans (S j) (Wk w) (Wk v);
    i_worker : forall i j w p, workers W i = WJob j w p -> procs (S j) (Wk w) = p;
    i_alive : forall i e, workers W i <> WStopped e;
    i_down : forall i, downs W i = body S (workers W i) ++ flat S (segs i);
    i_queue : forall i j w, In (j, w) (cur (workers W i) ++ segs i) -> In w (ws j) /\ at_ j w = i /\ threads W j <> None /\ ~ uns (threads W j) w;
    i_segs : forall i j w, In (j, w) (segs i) -> procs (S j) (Wk w) = j_worker rsqrt (jobs j) w;
    i_class : forall j w, threads W j <> None -> In w (ws j) ->
      uns (threads W j) w \/ In (j, w) (segs (at_ j w)) \/ (exists p, workers W (at_ j w) = WJob j w p) \/ exists r, procs (S j) (Wk w) = Ret r;
    i_ups : forall j w, unf (threads W j) -> In w (ws j) -> ups W (at_ j w) = chans (S j) (Wk w) Mgr;
    i_ups0 : forall i, (forall j w, unf (threads W j) -> In w (ws j) -> at_ j w <> i) -> ups W i = [];
    i_free : forall i, free W i = true -> forall j w, unf (threads W j) -> In w (ws j) -> at_ j w <> i;
    i_taken : forall i, free W i = true \/ exists j w, unf (threads W j) /\ In w (ws j) /\ at_ j w = i;
    i_own : forall j j' w w', unf (threads W j) -> unf (threads W j') -> In w (ws j) -> In w' (ws j') -> at_ j w = at_ j' w' -> j = j';
    i_last : forall j w, unf (threads W j) -> In w (ws j) ->
      uns (threads W j) w \/ (exists pre, cur (workers W (at_ j w)) ++ segs (at_ j w) = pre ++ [(j, w)]) \/
      ((exists r, procs (S j) (Wk w) = Ret r) /\ cur (workers W (at_ j w)) ++ segs (at_ j w) = []);
    i_time : forall i, StronglySorted (fun a b => (T (fst a) < T (fst b))%nat) (cur (workers W i) ++ segs i);
    i_later : forall j w a, uns (threads W j) w -> In w (ws j) -> In a (cur (workers W (at_ j w)) ++ segs (at_ j w)) -> (T (fst a) < T j)%nat;
    i_clock : forall j, threads W j <> None -> (T j < N)%nat
  }.

  Lemma inv_init : inv world0 (fun j => j_net rsqrt (jobs j)) (fun _ => []) (fun _ => O) O.
  Proof.
    constructor; cbn; intros; try contradiction; try discriminate; try congruence; try reflexivity; try solve [constructor]; try (left; reflexivity).
    apply alone_init.
  Qed.

  (** ** Steps that do not touch the jobs by themselves *)
  Lemma has_in (x : job K) w : In w (j_ws x) <-> existsb (wid_eqb w) (j_ws x) = true.
  Proof.
    rewrite existsb_exists. split.
    - intros H. exists w. split; [exact H|apply wid_eqb_ok; reflexivity].
    - intros (v & H & E). apply wid_eqb_ok in E. subst. exact H.
  Qed.
  Lemma at_in (x : job K) i : existsb (fun w => i =? j_at x w) (j_ws x) = true <-> exists w, In w (j_ws x) /\ j_at x w = i.
  Proof.
    rewrite existsb_exists. split; intros (w & H & E); exists w; split; auto; [apply Z.eqb_eq in E; auto|apply Z.eqb_eq; auto].
  Qed.

  Lemma inv_start W S segs T N j W' : inv W S segs T N -> start jobs W j = Some W' -> inv W' S segs (nset T j N) (Datatypes.S N).
  Proof.
    intros I H. unfold start in H. destruct (threads W j) as [?|] eqn:Ej; [discriminate|].
    destruct (forallb _ _) eqn:Ef; [|discriminate]. injection H as <-. rewrite forallb_forall in Ef.
    assert (Hq : forall i q, In q (cur (workers W i) ++ segs i) -> fst q <> j).
    { intros i [j' w'] Hq E0. cbn in E0. subst j'. destruct (i_queue _ _ _ _ _ I _ _ _ Hq) as (_ & _ & E & _). contradiction. }
    assert (Hfr : forall w j' w', In w (ws j) -> unf (threads W j') -> In w' (ws j') -> at_ j' w' <> at_ j w).
    { intros w j' w' Hw. apply (i_free _ _ _ _ _ I), Ef, Hw. }
    assert (Sj := i_thread _ _ _ _ _ I j). rewrite Ej in Sj.
    constructor; cbn [threads workers downs ups data free].
    - apply (i_alone _ _ _ _ _ I).
    - intros j'. destruct (Nat.eq_dec j' j) as [->|Hn]; [rewrite nset_eq; exact Sj|rewrite nset_ne by exact Hn; apply (i_thread _ _ _ _ _ I)].
    - intros j' rest. destruct (Nat.eq_dec j' j) as [->|Hn]; [rewrite nset_eq; intros E; injection E as <-; split; [apply Hplaced|apply incl_refl]|rewrite nset_ne by exact Hn; apply (i_rest _ _ _ _ _ I)].
    - apply (i_data _ _ _ _ _ I).
    - apply (i_worker _ _ _ _ _ I).
    - apply (i_alive _ _ _ _ _ I).
    - apply (i_down _ _ _ _ _ I).
    - intros i j' w' Hin. assert (Hn := Hq _ _ Hin). cbn in Hn. rewrite nset_ne by exact Hn. apply (i_queue _ _ _ _ _ I); exact Hin.
    - apply (i_segs _ _ _ _ _ I).
    - intros j' w'. destruct (Nat.eq_dec j' j) as [->|Hn]; [rewrite nset_eq; cbn; auto|rewrite nset_ne by exact Hn; apply (i_class _ _ _ _ _ I)].
    - intros j' w'. destruct (Nat.eq_dec j' j) as [->|Hn].
      + intros _ Hw. rewrite Sj. cbn. apply (i_ups0 _ _ _ _ _ I). intros j2 w2 Hu Hw2. apply Hfr; assumption.
      + rewrite nset_ne by exact Hn. apply (i_ups _ _ _ _ _ I).
    - intros i Hi. apply (i_ups0 _ _ _ _ _ I). intros j2 w2 Hu Hw2. apply Hi; [|exact Hw2].
      destruct (Nat.eq_dec j2 j) as [->|Hn]; [rewrite nset_eq; exact Logic.I|rewrite nset_ne by exact Hn; exact Hu].
    - intros i Hi j' w'. apply andb_prop in Hi. destruct Hi as [Hi Hi']. apply Bool.negb_true_iff in Hi'.
      destruct (Nat.eq_dec j' j) as [->|Hn]; [|rewrite nset_ne by exact Hn; apply (i_free _ _ _ _ _ I); exact Hi].
      intros _ Hw E. assert (existsb (fun w => i =? at_ j w) (ws j) = true) by (apply at_in; eauto). congruence.
    - intros i. destruct (existsb (fun w => i =? at_ j w) (ws j)) eqn:Ei.
      + right. apply at_in in Ei. destruct Ei as (w & Hw & Ea). exists j, w. rewrite nset_eq. split; [exact Logic.I|auto].
      + destruct (i_taken _ _ _ _ _ I i) as [E|(j' & w' & Hu & Hw' & Ea)]; [left; rewrite E; reflexivity|right]. exists j', w'. rewrite nset_ne; [auto|]. intros ->. rewrite Ej in Hu. exact Hu.
    - intros j1 j2 w1 w2. destruct (Nat.eq_dec j1 j) as [->|H1], (Nat.eq_dec j2 j) as [->|H2]; rewrite ?nset_eq, ?nset_ne by assumption; auto.
      + intros _ Hu Hw1 Hw2 E. exfalso. apply (Hfr w1 j2 w2); auto.
      + intros Hu _ Hw1 Hw2 E. exfalso. apply (Hfr w2 j1 w1); auto.
      + apply (i_own _ _ _ _ _ I).
    - intros j' w'. destruct (Nat.eq_dec j' j) as [->|Hn]; [rewrite nset_eq; cbn; auto|rewrite nset_ne by exact Hn; apply (i_last _ _ _ _ _ I)].
    - intros i. eapply sorted_ext; [|apply (i_time _ _ _ _ _ I)]. intros a b Ha Hb. cbn. rewrite !nset_ne by eauto. auto.
    - intros j' w' a Hu Hw Ha. rewrite (nset_ne T j N (fst a)) by eauto. destruct (Nat.eq_dec j' j) as [->|Hn].
      + rewrite nset_eq. destruct a as [ja wa]. apply (i_clock _ _ _ _ _ I). apply (i_queue _ _ _ _ _ I) in Ha. tauto.
      + rewrite (nset_ne T) by exact Hn. rewrite nset_ne in Hu by exact Hn. apply (i_later _ _ _ _ _ I) with w'; assumption.
    - intros j' Hj. destruct (Nat.eq_dec j' j) as [->|Hn]; [rewrite nset_eq; lia|]. rewrite (nset_ne T) by exact Hn. rewrite nset_ne in Hj by exact Hn. apply (i_clock _ _ _ _ _ I) in Hj. lia.
  Qed.

  (** ** Facts *)
  Lemma uns_unf t w : uns t w -> unf t.
  Proof. destruct t as [[]|]; cbn; auto. Qed.
  Lemma flat_app S l l' : flat S (l ++ l') = flat S l ++ flat S l'.
  Proof. unfold flat. rewrite map_app, concat_app. reflexivity. Qed.
  Lemma seg_ext S S' q : chans (S' (fst q)) Mgr (Wk (snd q)) = chans (S (fst q)) Mgr (Wk (snd q)) -> seg S' q = seg S q.
  Proof. intros H. unfold seg. rewrite H. reflexivity. Qed.
  Lemma flat_ext S S' l : (forall q, In q l -> chans (S' (fst q)) Mgr (Wk (snd q)) = chans (S (fst q)) Mgr (Wk (snd q))) -> flat S' l = flat S l.
  Proof.
    induction l as [|q l IH]; intros H; [reflexivity|]. change (seg S' q ++ flat S' l = seg S q ++ flat S l). rewrite IH by (intros; apply H; right; assumption).
    rewrite (seg_ext S S' q) by (apply H; left; reflexivity). reflexivity.
  Qed.
  Lemma body_ext S S' s : (forall q, In q (cur s) -> chans (S' (fst q)) Mgr (Wk (snd q)) = chans (S (fst q)) Mgr (Wk (snd q))) -> body S' s = body S s.
  Proof. destruct s as [|j w p|e]; cbn; intros H; try reflexivity. specialize (H (j, w) (or_introl eq_refl)). cbn in H. rewrite H. reflexivity. Qed.
  Lemma queue_ext S S' s l : (forall q, In q (cur s ++ l) -> chans (S' (fst q)) Mgr (Wk (snd q)) = chans (S (fst q)) Mgr (Wk (snd q))) -> body S' s ++ flat S' l = body S s ++ flat S l.
  Proof. intros H. rewrite (body_ext S S' s), (flat_ext S S' l); [reflexivity| |]; intros q Hq; apply H, in_or_app; auto. Qed.
  Lemma irr T (a : nat * wid) : ~ (T (fst a) < T (fst a))%nat. Proof. lia. Qed.
  Lemma queue_len S s l j w : In (j, w) (cur s ++ l) -> (length (chans (S j) Mgr (Wk w)) <= length (body S s ++ flat S l))%nat.
  Proof.
    intros H. rewrite app_length. apply in_app_or in H. destruct H as [H|H].
    - destruct s as [|j' w' p|e]; cbn in H; try contradiction. destruct H as [H|[]]. injection H as -> ->. cbn. rewrite map_length. lia.
    - apply in_split in H. destruct H as (l1 & l2 & ->). rewrite flat_app, app_length. change ((j, w) :: l2) with ([(j, w)] ++ l2). rewrite flat_app, app_length.
      assert (length (flat S [(j, w)]) = Datatypes.S (length (chans (S j) Mgr (Wk w)))) as -> by (unfold flat, seg; cbn; rewrite app_nil_r, map_length; reflexivity). lia.
  Qed.
  Lemma room_less {A B} c (l : list A) (l' : list B) : (length l <= length l')%nat -> has_room c l' = true -> has_room c l = true.
  Proof. destruct c as [c|]; [|reflexivity]. unfold has_room. rewrite !Nat.ltb_lt. lia. Qed.

  (** ** The thread of a client, outside the loop *)
  Lemma inv_setting W S segs T N j w rest W' : inv W S segs T N -> threads W j = Some (Setting (w :: rest)) -> thread_step capd jobs W j = Some W' ->
    inv W' S (zset segs (at_ j w) (segs (at_ j w) ++ [(j, w)])) T N.
  Proof.
    intros I Ej H. unfold thread_step in H. rewrite Ej in H. destruct (has_room _ _) eqn:Er; [|discriminate]. injection H as <-.
    destruct (i_rest _ _ _ _ _ I j _ Ej) as [Hnd Hin]. inversion Hnd as [|? ? Hnw Hnd']; subst.
    assert (Hw : In w (ws j)) by (apply Hin; left; reflexivity).
    assert (Sj := i_thread _ _ _ _ _ I j). rewrite Ej in Sj.
    set (i := at_ j w). set (segs' := zset segs i (segs i ++ [(j, w)])).
    assert (Huj : unf (threads W j)) by (rewrite Ej; exact Logic.I).
    assert (Hunf : forall j', unf (nset (threads W) j (Some (Setting rest)) j') <-> unf (threads W j')).
    { intros j'. destruct (Nat.eq_dec j' j) as [->|Hn]; [rewrite nset_eq; cbn; tauto|rewrite nset_ne by exact Hn; tauto]. }
    assert (Huns : forall j' w', uns (nset (threads W) j (Some (Setting rest)) j') w' -> uns (threads W j') w' /\ (j', w') <> (j, w)).
    { intros j' w'. destruct (Nat.eq_dec j' j) as [->|Hn].
      - rewrite nset_eq, Ej. cbn. intros H. split; [auto|]. intros E. injection E as ->. contradiction.
      - rewrite nset_ne by exact Hn. intros H. split; [exact H|]. congruence. }
    assert (Huns' : forall j' w', uns (threads W j') w' -> uns (nset (threads W) j (Some (Setting rest)) j') w' \/ (j', w') = (j, w)).
    { intros j' w'. destruct (Nat.eq_dec j' j) as [->|Hn].
      - rewrite nset_eq, Ej. cbn. intros [->|H]; auto.
      - rewrite nset_ne by exact Hn. auto. }
    assert (Hmono : forall k q, In q (segs k) -> In q (segs' k)).
    { intros k q Hq. unfold segs'. destruct (Z.eq_dec k i) as [->|Hk]; [rewrite zset_eq; apply in_or_app; auto|rewrite zset_ne by exact Hk; exact Hq]. }
    assert (Hinv : forall k q, In q (segs' k) -> In q (segs k) \/ (k = i /\ q = (j, w))).
    { intros k q. unfold segs'. destruct (Z.eq_dec k i) as [->|Hk]; [rewrite zset_eq; intros Hq; apply in_app_or in Hq; destruct Hq as [Hq|[<-|[]]]; auto|rewrite zset_ne by exact Hk; auto]. }
    assert (Hsame : forall j' w', unf (threads W j') -> In w' (ws j') -> at_ j' w' = i -> (j', w') = (j, w)).
    { intros j' w' Hu Hw' E. assert (j' = j) by (apply (i_own _ _ _ _ _ I j' j w' w); auto). subst j'. f_equal. apply (Hplaced j); auto. }
    constructor; cbn [threads workers downs ups data free].
    - apply (i_alone _ _ _ _ _ I).
    - intros j'. destruct (Nat.eq_dec j' j) as [->|Hn]; [rewrite nset_eq; exact Sj|rewrite nset_ne by exact Hn; apply (i_thread _ _ _ _ _ I)].
    - intros j' rest'. destruct (Nat.eq_dec j' j) as [->|Hn]; [rewrite nset_eq; intros E; injection E as <-; split; [exact Hnd'|intros v Hv; apply Hin; right; exact Hv]|rewrite nset_ne by exact Hn; apply (i_rest _ _ _ _ _ I)].
    - apply (i_data _ _ _ _ _ I).
    - apply (i_worker _ _ _ _ _ I).
    - apply (i_alive _ _ _ _ _ I).
    - intros k. unfold segs'. destruct (Z.eq_dec k i) as [->|Hk]; [rewrite !zset_eq|rewrite !zset_ne by exact Hk; apply (i_down _ _ _ _ _ I)].
      rewrite flat_app, app_assoc, <- (i_down _ _ _ _ _ I). unfold flat, seg. cbn. rewrite Sj. reflexivity.
    - intros k j' w' Hq. apply in_app_or in Hq.
      assert (Hc : In (j', w') (cur (workers W k) ++ segs k) \/ (k = i /\ (j', w') = (j, w))).
      { destruct Hq as [Hq|Hq]; [left; apply in_or_app; auto|]. destruct (Hinv _ _ Hq) as [Hq'|Hq']; [left; apply in_or_app; auto|right; exact Hq']. }
      destruct Hc as [Hc|[-> E]].
      + destruct (i_queue _ _ _ _ _ I _ _ _ Hc) as (H1 & H2 & H3 & H4). split; [exact H1|]. split; [exact H2|]. split; [|intros Hu; apply H4, Huns, Hu].
        destruct (Nat.eq_dec j' j) as [->|Hn]; [rewrite nset_eq; discriminate|rewrite nset_ne by exact Hn; exact H3].
      + injection E as -> ->. split; [exact Hw|]. split; [reflexivity|]. rewrite nset_eq. split; [discriminate|]. exact Hnw.
    - intros k j' w' Hq. destruct (Hinv _ _ Hq) as [Hq'|[_ E]]; [apply (i_segs _ _ _ _ _ I k); exact Hq'|]. injection E as -> ->. rewrite Sj. apply net_worker, Hw.
    - intros j' w' Hj Hw'. assert (Hj' : threads W j' <> None). { destruct (Nat.eq_dec j' j) as [->|Hn]; [rewrite Ej; discriminate|rewrite nset_ne in Hj by exact Hn; exact Hj]. }
      destruct (i_class _ _ _ _ _ I j' w' Hj' Hw') as [H|[H|H]]; [|right; left; apply Hmono; exact H|right; right; exact H].
      destruct (Huns' _ _ H) as [H'|E]; [left; exact H'|]. injection E as -> ->. right. left. unfold segs'. fold i. rewrite zset_eq. apply in_or_app. right. left. reflexivity.
    - intros j' w' Hu. apply Hunf in Hu. apply (i_ups _ _ _ _ _ I); exact Hu.
    - intros k Hk. apply (i_ups0 _ _ _ _ _ I). intros j' w' Hu. apply Hk, Hunf, Hu.
    - intros k Hk j' w' Hu. apply Hunf in Hu. apply (i_free _ _ _ _ _ I); assumption.
    - intros k. destruct (i_taken _ _ _ _ _ I k) as [E|(j' & w' & Hu & H')]; [left; exact E|right]. exists j', w'. rewrite Hunf. auto.
    - intros j1 j2 w1 w2 H1 H2. apply Hunf in H1, H2. apply (i_own _ _ _ _ _ I); assumption.
    - intros j' w' Hu Hw'. apply Hunf in Hu. destruct (Z.eq_dec (at_ j' w') i) as [E|E].
      + pose proof (Hsame j' w' Hu Hw' E) as E2. injection E2 as -> ->. right. left. exists (cur (workers W i) ++ segs i). unfold segs'. fold i. rewrite zset_eq, app_assoc. reflexivity.
      + unfold segs'. rewrite zset_ne by exact E. destruct (i_last _ _ _ _ _ I j' w' Hu Hw') as [H|H]; [|right; exact H].
        destruct (Huns' _ _ H) as [H'|E2]; [left; exact H'|]. injection E2 as -> ->. contradiction.
    - intros k. unfold segs'. destruct (Z.eq_dec k i) as [->|Hk]; [rewrite zset_eq|rewrite zset_ne by exact Hk; apply (i_time _ _ _ _ _ I)].
      rewrite app_assoc. apply sorted_snoc; [apply (i_time _ _ _ _ _ I)|]. intros a Ha. cbn. apply (i_later _ _ _ _ _ I j w a); auto. rewrite Ej. left. reflexivity.
    - intros j' w' a Hu Hw' Ha. destruct (Huns _ _ Hu) as [Hu' Hne]. destruct (Z.eq_dec (at_ j' w') i) as [E|E].
      + exfalso. apply Hne, Hsame; auto. exact (uns_unf _ _ Hu').
      + unfold segs' in Ha. rewrite zset_ne in Ha by exact E. apply (i_later _ _ _ _ _ I j' w' a); auto.
    - intros j' Hj. apply (i_clock _ _ _ _ _ I). destruct (Nat.eq_dec j' j) as [->|Hn]; [rewrite Ej; discriminate|rewrite nset_ne in Hj by exact Hn; exact Hj].
  Qed.

  Lemma inv_serving W S segs T N j W' : inv W S segs T N -> threads W j = Some (Setting []) -> thread_step capd jobs W j = Some W' -> inv W' S segs T N.
  Proof.
    intros I Ej H. unfold thread_step in H. rewrite Ej in H. injection H as <-.
    assert (Sj := i_thread _ _ _ _ _ I j). rewrite Ej in Sj. set (t := Some (Serving (j_manager (jobs j)))).
    assert (Hunf : forall j', unf (nset (threads W) j t j') <-> unf (threads W j')).
    { intros j'. destruct (Nat.eq_dec j' j) as [->|Hn]; [rewrite nset_eq, Ej; cbn; tauto|rewrite nset_ne by exact Hn; tauto]. }
    assert (Huns : forall j' w', uns (nset (threads W) j t j') w' <-> uns (threads W j') w').
    { intros j' w'. destruct (Nat.eq_dec j' j) as [->|Hn]; [rewrite nset_eq, Ej; cbn; tauto|rewrite nset_ne by exact Hn; tauto]. }
    assert (Hnone : forall j', nset (threads W) j t j' <> None <-> threads W j' <> None).
    { intros j'. destruct (Nat.eq_dec j' j) as [->|Hn]; [rewrite nset_eq, Ej; unfold t; split; discriminate|rewrite nset_ne by exact Hn; tauto]. }
    constructor; cbn [threads workers downs ups data free].
    - apply (i_alone _ _ _ _ _ I).
    - intros j'. destruct (Nat.eq_dec j' j) as [->|Hn]; [rewrite nset_eq, Sj; reflexivity|rewrite nset_ne by exact Hn; apply (i_thread _ _ _ _ _ I)].
    - intros j' rest'. destruct (Nat.eq_dec j' j) as [->|Hn]; [rewrite nset_eq; discriminate|rewrite nset_ne by exact Hn; apply (i_rest _ _ _ _ _ I)].
    - apply (i_data _ _ _ _ _ I).
    - apply (i_worker _ _ _ _ _ I).
    - apply (i_alive _ _ _ _ _ I).
    - apply (i_down _ _ _ _ _ I).
    - intros k j' w' Hq. rewrite Hnone, Huns. apply (i_queue _ _ _ _ _ I); exact Hq.
    - apply (i_segs _ _ _ _ _ I).
    - intros j' w'. rewrite Hnone, Huns. apply (i_class _ _ _ _ _ I).
    - intros j' w'. rewrite Hunf. apply (i_ups _ _ _ _ _ I).
    - intros k Hk. apply (i_ups0 _ _ _ _ _ I). intros j' w' Hu. apply Hk, Hunf, Hu.
    - intros k Hk j' w'. rewrite Hunf. apply (i_free _ _ _ _ _ I); assumption.
    - intros k. destruct (i_taken _ _ _ _ _ I k) as [E|(j' & w' & Hu & H')]; [left; exact E|right]. exists j', w'. rewrite Hunf. auto.
    - intros j1 j2 w1 w2. rewrite !Hunf. apply (i_own _ _ _ _ _ I).
    - intros j' w'. rewrite Hunf, Huns. apply (i_last _ _ _ _ _ I).
    - apply (i_time _ _ _ _ _ I).
    - intros j' w' a. rewrite Huns. apply (i_later _ _ _ _ _ I).
    - intros j'. rewrite Hnone. apply (i_clock _ _ _ _ _ I).
  Qed.

  Lemma inv_returned W S segs T N j p : inv W S segs T N -> threads W j = Some (Serving p) -> ended p ->
    inv (mkWorld (fun i => free W i || existsb (fun w => i =? at_ j w) (ws j)) (nset (threads W) j (Some (Returned p))) (workers W) (downs W) (ups W) (data W)) S segs T N.
  Proof.
    intros I Ej Hp. assert (Sj := i_thread _ _ _ _ _ I j). rewrite Ej in Sj. set (t := Some (Returned p)).
    assert (Hunf : forall j', unf (nset (threads W) j t j') <-> unf (threads W j') /\ j' <> j).
    { intros j'. destruct (Nat.eq_dec j' j) as [->|Hn]; [rewrite nset_eq; cbn; tauto|rewrite nset_ne by exact Hn; tauto]. }
    assert (Huns : forall j' w', uns (nset (threads W) j t j') w' <-> uns (threads W j') w').
    { intros j' w'. destruct (Nat.eq_dec j' j) as [->|Hn]; [rewrite nset_eq, Ej; cbn; tauto|rewrite nset_ne by exact Hn; tauto]. }
    assert (Hnone : forall j', nset (threads W) j t j' <> None <-> threads W j' <> None).
    { intros j'. destruct (Nat.eq_dec j' j) as [->|Hn]; [rewrite nset_eq, Ej; unfold t; split; discriminate|rewrite nset_ne by exact Hn; tauto]. }
    assert (Huj : unf (threads W j)) by (rewrite Ej; exact Logic.I).
    constructor; cbn [threads workers downs ups data free].
    - apply (i_alone _ _ _ _ _ I).
    - intros j'. destruct (Nat.eq_dec j' j) as [->|Hn]; [rewrite nset_eq; split; [exact Sj|exact Hp]|rewrite nset_ne by exact Hn; apply (i_thread _ _ _ _ _ I)].
    - intros j' rest'. destruct (Nat.eq_dec j' j) as [->|Hn]; [rewrite nset_eq; discriminate|rewrite nset_ne by exact Hn; apply (i_rest _ _ _ _ _ I)].
    - apply (i_data _ _ _ _ _ I).
    - apply (i_worker _ _ _ _ _ I).
    - apply (i_alive _ _ _ _ _ I).
    - apply (i_down _ _ _ _ _ I).
    - intros k j' w' Hq. rewrite Hnone, Huns. apply (i_queue _ _ _ _ _ I); exact Hq.
    - apply (i_segs _ _ _ _ _ I).
    - intros j' w'. rewrite Hnone, Huns. apply (i_class _ _ _ _ _ I).
    - intros j' w'. rewrite Hunf. intros [Hu _]. apply (i_ups _ _ _ _ _ I); exact Hu.
    - intros k Hk. destruct (existsb (fun w => k =? at_ j w) (ws j)) eqn:Ek.
      + apply at_in in Ek. destruct Ek as (w & Hw & <-). rewrite (i_ups _ _ _ _ _ I j w Huj Hw).
        apply (end_read rsqrt capd capu capw jobs j (Hclean j)); [apply (i_alone _ _ _ _ _ I)|exact Hw|]. rewrite Sj. exact Hp.
      + apply (i_ups0 _ _ _ _ _ I). intros j' w' Hu Hw'. destruct (Nat.eq_dec j' j) as [->|Hn]; [|apply Hk; [apply Hunf; auto|exact Hw']].
        intros E. assert (existsb (fun w => k =? at_ j w) (ws j) = true) by (apply at_in; eauto). congruence.
    - intros k Hk j' w'. rewrite Hunf. intros [Hu Hn] Hw'. apply Bool.orb_true_iff in Hk. destruct Hk as [Hk|Hk]; [apply (i_free _ _ _ _ _ I); assumption|].
      apply at_in in Hk. destruct Hk as (w & Hw & <-). intros E. apply Hn. apply (i_own _ _ _ _ _ I j' j w' w); assumption.
    - intros k. destruct (i_taken _ _ _ _ _ I k) as [E|(j' & w' & Hu & Hw' & Ea)]; [left; rewrite E; reflexivity|]. destruct (Nat.eq_dec j' j) as [->|Hn].
      + left. apply Bool.orb_true_iff. right. apply at_in. eauto.
      + right. exists j', w'. rewrite Hunf. auto.
    - intros j1 j2 w1 w2. rewrite !Hunf. intros [H1 _] [H2 _]. apply (i_own _ _ _ _ _ I); assumption.
    - intros j' w'. rewrite Hunf, Huns. intros [Hu _]. apply (i_last _ _ _ _ _ I); exact Hu.
    - apply (i_time _ _ _ _ _ I).
    - intros j' w' a. rewrite Huns. apply (i_later _ _ _ _ _ I).
    - intros j'. rewrite Hnone. apply (i_clock _ _ _ _ _ I).
  Qed.

  (** ** A worker process between jobs *)
  Lemma inv_worker W S segs segs' T N i s d : inv W S segs T N ->
    (forall k, k <> i -> segs' k = segs k) -> (forall k e, zset (workers W) i s k <> WStopped e) ->
    (forall j w p, s = WJob j w p -> procs (S j) (Wk w) = p) ->
    (forall k, k <> i -> d k = downs W k) -> d i = body S s ++ flat S (segs' i) ->
    (exists q, cur (workers W i) ++ segs i = q ++ cur s ++ segs' i /\
       forall j w, In (j, w) q -> (exists r, procs (S j) (Wk w) = Ret r)) ->
    (forall q, In q (segs' i) -> In q (segs i)) ->
    inv (mkWorld (free W) (threads W) (zset (workers W) i s) d (ups W) (data W)) S segs' T N.
  Proof.
    intros I Hk Hal Hs Hdk Hd (q & Hq & Hret) Hsub.
    assert (HQ : forall k, exists q', cur (workers W k) ++ segs k = q' ++ cur (zset (workers W) i s k) ++ segs' k /\ forall j w, In (j, w) q' -> exists r, procs (S j) (Wk w) = Ret r).
    { intros k. destruct (Z.eq_dec k i) as [->|Hn]; [rewrite zset_eq; eauto|]. rewrite zset_ne, Hk by exact Hn. exists []. split; [reflexivity|]. intros ? ? []. }
    assert (Hin : forall k a, In a (cur (zset (workers W) i s k) ++ segs' k) -> In a (cur (workers W k) ++ segs k)).
    { intros k a Ha. destruct (HQ k) as (q' & -> & _). apply in_or_app. right. exact Ha. }
    constructor; cbn [threads workers downs ups data free].
    - apply (i_alone _ _ _ _ _ I).
    - apply (i_thread _ _ _ _ _ I).
    - apply (i_rest _ _ _ _ _ I).
    - apply (i_data _ _ _ _ _ I).
    - intros k j w p. destruct (Z.eq_dec k i) as [->|Hn]; [rewrite zset_eq; apply Hs|rewrite zset_ne by exact Hn; apply (i_worker _ _ _ _ _ I)].
    - exact Hal.
    - intros k. destruct (Z.eq_dec k i) as [->|Hn]; [rewrite zset_eq; exact Hd|rewrite zset_ne, Hk, Hdk by exact Hn; apply (i_down _ _ _ _ _ I)].
    - intros k j w Hw. apply (i_queue _ _ _ _ _ I). apply Hin. exact Hw.
    - intros k j w Hw. apply (i_segs _ _ _ _ _ I k). destruct (Z.eq_dec k i) as [->|Hn]; [apply Hsub; exact Hw|rewrite Hk in Hw by exact Hn; exact Hw].
    - intros j w Hj Hw. destruct (HQ (at_ j w)) as (q' & Eq & Hr).
      assert (Hc : In (j, w) (cur (workers W (at_ j w)) ++ segs (at_ j w)) -> In (j, w) (segs' (at_ j w)) \/ (exists p, zset (workers W) i s (at_ j w) = WJob j w p) \/ exists r, procs (S j) (Wk w) = Ret r).
      { rewrite Eq. intros H. apply in_app_or in H. destruct H as [H|H]; [right; right; apply Hr; exact H|]. apply in_app_or in H. destruct H as [H|H]; [|left; exact H].
        right. left. destruct (zset (workers W) i s (at_ j w)) as [|j' w' p'|e]; cbn in H; try contradiction. destruct H as [H|[]]. injection H as -> ->. eauto. }
      destruct (i_class _ _ _ _ _ I j w Hj Hw) as [H|[H|[[p H]|H]]]; auto.
      + right. apply Hc. apply in_or_app. auto.
      + right. apply Hc. rewrite H. left. reflexivity.
    - apply (i_ups _ _ _ _ _ I).
    - apply (i_ups0 _ _ _ _ _ I).
    - apply (i_free _ _ _ _ _ I).
    - apply (i_taken _ _ _ _ _ I).
    - apply (i_own _ _ _ _ _ I).
    - intros j w Hu Hw. destruct (HQ (at_ j w)) as (q' & Eq & Hr).
      destruct (i_last _ _ _ _ _ I j w Hu Hw) as [H|[[pre H]|[H1 H2]]]; [left; exact H| |].
      + right. rewrite Eq in H. set (l := cur (zset (workers W) i s (at_ j w)) ++ segs' (at_ j w)) in *.
        destruct l as [|a l] using rev_ind; [right|left].
        * split; [|reflexivity]. apply Hr. rewrite app_nil_r in H. rewrite H. apply in_or_app. right. left. reflexivity.
        * rewrite app_assoc in H. apply app_inj_tail in H. destruct H as [_ ->]. eauto.
      + right. right. split; [exact H1|]. rewrite H2 in Eq. symmetry in Eq. apply app_eq_nil in Eq. tauto.
    - intros k. destruct (HQ k) as (q' & Eq & _). assert (HT := i_time _ _ _ _ _ I k). rewrite Eq in HT. clear -HT. induction q' as [|a q' IH]; [exact HT|]. apply IH. inversion HT; assumption.
    - intros j w a Hu Hw Ha. apply (i_later _ _ _ _ _ I j w a Hu Hw). apply Hin. exact Ha.
    - apply (i_clock _ _ _ _ _ I).
  Qed.
End Inv.
