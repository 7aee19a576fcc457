(** The arguments of QubitWrapperContext. *)
From Verif Require Import Base M_Graph M_Context M_CtxObj S_CtxObj.

Section Parse.
  Context {F E : Type}.
  Variable int : Z -> E.
  Notation carg := (@carg F E).
  Notation parse_step := (parse_step (F := F) int).
  Definition entry_of (a : @ctx_arg F E) : entry_t := let '(f, q, i) := holds int a in (One f, q, i).
  Lemma add_written : forall (a : ctx_arg) context, add_buff int (written a) context = Ok (context ++ [entry_of a]).
  Proof. intros [f q [i|]] context; reflexivity. Qed.
  Lemma written_cons a : exists c rest, written (F := F) (E := E) a = c :: rest.
  Proof. eexists; eexists; reflexivity. Qed.
  Lemma mfold_app {A B} (f : A -> B -> res A) : forall l l' a, mfold f (l ++ l') a = (do a <- mfold f l a; mfold f l' a).
  Proof. induction l as [|x l IH]; intros l' a; cbn [app mfold]; [reflexivity|]. destruct (f a x); cbn [bind]; auto. Qed.
  Lemma parse_written : forall (l : list ctx_arg) a, mfold parse_step (concat (map written (l ++ [a]))) ([], []) = Ok (map entry_of l, written a).
  Proof.
    induction l as [|b l IH] using rev_ind; intros a.
    - destruct a as [f q [i|]]; reflexivity.
    - rewrite map_app, concat_app, mfold_app, IH. cbn [map concat bind]. rewrite app_nil_r.
      assert (X : parse_step (map entry_of l, written b) (One (ca_fn a)) = Ok (map entry_of (l ++ [b]), [One (ca_fn a)])).
      { cbn [M_CtxObj.parse_step]. destruct (written_cons b) as (c & rest & Eb). rewrite Eb. rewrite <- Eb at 1. rewrite add_written. cbn [bind]. rewrite map_app. reflexivity. }
      destruct a as [f q [i|]]; cbn [written ca_positions ca_fn ca_qubits mfold] in *; rewrite X; cbn [bind M_CtxObj.parse_step app]; reflexivity.
  Qed.
  Lemma parse_series : forall (args : list carg) l, series args l -> parse int args = Ok (map entry_of l).
  Proof.
    intros args l ->. destruct l as [|a l _] using rev_ind; [reflexivity|]. unfold parse. rewrite parse_written. cbn [bind fst snd].
    destruct (written_cons a) as (c & rest & Ea). rewrite Ea. rewrite <- Ea. rewrite add_written, map_app. reflexivity.
  Qed.

  (** buff is a constructor with lists after it *)
  Definition finish (r : list entry_t * list carg) : res (list entry_t) := match snd r with [] => Ok (fst r) | buff => add_buff int buff (fst r) end.
  Lemma add_lists : forall (f : F) (ls : list (list E)) context, (exists a, One f :: map Many ls = written a /\ add_buff int (One f :: map Many ls) context = Ok (context ++ [entry_of a])) \/
    ((forall a, One f :: map Many ls <> written a) /\ add_buff int (One f :: map Many ls) context = Raise TypeError).
  Proof.
    intros f [|q [|i [|x ls]]] context.
    - right. split; [intros [g p [j|]]; discriminate|reflexivity].
    - left. exists (mkArg f q None). split; reflexivity.
    - left. exists (mkArg f q (Some i)). split; reflexivity.
    - right. split; [intros [g p [j|]]; discriminate|reflexivity].
  Qed.
  Lemma first_written : forall (f : F) (ls : list (list E)) g rest (l : list ctx_arg), One f :: map Many ls ++ One g :: rest = concat (map written l) ->
    exists a l', One f :: map Many ls = written a /\ One g :: rest = concat (map written l').
  Proof.
    intros f ls g rest [|[f' q' [i'|]] l] H; [discriminate| |]; cbn [map concat written ca_fn ca_qubits ca_positions app] in H; injection H as <- H.
    - destruct ls as [|q [|i [|x ls]]]; cbn [map app] in H; try discriminate; try (injection H; intros; subst; discriminate).
      + injection H as <- <- H. exists (mkArg f q (Some i)), l. split; [reflexivity|exact H].
      + injection H as <- <- H. destruct l as [|[f2 q2 [i2|]] l]; discriminate.
    - destruct ls as [|q [|i ls]]; cbn [map app] in H; try discriminate.
      + injection H as <- H. exists (mkArg f q None), l. split; [reflexivity|exact H].
      + injection H as <- H. destruct l as [|[f2 q2 [i2|]] l]; discriminate.
  Qed.
  Lemma parse_from : forall (args : list carg) (f : F) (ls : list (list E)) context,
    (exists l, One f :: map Many ls ++ args = concat (map written l) /\
       (do r <- mfold parse_step args (context, One f :: map Many ls); finish r) = Ok (context ++ map entry_of l)) \/
    ((forall l, One f :: map Many ls ++ args <> concat (map written l)) /\
       (do r <- mfold parse_step args (context, One f :: map Many ls); finish r) = Raise TypeError).
  Proof.
    induction args as [|[g|x] args IH]; intros f ls context.
    - cbn [mfold bind]. unfold finish. cbn [snd fst]. rewrite app_nil_r. destruct (add_lists f ls context) as [(a & E1 & E2)|[E1 E2]].
      + left. exists [a]. cbn [map concat]. rewrite app_nil_r. auto.
      + right. split; [|exact E2]. intros l H. destruct l as [|a [|b l]]; [discriminate| |].
        * cbn [map concat] in H. rewrite app_nil_r in H. eapply E1; eauto.
        * cbn [map concat] in H. destruct a as [f' q' [i'|]], b as [fb qb ib]; cbn [written ca_fn ca_qubits ca_positions app] in H; injection H as <- H;
            destruct ls as [|q [|i [|y ls]]]; cbn [map] in H; try discriminate.
    - cbn [mfold M_CtxObj.parse_step]. destruct (add_lists f ls context) as [(a & E1 & E2)|[E1 E2]].
      + rewrite E2. cbn [bind]. destruct (IH g [] (context ++ [entry_of a])) as [(l & L1 & L2)|[L1 L2]].
        * left. exists (a :: l). cbn [map concat]. rewrite <- E1. cbn [map app] in L1. split; [rewrite <- L1; reflexivity|].
          cbn [map] in L2. rewrite L2, <- app_assoc. reflexivity.
        * right. split; [|exact L2]. intros l H. destruct (first_written _ _ _ _ _ H) as (a' & l' & _ & H'). exact (L1 l' H').
      + rewrite E2. cbn [bind]. right. split; [|reflexivity]. intros l H. destruct (first_written _ _ _ _ _ H) as (a' & l' & H' & _). exact (E1 a' H').
    - cbn [mfold M_CtxObj.parse_step bind]. specialize (IH f (ls ++ [x]) context). rewrite map_app in IH. cbn [map] in IH. rewrite <- app_assoc in IH. exact IH.
  Qed.
  Lemma parse_cases : forall (args : list carg), (forall l rest, args <> Many l :: rest) ->
    (exists l, series args l /\ parse int args = Ok (map entry_of l)) \/ ((forall l, ~ series args l) /\ parse int args = Raise TypeError).
  Proof.
    intros [|[f|l0] args] H.
    - left. exists []. split; reflexivity.
    - exact (parse_from args f [] []).
    - destruct (H l0 args eq_refl).
  Qed.
  Lemma parse_only : forall (args : list carg) es, (forall l rest, args <> Many l :: rest) -> parse int args = Ok es -> exists l, series args l /\ es = map entry_of l.
  Proof. intros args es H Ep. destruct (parse_cases args H) as [(l & L1 & L2)|[_ L2]]; [exists l; split; congruence|congruence]. Qed.
  Lemma parse_rejects : forall (args : list carg), (forall l rest, args <> Many l :: rest) -> (forall l, ~ series args l) -> parse int args = Raise TypeError.
  Proof. intros args H N. destruct (parse_cases args H) as [(l & L1 & _)|[_ L2]]; [destruct (N l L1)|exact L2]. Qed.

  (** a sequence in the place of the first constructor *)
  Lemma parse_leading : forall f (a : ctx_arg) l s, ca_fn a = f -> parse int (Many s :: tl (concat (map written (a :: l)))) =
    Ok ((Many s, snd (fst (entry_of a)), snd (entry_of a)) :: map entry_of l).
  Proof.
    intros f a l s _. destruct l as [|b l _] using rev_ind.
    - destruct a as [f' q [i|]]; reflexivity.
    - unfold parse. assert (X : mfold parse_step (Many s :: tl (concat (map written (a :: l ++ [b])))) ([], []) =
        Ok ((Many s, snd (fst (entry_of a)), snd (entry_of a)) :: map entry_of l, written b)).
      { revert b. induction l as [|c l IH] using rev_ind; intros b.
        - destruct a as [f' q [i|]], b as [fb qb [ib|]]; reflexivity.
        - specialize (IH c). cbn [map concat] in *.
          assert (T : forall r, tl (written a ++ r) = tl (written a) ++ r) by (intros r; destruct (written_cons a) as (u & v & ->); reflexivity).
          rewrite T in IH |- *. rewrite (map_app written (l ++ [c])), concat_app, app_assoc, app_comm_cons, mfold_app, IH. cbn [map concat bind]. rewrite app_nil_r.
          assert (Y : parse_step ((Many s, snd (fst (entry_of a)), snd (entry_of a)) :: map entry_of l, written c) (One (ca_fn b)) =
            Ok ((Many s, snd (fst (entry_of a)), snd (entry_of a)) :: map entry_of (l ++ [c]), [One (ca_fn b)])).
          { cbn [M_CtxObj.parse_step]. destruct (written_cons c) as (u & v & Ec). rewrite Ec. rewrite <- Ec at 1. rewrite add_written. cbn [bind]. rewrite map_app. reflexivity. }
          destruct b as [fb qb [ib|]]; cbn [written ca_positions ca_fn ca_qubits mfold] in *; rewrite Y; cbn [bind M_CtxObj.parse_step app]; reflexivity. }
      rewrite X. cbn [bind fst snd]. destruct (written_cons b) as (u & v & Eb). rewrite Eb. rewrite <- Eb. rewrite add_written, map_app. reflexivity.
  Qed.
End Parse.
