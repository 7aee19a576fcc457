(** The same circuit built in another order: conditions that can be checked by computation, for the examples. *)
From Coq Require Import Sorted.
From Verif Require Import Base S_Bits L_Bits M_Kron S_Kron M_Ops S_Ops M_Feed S_Feed M_Func S_Func
  M_Measure S_Measure L_Alg M_Graph S_Graph L_Graph1 L_Graph2 L_Graph3 L_Graph4 L_Graph5 L_Graph7 L_Graph8 L_Graph10 L_Graph11 L_Graph12
  L_Grow1 L_Context3 S_Order L_Order1 L_Order2 L_Order3 L_Order4 L_Order5.

Section Checks.
  Context {K : Type} {OK : OrdRing K}.
  Implicit Types h : heap K.

  (** [L] are the nodes the circuit needs: the arguments and the inputs of needed nodes, and no others *)
  Definition needed_check h (args L : list nat) : bool :=
    forallb (fun i => mem i L) args && forallb (fun i => forallb (fun j => mem j L) (inputs_of h i)) L &&
    forallb (fun i => mem i args || existsb (fun j => Nat.ltb i j && mem i (inputs_of h j)) L) L.
  Lemma needed_ok h args L : needed_check h args L = true -> forall i, ancestor h args i <-> In i L.
  Proof.
    unfold needed_check. rewrite !andb_true_iff, !forallb_forall. intros ((H1 & H2) & H3). apply anc_iff.
    - intros i Hi. apply mem_In, H1; auto.
    - intros i Hi j Hj. specialize (H2 i Hi). rewrite forallb_forall in H2. apply mem_In, H2; auto.
    - rewrite Forall_forall.
      enough (G : forall m i, In i L -> (fold_right Nat.max O L - i < m)%nat -> ancestor h args i) by (intros i Hi; apply (G (S (fold_right Nat.max O L - i))); auto).
      induction m as [|m IH]; intros i Hi Hm; [lia|]. specialize (H3 i Hi). apply orb_true_iff in H3. destruct H3 as [H3|H3].
      + apply anc_arg, mem_In. auto.
      + apply existsb_exists in H3. destruct H3 as (j & Hj & H3). apply andb_true_iff in H3. destruct H3 as (A & B). apply Nat.ltb_lt in A.
        apply (anc_input h args j); [|apply mem_In; auto]. apply IH; auto.
        assert (j <= fold_right Nat.max O L)%nat; [|lia]. clear - Hj. induction L as [|x L IH]; [destruct Hj|]. cbn. destruct Hj as [->|Hj]; [lia|]. specialize (IH Hj). lia.
  Qed.
  (** two needed nodes that share an input have no common qubit *)
  Definition once_check h (srcs L : list nat) : bool :=
    forallb (fun j => forallb (fun j' => Nat.eqb j j' || negb (existsb (fun i => mem i (inputs_of h j')) (inputs_of h j)) ||
      negb (existsb (fun q => existsb (Z.eqb q) (wire h srcs j')) (wire h srcs j))) L) L.
  Lemma once_ok h vis args srcs L : wf h vis -> incl args vis -> splits_in_range h vis -> sources h args srcs ->
    (forall i, ancestor h args i <-> In i L) -> once_check h srcs L = true -> used_once h args srcs.
  Proof.
    intros W Ha Hs Hsrc HL H i j j' w w' q Hj Hj' Hi Hi' Hw Hw' Hq Hq'. pose proof (splits_anc h vis args W Ha Hs) as Hsp.
    unfold once_check in H. rewrite forallb_forall in H. specialize (H j (proj1 (HL j) Hj)). rewrite forallb_forall in H. specialize (H j' (proj1 (HL j') Hj')).
    rewrite !orb_true_iff, !negb_true_iff in H. destruct H as [[H|H]|H].
    - apply Nat.eqb_eq. auto.
    - exfalso. assert (X : existsb (fun i => mem i (inputs_of h j')) (inputs_of h j) = true); [|congruence].
      apply existsb_exists. exists i. split; auto. apply mem_In. auto.
    - exfalso. rewrite (wires_fun h vis args srcs W Ha Hsp Hsrc j w Hj Hw) in Hq. rewrite (wires_fun h vis args srcs W Ha Hsp Hsrc j' w' Hj' Hw') in Hq'.
      assert (X : existsb (fun q => existsb (Z.eqb q) (wire h srcs j')) (wire h srcs j) = true); [|congruence].
      apply existsb_exists. exists q. split; auto. apply existsb_exists. exists q. split; auto. apply Z.eqb_refl.
  Qed.
  (** the circuits correspond node by node *)
  Lemma same_check h args srcs h' args' srcs' (f : nat -> nat) L : (forall i, ancestor h args i <-> In i L) ->
    (forall j, In j args' <-> exists i, In i args /\ j = f i) -> srcs' = map f srcs -> NoDup (map f L) ->
    Forall (fun i => nd_kind (nd h' (f i)) = nd_kind (nd h i) /\ width h' (f i) = width h i /\ inputs_of h' (f i) = map f (inputs_of h i)) L ->
    same_circuit h args srcs h' args' srcs' f.
  Proof.
    intros HL Ha Hs Hd HF. split; auto. split; auto. rewrite Forall_forall in HF. split.
    - intros i j Hi Hj E. apply HL in Hi, Hj. clear - Hd Hi Hj E. induction L as [|x L IH]; [destruct Hi|]. cbn [map] in Hd. inversion Hd as [|? ? Hx HL]; subst.
      destruct Hi as [<-|Hi], Hj as [<-|Hj]; auto.
      + exfalso. apply Hx. rewrite E. apply in_map. auto.
      + exfalso. apply Hx. rewrite <- E. apply in_map. auto.
    - intros i Hi. apply HF, HL. auto.
  Qed.
End Checks.
