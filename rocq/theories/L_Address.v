From Coq Require Import String.
From Verif Require Import Base.
From Verif Require Import M_Address S_Address.

Lemma own_names name : own_name name = true <-> In name local_names.
Proof.
  unfold own_name. rewrite !orb_true_iff, !String.eqb_eq. cbn. split.
  - intros [[->| ->]| ->]; auto.
  - intros [<-|[<-|[<-|[]]]]; auto.
Qed.
Lemma find_unique (f : process -> bool) procs p : In p procs -> f p = true -> (forall q, In q procs -> f q = true -> q = p) -> find f procs = Some p.
Proof.
  intros Hi Hf Hu. destruct (find f procs) as [q|] eqn:E.
  - apply find_some in E. destruct E as [E1 E2]. f_equal. apply Hu; auto.
  - pose proof (find_none _ _ E p Hi). congruence.
Qed.
Lemma found dns procs p asking : ports_apart procs -> In p procs -> resolve dns asking (p_bind p) = Some (p_host p) ->
  connected dns procs asking (told p) = Some p.
Proof.
  intros Ha Hp Hr. unfold connected, told. cbn [fst snd]. rewrite Hr. apply find_unique; auto.
  - unfold listens. rewrite Nat.eqb_refl, Z.eqb_refl, Bool.eqb_reflx, orb_true_r. reflexivity.
  - intros q Hq Hf. apply andb_true_iff in Hf. destruct Hf as [Hf _]. apply andb_true_iff in Hf. destruct Hf as [H1 H2].
    apply Nat.eqb_eq in H1. apply Z.eqb_eq in H2. apply Ha; auto.
Qed.
Lemma one_host dns procs h : ports_apart procs -> (forall p, In p procs -> p_host p = h /\ In (p_bind p) local_names) -> all_found dns procs.
Proof.
  intros Ha Hh p q Hp Hq. destruct (Hh p Hp) as [E1 E2]. apply own_names in E2. destruct (Hh q Hq) as [E3 _]. apply found; auto.
  unfold resolve. rewrite E2. congruence.
Qed.
Lemma public_names dns procs : ports_apart procs -> (forall p, In p procs -> public dns p) -> all_found dns procs.
Proof.
  intros Ha Hh p q Hp Hq. destruct (Hh p Hp) as [E1 E2].
  assert (E3 : own_name (p_bind p) = false) by (destruct (own_name (p_bind p)) eqn:E; auto; apply own_names in E; contradiction).
  apply found; auto. unfold resolve. rewrite E3. exact E1.
Qed.
Lemma not_found dns procs p asking : In (p_bind p) local_names -> p_host p <> asking -> connected dns procs asking (told p) <> Some p.
Proof.
  intros Ho Hne E. apply own_names in Ho. unfold connected, told, resolve in E. cbn [fst snd] in E. rewrite Ho in E. apply find_some in E. destruct E as [_ E].
  rewrite !andb_true_iff in E. destruct E as [[E _] _]. apply Nat.eqb_eq in E. contradiction.
Qed.
Lemma mistaken dns procs p q r : ports_apart procs -> In (p_bind p) local_names -> In r procs -> p_host r = p_host q -> p_port r = p_port p ->
  In (p_bind r) local_names -> connected dns procs (p_host q) (told p) = Some r.
Proof.
  intros Ha Ho Hr Eh Ep Hb. apply own_names in Ho. apply own_names in Hb. unfold connected, told, resolve. cbn [fst snd]. rewrite Ho. apply find_unique; auto.
  - unfold listens. rewrite Eh, Ep, Nat.eqb_refl, Z.eqb_refl, Ho, Hb. apply orb_true_r.
  - intros x Hx Hf. apply andb_true_iff in Hf. destruct Hf as [Hf _]. apply andb_true_iff in Hf. destruct Hf as [H1 H2].
    apply Nat.eqb_eq in H1. apply Z.eqb_eq in H2. apply Ha; auto; congruence.
Qed.
Lemma found_iff dns procs p asking : ports_apart procs -> In p procs ->
  (connected dns procs asking (told p) = Some p <-> (In (p_bind p) local_names /\ p_host p = asking) \/ public dns p).
Proof.
  intros Ha Hp. split.
  - intros E. unfold connected, told, resolve in E. cbn [fst snd] in E. destruct (own_name (p_bind p)) eqn:Eo.
    + left. split; [apply own_names; exact Eo|]. apply find_some in E. destruct E as [_ E].
      rewrite !andb_true_iff in E. destruct E as [[E _] _]. apply Nat.eqb_eq in E. exact E.
    + right. destruct (dns (p_bind p)) as [h|] eqn:Ed; [|discriminate]. apply find_some in E. destruct E as [_ E].
      rewrite !andb_true_iff in E. destruct E as [[E _] _]. apply Nat.eqb_eq in E. split; [congruence|].
      intros Hl. apply own_names in Hl. congruence.
  - intros [[Hl Hh]|[Hd Hl]]; apply found; auto; unfold resolve.
    + apply own_names in Hl. rewrite Hl. congruence.
    + destruct (own_name (p_bind p)) eqn:Eo; auto. apply own_names in Eo. contradiction.
Qed.
Lemma main_found dns procs : ports_apart procs -> (forall p, In p procs -> exists h port, p = main_process h port) ->
  (all_found dns procs <-> forall p q, In p procs -> In q procs -> p_host p = p_host q).
Proof.
  intros Ha Hm. assert (Hl : forall p, In p procs -> In (p_bind p) local_names).
  { intros p Hp. destruct (Hm p Hp) as (h & port & ->). left. reflexivity. }
  split.
  - intros Hf p q Hp Hq. destruct (proj1 (found_iff dns procs p (p_host q) Ha Hp) (Hf p q Hp Hq)) as [[_ E]|[_ E]]; auto.
    destruct (E (Hl p Hp)).
  - intros Hh p q Hp Hq. apply found_iff; auto.
Qed.
