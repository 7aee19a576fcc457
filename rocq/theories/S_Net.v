(** Specification: what holds whatever the scheduler does. *)
From Verif Require Import Base M_Net.

Section NetSpec.
  Context {P M R : Type} (peqb : P -> P -> bool) (cap : P -> P -> option nat).

  (** every execution from s is finite, and an execution can only stop where [Q] holds: no deadlock elsewhere, no
      dependence of [Q] on the schedule *)
  Definition always_ends (s : net P M R) (Q : net P M R -> Prop) : Prop :=
    exists bound, forall sched s', runs peqb cap s sched = Some s' ->
      (length sched <= bound)%nat /\ (Q s' \/ exists i s'', exec peqb cap s' i = Some s'').
End NetSpec.
