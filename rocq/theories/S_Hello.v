(** The pieces of a stream after its first byte has been taken. *)
From Verif Require Import Base.
Inductive without_first : list (list Z) -> list (list Z) -> Prop :=
| wf_alone b rest : without_first ([b] :: rest) rest
| wf_inside b c piece rest : without_first ((b :: c :: piece) :: rest) ((c :: piece) :: rest).
