(** Property C109: workers find each other. *)
From Coq Require Import String.
From Verif Require Import Base.
From Verif Require Import M_Address S_Address L_Address.

(** Workers started on one host, with any bindaddr that names the host itself, find each other. *)
Theorem C109_one_host_partial : forall dns procs h, ports_apart procs ->
  (forall p, In p procs -> p_host p = h /\ In (p_bind p) local_names) -> all_found dns procs.
Proof. exact one_host. Qed.
Print Assumptions C109_one_host_partial.
(** Workers on any hosts find each other if each was started with a public name of its host. *)
Theorem C109_public_partial : forall dns procs, ports_apart procs -> (forall p, In p procs -> public dns p) -> all_found dns procs.
Proof. exact public_names. Qed.
Print Assumptions C109_public_partial.
(** Exactly when a worker is found: it was started with a public name of its host, or with a local name and is asked for
    on its own host. *)
Theorem C109_exact_partial : forall dns procs p asking, ports_apart procs -> In p procs ->
  (connected dns procs asking (told p) = Some p <-> (In (p_bind p) local_names /\ p_host p = asking) \/ public dns p).
Proof. exact found_iff. Qed.
Print Assumptions C109_exact_partial.
(** Workers started from the command line find each other exactly if they all run on one host: there is no argument for
    the address. *)
Theorem C109_main_partial : forall dns procs, ports_apart procs ->
  (forall p, In p procs -> exists h port, p = main_process h port) ->
  (all_found dns procs <-> forall p q, In p procs -> In q procs -> p_host p = p_host q).
Proof. exact main_found. Qed.
Print Assumptions C109_main_partial.
(** C109 is false of the code: a worker started with the default address, or with 0.0.0.0, is never found from another
    host, whatever else runs there. *)
Theorem C109_refuted : forall dns procs p asking,
  In (p_bind p) [default_bindaddr; "127.0.0.1"%string; "0.0.0.0"%string] -> p_host p <> asking ->
  connected dns procs asking (told p) <> Some p.
Proof. exact not_found. Qed.
Print Assumptions C109_refuted.
(** If a worker on the asking host listens on the same port, under an own name, that one is taken for the partner, possibly the worker itself. *)
Theorem C109_mistaken_refuted : forall dns procs p q r, ports_apart procs -> In (p_bind p) local_names -> In r procs ->
  p_host r = p_host q -> p_port r = p_port p -> In (p_bind r) local_names ->
  connected dns procs (p_host q) (told p) = Some r.
Proof. exact mistaken. Qed.
Print Assumptions C109_mistaken_refuted.

(** three workers on two hosts *)
Definition ex109_dns (name : string) : option nat :=
  if String.eqb name "alpha" then Some 1%nat else if String.eqb name "beta" then Some 2%nat else None.
Definition ex109_default : list process :=
  [mkProcess 1 default_bindaddr 40001; mkProcess 1 default_bindaddr 40002; mkProcess 2 default_bindaddr 40001].
Definition ex109_public : list process :=
  [mkProcess 1 "alpha" 40001; mkProcess 1 "alpha" 40002; mkProcess 2 "beta" 40001].
Example C109_ex :
  ports_apart ex109_default /\ ports_apart ex109_public /\ (forall p, In p ex109_public -> public ex109_dns p) /\
  (forall p, In p (firstn 2 ex109_default) -> p_host p = 1%nat /\ In (p_bind p) local_names) /\
  (* the worker on host 2 is told to connect to the first and is connected to itself; the second is not found *)
  connected ex109_dns ex109_default 2 (told (mkProcess 1 default_bindaddr 40001)) = Some (mkProcess 2 default_bindaddr 40001) /\
  connected ex109_dns ex109_default 2 (told (mkProcess 1 default_bindaddr 40002)) = None /\
  connected ex109_dns ex109_public 2 (told (mkProcess 1 "alpha" 40002)) = Some (mkProcess 1 "alpha" 40002).
Proof.
  assert (A : forall b c, ports_apart [mkProcess 1 b 40001; mkProcess 1 b 40002; mkProcess 2 c 40001]).
  { intros b c p q [<-|[<-|[<-|[]]]] [<-|[<-|[<-|[]]]]; cbn; intros; congruence. }
  split; [apply A|]. split; [apply A|]. split.
  { intros p [<-|[<-|[<-|[]]]]; (split; [reflexivity|]); cbn; intuition discriminate. }
  split; [intros p [<-|[<-|[]]]; (split; [reflexivity|left; reflexivity])|]. repeat split.
Qed.
Example C109_main_ex :
  (forall p, In p ex109_default -> exists h port, p = main_process h port) /\ ~ all_found ex109_dns ex109_default /\
  all_found ex109_dns (firstn 2 ex109_default).
Proof.
  split; [intros p [<-|[<-|[<-|[]]]]; do 2 eexists; reflexivity|]. split.
  - intros H. specialize (H (mkProcess 1 default_bindaddr 40002) (mkProcess 2 default_bindaddr 40001)).
    cbn in H. specialize (H ltac:(auto) ltac:(auto)). discriminate.
  - intros p q [<-|[<-|[]]] [<-|[<-|[]]]; reflexivity.
Qed.
