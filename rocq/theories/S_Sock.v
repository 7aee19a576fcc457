(** Specification of message framing. *)
From Verif Require Import Base.

(** a message with its length in front, most significant byte first *)
Definition framed (m : list Z) : list Z := [zlen m / 2 ^ 24; zlen m / 2 ^ 16 mod 256; zlen m / 2 ^ 8 mod 256; zlen m mod 256] ++ m.
(** no segment of the stream lies completely inside the four length bytes of a message *)
Definition headers_not_cut_twice (msgs segs : list (list Z)) : Prop :=
  forall before m after pre s post, msgs = before ++ m :: after -> segs = pre ++ s :: post ->
    let start := zlen (concat (map framed before)) in
    ~ (start <= zlen (concat pre) /\ zlen (concat pre) + zlen s <= start + 4).
