(** Drawing circuits: C63. *)
From Coq Require Import Ascii String Sorted.
From Verif Require Import Base M_Kron M_Ops M_Graph S_Graph L_Graph1 L_Graph2 M_Print S_Print M_Svg S_Svg L_Svg P_Graph P_Print.
Open Scope Z_scope.

(** The ops are drawn in the order of execution, each on the qubits run applies it to; different ops are at least 6 pixels apart,
    in this order, and nothing is drawn outside the view box. *)
Theorem C63_svg : forall {K} (h : heap K) vis args srcs order name tail ev,
  built h vis -> incl args vis -> splits_in_range h vis -> sources h args srcs -> StronglySorted lt order -> (forall i, In i order <-> ancestor h args i) ->
  enum_ok ev -> (forall i, In i order -> label (nd_kind (nd h i)) (name i)) ->
  exists p, make_svg name tail ev h args = Ok p /\
    sv_wires p = map (fun q => Line 0 (sv_width p) (wire_y q) (wire_y q) 8) (zrange 0 (widths h srcs)) /\
    Forall2 (drawn h srcs name) (filter (is_op h) order) (sv_ops p) /\
    StronglySorted (before 24) (sv_ops p) /\ forall s, In s (concat (sv_ops p)) -> inside p s.
Proof. exact @svg_ok. Qed.
Print Assumptions C63_svg.

(** the hypotheses hold of the circuit of C62 *)
Example C63_hypotheses : built exg_h exg_vis /\ incl exg_args exg_vis /\ splits_in_range exg_h exg_vis /\ sources exg_h exg_args exg_srcs /\
  StronglySorted lt exg_needed /\ (forall i, In i exg_needed <-> ancestor exg_h exg_args i) /\ enum_ok exg_ev /\
  (forall i, In i exg_needed -> label (nd_kind (nd exg_h i)) (exp_name i)).
Proof.
  split; [exact exg_built|]. split; [exact exg_incl|]. split; [exact exg_splits|]. split; [exact exg_sources|].
  destruct C62_hypotheses as (H1 & H2 & H3 & _). split; [exact H1|]. split; [exact H2|]. split; [apply exg_env|exact H3].
Qed.
(** CNot, R and SM *)
Example C63_run : make_svg exp_name (fun _ => text "...)") exg_ev exg_h exg_args = Ok (mkSvg 270 320
  [Line 0 270 40 40 8; Line 0 270 120 120 8; Line 0 270 200 200 8]
  [[Line 68 68 40 200 4; Circle 68 40 20 true; Circle 68 200 20 false; Line 68 68 180 220 4; Line 48 88 200 200 4];
   [Rect 137 100 22 40 4; Label 148 120 28 (text "R")];
   [Line 214 214 40 200 4; Rect 196 20 36 40 4; Label 214 40 28 (text "SM"); Rect 196 180 36 40 4; Label 214 200 28 (text "SM")]]).
Proof. vm_compute. reflexivity. Qed.
