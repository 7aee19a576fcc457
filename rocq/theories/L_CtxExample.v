(** examples/context_example.py *)
From Coq Require Import Sorted Permutation.
From Verif Require Import Base S_Bits L_Bits M_Kron S_Kron M_Ops S_Ops L_Ops4 M_Feed S_Feed L_Feed M_Func S_Func L_Func2
  M_Measure S_Measure L_Alg M_Graph S_Graph L_Graph1 L_Graph2 L_Graph3 L_Graph5 L_Graph6 L_Graph7 L_Graph8 L_Graph9 L_Graph10 L_Graph11
  M_Context S_Context L_Sinks L_Grow1 L_Grow2 L_Context1 L_Context2 L_Context3 L_Context4 L_Context5 L_Context6 L_Context7 M_Examples S_Examples L_Example1 L_Example2.
From Verif Require Import M_CtxExample S_CtxExample.

Section Ctx.
  Context {K : Type} {OK : OrdRing K}.
  Notation C := (Cx K).
  Add Ring CR0 : (@rth (Cx K) _).
  Variable cn : consts K.

  Definition bell_steps : list (ctor * list nat) := [(H_, [0%nat]); (C_ctor (Wrap BNot no_kw), [0; 1]%nat)].
  Definition bell_ops : list (op K * list nat) := [(OH (c_h cn), [0%nat]); (OC ONot, [0; 1]%nat)].
  Lemma bell_denotes (ga gb : list Z) : zlen ga = 1 -> Forall2 (step_denotes cn [ga; gb]) bell_steps bell_ops.
  Proof.
    intros La. constructor; [|constructor; [|constructor]]; cbn [step_denotes fst snd].
    - split; [reflexivity|]. split; [repeat constructor; cbn; intuition discriminate|]. split; [discriminate|].
      split; [intros p [<-|[]]; cbn; repeat constructor|]. apply denotes_h.
    - split; [reflexivity|]. split; [repeat constructor; cbn; intuition discriminate|]. split; [discriminate|].
      split; [intros p [<-|[<-|[]]]; cbn; repeat constructor|]. apply denotes_c; [auto|discriminate|]. constructor.
  Qed.

  Lemma basic_body srcs fs (ga gb : list Z) : zlen ga = 1 -> gb <> [] ->
    body_grows srcs fs (basic_circuit cn tt) [ga; gb] [ga; gb] (fun n => acts n [ga; gb] bell_ops).
  Proof.
    intros La Nb w vis ctl cg qs rest Hfs Hw Ci L1 L2 Hcg Hnd.
    assert (Na : ga <> []) by (intros ->; discriminate).
    assert (Ng : forall g, In g [ga; gb] -> g <> []) by (intros g [<-|[<-|[]]]; auto).
    destruct (steps_body srcs fs cn bell_steps bell_ops [ga; gb] Ng (bell_denotes ga gb La) w vis ctl cg qs rest Hfs Hw Ci L1 L2 Hcg Hnd)
      as (w' & vis' & ctl' & outs & E & R).
    exists w', vis', ctl', outs. split; [|exact R]. rewrite <- E. clear R E w' vis' ctl' outs.
    destruct qs as [|qa [|qb [|? ?]]]; try discriminate. cbn [combine app] in Ci.
    assert (Hnd1 : NoDup (concat cg ++ concat [ga])).
    { cbn [concat] in *. rewrite app_nil_r in *. rewrite app_assoc in Hnd. apply NoDup_app_inv in Hnd. tauto. }
    destruct (call_grow srcs cn w vis ctl cg H_ [qa] [ga] (OH (c_h cn)) ((qb, gb) :: rest) no_kw) as (w1 & vis1 & ctl1 & o1 & E1 & S1 & W1 & A1 & B1 & _ & _ & G1); auto.
    { constructor. } { discriminate. } { intros g [<-|[]]; auto. }
    destruct o1 as [|h [|? ?]]; try discriminate. cbn [combine app] in G1.
    pose proof (grow_circ _ _ _ _ _ _ _ _ G1) as C1.
    destruct (call_grow srcs cn w1 vis1 ctl1 cg (C_ctor (Wrap BNot no_kw)) [h; qb] [ga; gb] (OC ONot) rest no_kw) as (w2 & vis2 & ctl2 & o2 & E2 & S2 & W2 & A2 & B2 & _ & _ & G2); auto.
    { apply denotes_c; auto; [discriminate|]. constructor. } { discriminate. }
    destruct o2 as [|x [|y [|? ?]]]; try discriminate.
    unfold basic_circuit, bell_steps. cbn [run_steps fetch map nth store upd].
    cbn [map] in E1, E2. rewrite E1. cbn [one_output sbind store upd nth]. rewrite E2. reflexivity.
  Qed.

  Lemma bell_amps (v : list C) c a b :
    when 3 [0] (acts 3 [[1]; [2]] bell_ops) (amp v) (ket c a b) = controlled_bell (c_h cn) v c a b.
  Proof.
    unfold acts, bell_ops, slots, when. cbn [fold_left map nth fst snd op_acts concat app hd tl].
    unfold apply_each. cbn [fold_right]. unfold apply1, gate_X, gate_H, amp.
    destruct c, a, b; cbn - [znth creal radd rmul ropp rsub rI rO]; unfold controlled_bell, ket; cbn [Z.b2z xorb]; 
    repeat match goal with |- context [znth 0%r v ?t] => let t' := eval vm_compute in t in progress change t with t' end; try reflexivity; ring.
  Qed.

  Lemma context_example_ok :
    exists w co ao bo, context_example cn = (w, Ok (co, ao, bo)) /\ w_stack w = [] /\ w_total w = 0 /\
      forall (v : list C), zlen v = 8 -> forall ev, enum_ok ev -> scheds_ok ev (w_heap w) 3 ->
      exists c' st_ cm, run ev cache0 (w_heap w) [co; ao; bo] [] false (SList v) = (c', Ok (st_, cm)) /\ zlen st_ = 8 /\
        forall c a b, znth 0%r st_ (ket c a b) = controlled_bell (c_h cn) v c a b.
  Proof.
    destruct (fresh_add empty_heap [] 1 None fresh_empty ltac:(lia) I) as (h1 & E1 & F1 & X1 & W1 & _ & Z1).
    destruct (fresh_add h1 _ 1 None F1 ltac:(lia) I) as (h2 & E2 & F2 & X2 & W2 & _ & Z2).
    destruct (fresh_add h2 _ 1 None F2 ltac:(lia) I) as (h3 & E3 & F3 & X3 & W3 & _ & Z3).
    change (size (K := K) empty_heap) with O in *. rewrite Z1 in *. rewrite Z2 in *. cbn [app] in *. clear F1 F2.
    assert (V1 : width h3 0 = 1). { rewrite (ext_width h2), (ext_width h1); auto; lia. }
    assert (V2 : width h3 1 = 1). { rewrite (ext_width h2); auto; lia. }
    set (srcs := [0; 1; 2]%nat) in *. set (w0 := mkWorld h3 [] 0 [[(C_ctor, [0])]]).
    assert (Ew : widths h3 srcs = 3). { unfold widths, srcs. cbn. lia. }
    assert (El : layout h3 srcs = combine srcs [[0]; [1]; [2]]). { unfold layout. cbn [map srcs]. rewrite V1, V2, W3. reflexivity. }
    pose proof (fresh_circ _ _ F3) as C0. rewrite El in C0.
    pose proof (func_body srcs [[(C_ctor, [0])]] 0%nat (basic_circuit cn) tt [[1]; [2]] [[1]; [2]] _ [[0]]
      (basic_body srcs [[(C_ctor, [0])]] [1] [2] eq_refl ltac:(discriminate)) eq_refl ltac:(intros g [<-|[]]; reflexivity)) as HB.
    destruct (HB w0 srcs [] [] srcs []) as (w' & vis' & ctl' & outs & E & S & W & L1 & L2 & G); auto.
    { split; reflexivity. } { intros g []. }
    { cbn. repeat constructor; cbn; intuition discriminate. }
    destruct ctl' as [|? ?]; [|discriminate]. destruct outs as [|co [|ao [|bo [|? ?]]]]; try discriminate.
    exists w', co, ao, bo.
    change (w_heap w0) with h3 in *. rewrite Ew in G. cbn [combine app rev concat] in G. 
    assert (Est : w_stack w' = []). { destruct S as (S1 & _). destruct (w_stack w'); [auto|discriminate]. }
    split; [|split; [exact Est|split; [apply W|]]].
    { unfold context_example, new_qubit. change (w_heap ctx_start) with (empty_heap (K := K)). rewrite E1. cbn [on_heap fst snd sbind]. change (w_heap (set_heap ctx_start h1)) with h1.
      rewrite E2. cbn [on_heap fst snd sbind]. change (w_heap (set_heap (set_heap ctx_start h1) h2)) with h2. rewrite E3. cbn [on_heap fst snd sbind].
      cbn [apply_C]. change (mkWorld (w_heap (set_heap (set_heap (set_heap ctx_start h1) h2) h3)) _ _ _) with w0.
      unfold three_outputs. change [0%nat; 1%nat; 2%nat] with srcs. cbv beta in E. rewrite E. reflexivity. }
    intros v Hv ev He Hsc.
    destruct (fresh_runs srcs h3 (w_heap w') vis' _ _ [co; ao; bo] F3 ltac:(rewrite El; exact G)
      ltac:(split; [intros x Hx; exact Hx|intros d Hd; left; exact Hd]) cache0 [] ev [] false (SList v) [(zrange 0 3, v)]) as (c' & st_ & cm & R1 & R2 & R3); auto.
    { apply G. apply F3. } { intros x []. } { rewrite Ew; auto. }
    { rewrite Ew. constructor; auto; [constructor|intros x []]. } { discriminate. }
    rewrite Ew in R2, R3. exists c', st_, cm. split; [exact R1|]. split; [exact R2|].
    intros c a b. change (znth 0%r st_ (ket c a b)) with (amp st_ (ket c a b)). 
    assert (Hr : 0 <= ket c a b < 2 ^ 3) by (destruct c, a, b; cbn; lia).
    rewrite R3 by auto. destruct G as (_ & _ & _ & _ & Hext & _).
    rewrite (Hext _ (amp v)); [|intros r Hr'; rewrite Ew in Hr'; pose proof (zrange_vec_amp h3 srcs v r) as HZ; rewrite Ew in HZ; apply HZ; [lia|exact Hv|exact Hr']|rewrite Ew; auto].
    cbn beta. unfold when at 1. cbn [forallb]. apply bell_amps.
  Qed.
End Ctx.
