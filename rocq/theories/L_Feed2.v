(** Integer initial states. *)
From Verif Require Import Base M_Bits S_Bits L_Bits M_Kron S_Kron L_Kron M_Feed S_Feed L_Feed.

Lemma znth_app_l {A} (d : A) (l l' : list A) j : 0 <= j < zlen l -> znth d (l ++ l') j = znth d l j.
Proof. unfold zlen, znth. intros H. rewrite app_nth1 by lia. auto. Qed.

Section IntFeed.
  Context {K : Type} {OK : OrdRing K}.
  Notation C := (Cx K).

  Lemma make_state_int junk n (pre : list (list Z * list C)) g i gs (fl : list (feed_t K)) :
    0 <= n -> qubits_ok n (concat (fed_groups pre ++ g :: gs)) -> (forall g a, In (g, a) pre -> zlen a = 2 ^ zlen g) ->
    make_state junk n (fed_groups pre ++ g :: gs) (fed_list pre ++ FInt i :: fl) None None None None = Raise TypeError.
  Proof.
    intros Hn HF Hlen. unfold make_state. cbn [default].
    assert (0 < 2 ^ n) by (apply Z.pow_pos_nonneg; lia).
    destruct (Z.ltb_spec (2 ^ n - 0) 0); [lia|].
    pose proof (zlen_nonneg (fed_list pre)). pose proof (zlen_nonneg fl).
    destruct (Z.eqb_spec (zlen (fed_list pre ++ FInt i :: fl)) 0) as [E|_]; [rewrite zlen_app, zlen_cons in E; lia|].
    cbn [bind]. rewrite gen_edit_ok; auto. 2:{ destruct (fed_groups pre); discriminate. }
    cbn [bind]. set (F := concat (fed_groups pre ++ g :: gs)) in *. pose proof (zlen_nonneg F).
    assert (0 < 2 ^ zlen F) by (apply Z.pow_pos_nonneg; lia).
    rewrite (zrange_cons 0) by lia. cbn [map mfold].
    set (x := setreg n F 0 0). assert (Hx : 0 <= x < 2 ^ n) by (apply setreg_range; auto).
    destruct (Z.ltb_spec x 0); [lia|]. destruct (Z.leb_spec (2 ^ n) x); [lia|]. cbn [orb].
    rewrite pyset_ok by (rewrite zlen_map, zlen_zrange; lia). cbn [bind].
    match goal with |- context [upd ?l ?k ?v] => set (S0 := upd l k v) end.
    assert (HS0 : zlen S0 = 2 ^ n) by (unfold S0; rewrite zlen_upd, zlen_map, zlen_zrange; lia). clearbody S0.
    rewrite (enumerate_map 0), mfold_map. rewrite !zlen_map.
    assert (Ez : zlen (fed_groups pre ++ g :: gs) = zlen pre + (zlen gs + 1))
      by (unfold fed_groups; rewrite zlen_app, zlen_map, zlen_cons; reflexivity).
    rewrite Ez. pose proof (zlen_nonneg pre). pose proof (zlen_nonneg gs).
    rewrite (zrange_app 0 (zlen pre)) by lia. rewrite mfold_app.
    set (f0 := ([], []) : list Z * list C). rewrite Z.sub_0_r.
    match goal with |- context [mfold ?ff (zrange 0 (zlen pre)) ?s] =>
      destruct (mfold_zrange_inv (fun j (S : list C) => zlen S = 2 ^ n) ff 0 (zlen pre) s) as (S & E & HS) end; auto.
    - intros j S Hj HS. rewrite (pyget_ok 0%r) by lia. cbn [bind].
      rewrite (pyget_ok (FArr [])) by (unfold fed_list; rewrite zlen_app, zlen_map, zlen_cons; lia). cbn [bind].
      rewrite znth_app_l by (unfold fed_list; rewrite zlen_map; lia).
      unfold fed_list. rewrite (znth_map (fun f => FArr (snd f)) f0 (FArr [])) by auto. cbn [feed_get].
      rewrite (znth_map (fun g => reg n g x) [] 0) by lia. 
      rewrite znth_app_l by (unfold fed_groups; rewrite zlen_map; lia). unfold fed_groups.
      rewrite (znth_map fst f0 []) by auto.
      assert (Hin : In (znth f0 pre j) pre) by (apply znth_in; auto).
      destruct (znth f0 pre j) as [g' a] eqn:Ef. cbn [fst snd]. pose proof (reg_range n g' x).
      pose proof (Hlen g' a Hin). rewrite (pyget_ok 0%r) by lia. cbn [bind].
      rewrite pyset_ok by lia. eexists; split; [reflexivity|]. rewrite zlen_upd. auto.
    - rewrite E. cbn [bind]. rewrite zrange_cons by lia. cbn [mfold].
      rewrite (pyget_ok 0%r) by lia. cbn [bind].
      rewrite (pyget_ok (FInt i)) by (unfold fed_list; rewrite zlen_app, zlen_map, zlen_cons; lia). cbn [bind].
      replace (znth (FInt i) (fed_list pre ++ FInt i :: fl) (zlen pre)) with (FInt i : feed_t K); [reflexivity|].
      symmetry. unfold znth, zlen. rewrite Nat2Z.id. unfold fed_list.
      rewrite app_nth2 by (rewrite map_length; lia). rewrite map_length, Nat.sub_diag.
      destruct (Z.ltb_spec (Z.of_nat (length pre)) 0); [lia|reflexivity].
  Qed.
End IntFeed.
