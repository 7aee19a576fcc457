(** A worker that cannot make its state never answers. *)
From Verif Require Import Base M_Bits M_Kron S_Kron L_Kron3 M_Feed M_Proto S_Proto L_Proto M_Measure M_Pool S_Pool M_Top M_Net S_Net L_Net M_Worker S_Worker L_Worker1 L_Worker5 L_Worker9 L_Worker10 M_Client S_Client L_Connect4 L_Failure1 L_Reject2 L_Reduce1 L_Reduce2.
From Verif Require Import S_StartState.
From Verif Require Import M_StartState.

(** ** Making the state *)
Section Make.
  Context {K : Type} {OK : OrdRing K}.
  Notation C := (Cx K).
  (** the amplitude of an index can be computed *)
  Definition edit_ok (feeds : list (feed_t K)) (flips : list Z) : Prop :=
    forall q v, In (q, v) (enumerate flips) -> exists f a, pyget feeds q = Ok f /\ feed_get f v = Ok a.
  Lemma inner_ok (feeds : list (feed_t K)) i : forall l (state : list C), 0 <= i < zlen state ->
    ((forall q v, In (q, v) l -> exists f a, pyget feeds q = Ok f /\ feed_get f v = Ok a) ->
      exists s', mfold (fun state '(qindex, flip) => do s <- pyget state i; do f <- pyget feeds qindex; do a <- feed_get f flip; pyset state i (s * a)%r) l state = Ok s' /\ zlen s' = zlen state) /\
    (forall s', mfold (fun state '(qindex, flip) => do s <- pyget state i; do f <- pyget feeds qindex; do a <- feed_get f flip; pyset state i (s * a)%r) l state = Ok s' ->
      forall q v, In (q, v) l -> exists f a, pyget feeds q = Ok f /\ feed_get f v = Ok a).
  Proof.
    induction l as [|[q v] l IH]; intros state Hi; cbn [mfold]; [split; [intros _; eauto|intros s' _ q v []]|].
    rewrite (pyget_ok 0%r state i Hi). cbn [bind]. split.
    - intros H. destruct (H q v (or_introl eq_refl)) as (f & a & E1 & E2). rewrite E1. cbn [bind]. rewrite E2. cbn [bind]. rewrite pyset_ok by exact Hi. cbn [bind].
      destruct (proj1 (IH (upd state (Z.to_nat i) (znth 0%r state i * a)%r) ltac:(rewrite zlen_upd; exact Hi))) as (s' & E & El); [intros; apply H; right; assumption|].
      rewrite zlen_upd in El. eauto.
    - intros s' H q' v' Hin. destruct (pyget feeds q) as [f|x] eqn:E1; cbn [bind] in H; [|discriminate]. destruct (feed_get f v) as [a|x] eqn:E2; cbn [bind] in H; [|discriminate].
      rewrite pyset_ok in H by exact Hi. cbn [bind] in H. destruct Hin as [X|Hin]; [injection X as <- <-; eauto|]. eapply (proj2 (IH _ _)); [exact H|exact Hin].
      Unshelve. rewrite zlen_upd. exact Hi.
  Qed.
  (** make_state of the indices from s to t *)
  Notation edit feeds s t := (fun (state : list C) '(index, flips) =>
    if (index <? s) || (t <=? index) then Ok state else
    do state <- pyset state (index - s) 1%r;
    mfold (fun state '(qindex, flip) => do sv <- pyget state (index - s); do f <- pyget feeds qindex; do a <- feed_get f flip; pyset state (index - s) (sv * a)%r) (enumerate flips) state).
  Lemma edits_ok (feeds : list (feed_t K)) s t : forall l (state : list C), zlen state = t - s ->
    ((forall i flips, In (i, flips) l -> s <= i < t -> edit_ok feeds flips) -> exists s', mfold (edit feeds s t) l state = Ok s') /\
    (forall s', mfold (edit feeds s t) l state = Ok s' -> forall i flips, In (i, flips) l -> s <= i < t -> edit_ok feeds flips).
  Proof.
    induction l as [|[i flips] l IH]; intros state Hl; cbn [mfold]; [split; [intros _; eauto|intros s' _ i flips []]|].
    destruct ((i <? s) || (t <=? i)) eqn:Ei; cbn [bind].
    - split; [intros H; apply (IH state Hl); intros; eapply H; [right|]; eassumption|].
      intros s' H j fl [X|X] Hj; [injection X as <- <-; lia|]. eapply (IH state Hl); eassumption.
    - rewrite pyset_ok by lia. cbn [bind]. assert (Hi : 0 <= i - s < zlen (upd state (Z.to_nat (i - s)) 1%r)) by (rewrite zlen_upd; lia).
      assert (In1 := inner_ok feeds (i - s) (enumerate flips) _ Hi). split.
      + intros H. destruct (proj1 In1) as (s1 & E1 & L1); [exact (H i flips (or_introl eq_refl) ltac:(lia))|]. rewrite E1. cbn [bind]. apply (IH s1); [rewrite L1, zlen_upd; exact Hl|]. intros; eapply H; [right|]; eassumption.
      + intros s' H. match type of H with bind ?x _ = _ => destruct x as [s1|x1] eqn:E1 end; [|discriminate]. cbn [bind] in H.
        assert (Hok := proj2 In1 s1 eq_refl). destruct (proj1 In1 Hok) as (s2 & E2 & L2). assert (s2 = s1) by congruence. subst s2.
        intros j fl [X|X] Hj; [injection X as <- <-; exact Hok|]. eapply (proj2 (IH s1 ltac:(rewrite L2, zlen_upd; exact Hl))); eassumption.
  Qed.
  Lemma zeros_len s t : s <= t -> zlen (map (fun _ => 0%r : C) (zrange 0 (t - s))) = t - s.
  Proof. intros H. unfold zlen. rewrite map_length. fold (zlen (zrange 0 (t - s))). rewrite zlen_zrange by lia. lia. Qed.
  Lemma make_state_ok junk n groups (feeds : list (feed_t K)) is ie os oe : default 0 is < default (2 ^ n) ie -> default 0 os <= default (2 ^ n) oe ->
    (exists b, make_state junk n groups feeds is ie os oe = Ok b) <->
    (exists edits, gen_edit_indices groups (n - 1) = Ok edits /\ forall i flips, In (i, flips) edits -> default 0 is <= i < default (2 ^ n) ie -> edit_ok feeds flips).
  Proof.
    intros Hi Ho. unfold make_state. cbv zeta. set (s := default 0 is) in *. set (t := default (2 ^ n) ie) in *. set (u := default 0 os) in *. set (v := default (2 ^ n) oe) in *. clearbody s t u v.
    replace (t - s <? 0) with false by lia. replace (v - u <? 0) with false by lia.
    assert (Es : exists s0 : list C, (if zlen feeds =? 0 then pyset (map (fun _ => 0%r) (zrange 0 (t - s))) 0 1%r else Ok (map (fun _ => 0%r) (zrange 0 (t - s)))) = Ok s0 /\ zlen s0 = t - s).
    { destruct (zlen feeds =? 0); [rewrite pyset_ok by (rewrite zeros_len; lia)|]; (eexists; split; [reflexivity|]); rewrite ?zlen_upd; apply zeros_len; lia. }
    destruct Es as (s0 & -> & L0). cbn [bind]. destruct (gen_edit_indices groups (n - 1)) as [edits|x]; cbn [bind].
    - assert (E := edits_ok feeds s t edits s0 L0). split.
      + intros (b & H). exists edits. split; [reflexivity|]. match type of H with bind ?x _ = _ => destruct x as [s1|x1] eqn:E1 end; [|discriminate]. exact (proj2 E s1 eq_refl).
      + intros (ed & H & Hok). injection H as <-. destruct (proj1 E Hok) as (s1 & ->). cbn [bind]. eauto.
    - split; [intros (b & H); discriminate|intros (ed & H & _); discriminate].
  Qed.
  Lemma edit_dec (feeds : list (feed_t K)) flips : edit_ok feeds flips \/ ~ edit_ok feeds flips.
  Proof.
    unfold edit_ok. induction (enumerate flips) as [|[q v] l IH]; [left; intros q v []|].
    destruct (pyget feeds q) as [f|x] eqn:E1; [|right; intros H; destruct (H q v (or_introl eq_refl)) as (f & a & X & _); congruence].
    destruct (feed_get f v) as [a|x] eqn:E2; [|right; intros H; destruct (H q v (or_introl eq_refl)) as (f' & a & X & Y); congruence].
    destruct IH as [H|H]; [left; intros q' v' [X|X]; [injection X as <- <-; eauto|auto]|right; intros G; apply H; intros; apply G; right; assumption].
  Qed.
  Lemma all_or_one {A} (P : A -> Prop) (l : list A) : (forall x, P x \/ ~ P x) -> (forall x, In x l -> P x) \/ exists x, In x l /\ ~ P x.
  Proof.
    intros D. induction l as [|x l [H|(y & H & H')]]; [left; intros x []| |right; exists y; split; [right|]; assumption].
    destruct (D x) as [X|X]; [left; intros y [<-|Hy]; auto|right; exists x; split; [left; reflexivity|exact X]].
  Qed.
  (** what was sent is what is received *)
  Lemma int32_some i j : int32 i = Ok j -> j = i.
  Proof. unfold int32. destruct (_ && _); congruence. Qed.
  Lemma encode_decode : forall groups (feeds : list (feed_t K)) states, zlen groups = zlen feeds -> encode_states groups feeds = Ok states -> decode_states states = Ok (groups, feeds).
  Proof.
    intros groups feeds states Hl E. assert (Hg : forall g i, In g groups -> In i g -> is_int32 i).
    { assert (Hl' : (length groups = length feeds)%nat) by (unfold zlen in Hl; lia). clear Hl. revert feeds states Hl' E. unfold encode_states. induction groups as [|g gs IH]; intros [|f fs] states Hl E; try discriminate Hl; [intros g i []|].
      cbn [combine mmap] in E. destruct (indices_to_pbindices g) as [g'|x] eqn:Eg; cbn [bind] in E; [|discriminate].
      match type of E with bind ?x _ = _ => destruct x as [p|y] end; cbn [bind] in E; [|discriminate].
      match type of E with bind ?x _ = _ => destruct x as [ps|y] eqn:Eps end; cbn [bind] in E; [|discriminate].
      intros h i [<-|Hh] Hi; [|eapply IH; [|exact Eps|exact Hh|exact Hi]; injection Hl; auto].
      clear - Eg Hi. unfold indices_to_pbindices in Eg. revert g' Eg. induction g as [|j g IH]; intros g' E; [destruct Hi|]. cbn [mmap] in E. unfold int32 at 1 in E.
      destruct (_ && _) eqn:Ej; cbn [bind] in E; [|discriminate]. match type of E with bind ?x _ = _ => destruct x as [r|y] eqn:Er end; [|discriminate].
      destruct Hi as [<-|Hi]; [unfold is_int32; lia|]. eapply IH; [exact Hi|reflexivity]. }
    assert (Hf : forall f, In f feeds -> wire_feed f).
    { assert (Hl' : (length groups = length feeds)%nat) by (unfold zlen in Hl; lia). clear Hl Hg. revert feeds states Hl' E. unfold encode_states. induction groups as [|g gs IH]; intros [|f fs] states Hl E; try discriminate Hl; [intros f []|].
      cbn [combine mmap] in E. destruct (indices_to_pbindices g) as [g'|x] eqn:Eg; cbn [bind] in E; [|discriminate].
      match type of E with bind ?x _ = _ => destruct x as [p|y] eqn:Ep end; cbn [bind] in E; [|discriminate].
      match type of E with bind ?x _ = _ => destruct x as [ps|y] eqn:Eps end; cbn [bind] in E; [|discriminate].
      intros h [<-|Hh]; [|eapply IH; [|exact Eps|exact Hh]; injection Hl; auto].
      destruct f as [a|i]; [exact I|]. cbn. unfold int64 in Ep. destruct (_ && _) eqn:Ei; cbn [bind] in Ep; [|discriminate]. unfold is_int64. lia. }
    destruct (states_ok groups feeds ltac:(unfold zlen in Hl; lia) Hg Hf) as (msg & E1 & D). congruence.
  Qed.
End Make.

(** ** The manager waits *)
Section Stuck.
  Context {K : Type} {OK : OrdRing K} (e : wid) (cap : pid -> pid -> option nat) (cfg : wid -> worker_cfg).
  Notation msg := (msg K).
  Notation proc := (proc pid msg).
  Notation stt := (net pid msg (ending K)).
  Inductive stuck {A} : proc A -> Prop :=
  | st_recv k : stuck (Recv (Wk e) k)
  | st_send w m k : stuck k -> stuck (Send (Wk w) m k)
  | st_recv_o w k : w <> e -> (forall c, stuck (k (MConf c))) -> stuck (Recv (Wk w) k).
  Lemma stuck_bind {A B} (p : proc A) (f : A -> proc B) : stuck p -> stuck (pbind p f).
  Proof. intros Hp. induction Hp; cbn [pbind]; [apply st_recv|apply st_send; auto|apply st_recv_o; auto]. Qed.
  Lemma stuck_try {A B} (p : proc A) (f : A -> proc B) h : stuck p -> stuck (ptry p f h).
  Proof. intros Hp. induction Hp; cbn [ptry]; [apply st_recv|apply st_send; auto|apply st_recv_o; auto]. Qed.
  Notation receives := (pfold (fun confs w => Recv (Wk w) (fun m => match m with MConf c => Ret (confs ++ [c]) | _ => Fail GenericException end))).
  Lemma stuck_receives l : In e l -> forall cs, stuck (receives l cs : proc (list (conf K))).
  Proof.
    induction l as [|w l IH]; intros H cs; [destruct H|]. cbn [pfold pbind]. destruct (wid_dec w e) as [->|Hw]; [apply st_recv|].
    apply st_recv_o; [exact Hw|]. intros c. apply IH. destruct H; [contradiction|assumption].
  Qed.
  Lemma stuck_map op l : In e l -> stuck (@map_workers_via_op K op l).
  Proof.
    intros H. unfold map_workers_via_op, send_to_each_of. assert (Hq : stuck (receive_from_each_of l : proc (list (conf K)))) by (apply stuck_receives; exact H). revert Hq. generalize (receive_from_each_of l : proc (list (conf K))) as q. intros q Hq. clear H.
    induction l as [|w l IH]; cbn [pfold pbind]; [exact Hq|]. apply st_send. exact IH.
  Qed.
  Definition lost (s : stt) : Prop := stuck (procs s Mgr) /\ chans s (Wk e) Mgr = [] /\ exists x, procs s (Wk e) = Fail x.
  Lemma lost_step s i s' : base2 cfg s -> lost s -> exec pid_eqb cap s i = Some s' -> lost s'.
  Proof.
    intros B (S & C & x & W) Hx. unfold lost. destruct i as [|w].
    - inversion S as [k E|w m k D E|w k Hw D E].
      + destruct (mgr_recv e cap cfg s s' e k B (eq_sym E) Hx) as (c & _ & _ & _ & E4 & _). rewrite C in E4. specialize (E4 eq_refl). discriminate.
      + destruct (mgr_send e cap s s' w m k (eq_sym E) Hx) as (E1 & E2 & E3 & _). rewrite E1, E2, E3. eauto.
      + destruct (mgr_recv e cap cfg s s' w k B (eq_sym E) Hx) as (c & E1 & E2 & _ & _ & E5). rewrite E1, E2, E5 by exact Hw. eauto.
    - destruct (wid_dec w e) as [->|Hw]; [unfold exec in Hx; rewrite W in Hx; discriminate|].
      destruct (other_pair e cap s w s' stuck (chans s Mgr (Wk e)) [] (fun p => exists x, p = Fail x) Hw ltac:(unfold pair; eauto) Hx) as (P1 & _ & P3 & P4). auto.
  Qed.
  Lemma lost_runs : forall sched s s', base2 cfg s -> lost s -> runs pid_eqb cap s sched = Some s' -> lost s'.
  Proof.
    induction sched as [|i sched IH]; intros s s' B I H; cbn [runs] in H; [injection H as <-; exact I|]. destruct (exec pid_eqb cap s i) as [t|] eqn:E; [|discriminate].
    apply (IH t); [eapply exec_base2; eassumption|eapply lost_step; eassumption|exact H].
  Qed.
  Lemma lost_end s : lost s -> (forall x, procs s Mgr <> Ret x) /\ (forall x, procs s Mgr <> Fail x).
  Proof. intros (S & _). inversion S as [k E|w m k D E|w k Hw D E]; split; intros y; congruence. Qed.
End Stuck.

(** ** The job *)
Section Job.
  Context {K : Type} {OK : OrdRing K}.
  Context (n bq : Z) (pool : list entry).
  Hypothesis Hbq : 0 <= bq <= n.
  Hypothesis Ht : tiles (2 ^ n) pool.
  Hypothesis Hb : blocks (2 ^ bq) pool.
  Let ws : list wid := map fst pool.
  Let rs := blks (2 ^ bq) (2 ^ (n - bq)).
  Lemma block_of i : 0 <= i < 2 ^ n -> exists a, In a rs /\ fst a <= i < snd a.
  Proof.
    intros Hi. assert (Hs : 0 < 2 ^ bq) by (apply Z.pow_pos_nonneg; lia). exists (blk (2 ^ bq) (i / 2 ^ bq)). split.
    - apply blks_in. exists (i / 2 ^ bq). split; [|reflexivity]. split; [apply Z.div_pos; lia|]. apply Z.div_lt_upper_bound; [exact Hs|]. rewrite <- Z.pow_add_r by lia. replace (bq + (n - bq)) with n by lia. lia.
    - unfold blk. cbn [fst snd]. pose proof (Z.div_mod i (2 ^ bq) ltac:(lia)). pose proof (Z.mod_pos_bound i (2 ^ bq) Hs). nia.
  Qed.
  Lemma block_bounds a : In a rs -> 0 <= fst a < snd a /\ snd a <= 2 ^ n.
  Proof.
    intros H. assert (Hs : 0 < 2 ^ bq) by (apply Z.pow_pos_nonneg; lia). apply blks_in in H. destruct H as (i & Hi & ->). unfold blk. cbn [fst snd].
    assert (E : 2 ^ n = 2 ^ bq * 2 ^ (n - bq)) by (rewrite <- Z.pow_add_r by lia; f_equal; lia). rewrite E. nia.
  Qed.
  (** a worker's block as an argument of make_state *)
  Lemma worker_make junk (w : wid) groups (feeds : list (feed_t K)) states : In w ws -> zlen groups = zlen feeds -> encode_states groups feeds = Ok states ->
    (exists b, worker_state junk n w states = Ok b) <->
    (exists edits, gen_edit_indices groups (n - 1) = Ok edits /\ forall i flips, In (i, flips) edits -> fst (fst w) <= i < snd (fst w) -> edit_ok feeds flips).
  Proof.
    intros Hw Hl E. apply (Hws n bq pool Hbq Ht Hb) in Hw. destruct Hw as [H1 H2]. apply block_bounds in H1. apply block_bounds in H2.
    unfold worker_state. rewrite (encode_decode groups feeds states Hl E). cbn [bind fst snd]. apply make_state_ok; cbn [default]; lia.
  Qed.
  Lemma local_make junk groups (feeds : list (feed_t K)) :
    (exists b, make_state junk n groups feeds None None None None = Ok b) <->
    (exists edits, gen_edit_indices groups (n - 1) = Ok edits /\ forall i flips, In (i, flips) edits -> 0 <= i < 2 ^ n -> edit_ok feeds flips).
  Proof. assert (0 < 2 ^ n) by (apply Z.pow_pos_nonneg; lia). apply make_state_ok; cbn [default]; lia. Qed.
  Lemma accepted groups (feeds : list (feed_t K)) states junk b : zlen groups = zlen feeds -> encode_states groups feeds = Ok states ->
    make_state junk n groups feeds None None None None = Ok b -> forall junk' (w : wid), In w ws -> exists b', worker_state junk' n w states = Ok b'.
  Proof.
    intros Hl E Hm junk' w Hw. apply (worker_make junk' w groups feeds states Hw Hl E). destruct (proj1 (local_make junk groups feeds) ltac:(eauto)) as (edits & Ee & H). exists edits. split; [exact Ee|].
    intros i fl Hin Hi. apply (H i fl Hin). apply (Hws n bq pool Hbq Ht Hb) in Hw. destruct Hw as [H1 _]. apply block_bounds in H1. lia.
  Qed.
  (** the workers of some row cannot make their states *)
  Lemma rejected_row groups (feeds : list (feed_t K)) states junk x : zlen groups = zlen feeds -> encode_states groups feeds = Ok states ->
    make_state junk n groups feeds None None None None = Raise x -> exists a, In a rs /\ forall junk' (w : wid), In w ws -> fst w = a -> exists y, worker_state junk' n w states = Raise y.
  Proof.
    intros Hl E Hm. assert (Hno : ~ exists b, make_state junk n groups feeds None None None None = Ok b) by (intros (b & X); congruence). rewrite local_make in Hno.
    assert (Hz : 0 < 2 ^ n) by (apply Z.pow_pos_nonneg; lia).
    assert (Hf : exists a, In a rs /\ ~ exists edits, gen_edit_indices groups (n - 1) = Ok edits /\ forall i flips, In (i, flips) edits -> fst a <= i < snd a -> edit_ok feeds flips).
    { destruct (gen_edit_indices groups (n - 1)) as [edits|y] eqn:Ee.
      - destruct (all_or_one (fun p => 0 <= fst p < 2 ^ n -> edit_ok feeds (snd p)) edits) as [H|([i fl] & Hin & H)].
        + intros [i fl]. cbn [fst snd]. destruct (edit_dec feeds fl); [tauto|]. assert (D : 0 <= i < 2 ^ n \/ ~ 0 <= i < 2 ^ n) by lia. tauto.
        + exfalso. apply Hno. exists edits. split; [reflexivity|]. intros i fl Hin. apply (H (i, fl) Hin).
        + cbn [fst snd] in H. assert (Hi : 0 <= i < 2 ^ n) by lia. destruct (block_of i Hi) as (a & Ha & Hia). exists a. split; [exact Ha|]. intros (ed & X & Y). injection X as <-. apply H. intros _. exact (Y i fl Hin Hia).
      - destruct (block_of 0 ltac:(lia)) as (a & Ha & _). exists a. split; [exact Ha|]. intros (ed & X & _). discriminate. }
    destruct Hf as (a & Ha & Hf). exists a. split; [exact Ha|]. intros junk' w Hw <-. destruct (worker_state junk' n w states) as [b|y] eqn:Ew; [|eauto].
    exfalso. apply Hf. apply (worker_make junk' w groups feeds states Hw Hl E). eauto.
  Qed.
  (** the first call *)
  Lemma served_stuck a (c : call K) r rest : In a rs -> served c -> exists e : wid, In e ws /\ fst e = a /\ stuck e (manager_run n ws (requests ((c, r) :: rest)) [] []).
  Proof.
    intros Ha Hc. assert (Hd : In (a, a) ws) by (apply (Hws n bq pool Hbq Ht Hb); auto). assert (Hnd := Hnd n bq pool Hbq Ht Hb). fold ws in Hnd.
    assert (Hdi := diag_in (a, a) ws Hd eq_refl).
    destruct c as [mats|reg1 reg2 f|indices m mp|indices m mp|indices m|indices k]; cbn [served] in Hc; try contradiction; unfold requests; cbn [map concat request fst snd app manager_run].
    - exists (a, a). split; [exact Hd|]. split; [reflexivity|]. apply stuck_try. cbn [send_op]. apply stuck_bind. unfold send_kronprod. apply stuck_bind, stuck_map. exact Hd.
    - exists (a, a). split; [exact Hd|]. split; [reflexivity|]. apply stuck_try. cbn [send_op m_soft m_reduce m_top_k]. rewrite Z.eqb_refl. cbn [negb]. apply stuck_bind. unfold send_measure. cbv zeta. apply stuck_bind, stuck_map. exact Hdi.
    - destruct (fw_ok n bq pool Hbq Ht Hb indices a Ha) as (_ & F1 & F2). exists (fw n pool indices a). split; [exact F1|]. split; [exact F2|].
      apply stuck_try. cbn [send_op m_soft m_reduce m_top_k]. apply stuck_bind. unfold send_reduce_measure, ws. cbn [m_indices]. cbv zeta.
      rewrite (inputs_are n bq pool Hbq Ht Hb indices), (firsts_are n bq pool Hbq Ht Hb indices). cbn [lift pbind]. apply stuck_bind, stuck_map. apply in_map. exact Ha.
    - exists (a, a). split; [exact Hd|]. split; [reflexivity|]. apply stuck_try. cbn [send_op m_soft m_reduce m_top_k]. unfold asked_for in Hc. destruct (k =? 0) eqn:Ek.
      + assert (0 < 2 ^ zlen indices) by (apply Z.pow_pos_nonneg; [lia|apply zlen_nonneg]). replace (2 ^ zlen indices =? 0) with false by lia. replace (2048 <? 2 ^ zlen indices) with false by lia. cbn [negb]. apply stuck_bind. unfold send_measure_top. apply stuck_bind, stuck_map. exact Hdi.
      + rewrite Ek. replace (2048 <? k) with false by lia. cbn [negb]. apply stuck_bind. unfold send_measure_top. apply stuck_bind, stuck_map. exact Hdi.
  Qed.
  Lemma start_lost cap (rsqrt : K -> K) cfg job groups (feeds : list (feed_t K)) handle states junk x c r calls junks envs :
    configured job ws cfg -> zlen groups = zlen feeds -> dist_make_state handle groups feeds = Ok (handle, states) ->
    make_state junk n groups feeds None None None None = Raise x -> served c ->
    forall sched s', runs pid_eqb cap (start_net rsqrt n ws states ((c, r) :: calls) cfg junks envs) sched = Some s' ->
    (forall y, procs s' Mgr <> Ret y) /\ (forall y, procs s' Mgr <> Fail y).
  Proof.
    intros Hcfg Hl E Hm Hc sched s' H. unfold dist_make_state in E. destruct (encode_states groups feeds) as [st|y] eqn:Es; cbn [bind] in E; [|discriminate]. injection E as ->.
    destruct (rejected_row groups feeds states junk x Hl Es Hm) as (a & Ha & Hrow). destruct (served_stuck a c r calls Ha Hc) as (e & He & Ea & Hst).
    apply (lost_end e). revert H. apply (lost_runs e cap cfg).
    - split.
      + intros w. cbn [start_net procs]. destruct (existsb (wid_eqb w) ws); [|constructor]. unfold worker_start. destruct (worker_state _ _ _ _); [apply ok_run; reflexivity|constructor].
      + intros w m Hmm. destruct Hmm.
    - unfold lost. cbn [start_net procs chans]. split; [exact Hst|]. split; [reflexivity|].
      replace (existsb (wid_eqb e) ws) with true by (symmetry; apply existsb_exists; exists e; split; [exact He|apply wid_eqb_ok; reflexivity]).
      unfold worker_start. destruct (Hcfg e He) as (_ & Ei & _). rewrite Ei. destruct (Hrow (junks e) e He Ea) as (y & ->). eauto.
  Qed.
  Lemma start_refused cap (rsqrt : K -> K) cfg job groups (feeds : list (feed_t K)) handle junk x c r calls junks envs :
    configured job ws cfg -> zlen groups = zlen feeds -> (forall g i, In g groups -> In i g -> is_int32 i) -> (forall f, In f feeds -> wire_feed f) ->
    make_state junk n groups feeds None None None None = Raise x -> served c ->
    exists states, dist_make_state handle groups feeds = Ok (handle, states) /\
    forall sched s', runs pid_eqb cap (start_net rsqrt n ws states ((c, r) :: calls) cfg junks envs) sched = Some s' ->
    (forall y, procs s' Mgr <> Ret y) /\ (forall y, procs s' Mgr <> Fail y).
  Proof.
    intros Hcfg Hl Hg Hf Hm Hc. destruct (states_ok groups feeds ltac:(unfold zlen in Hl; lia) Hg Hf) as (states & E & _). exists states.
    assert (Ed : dist_make_state handle groups feeds = Ok (handle, states)) by (unfold dist_make_state; rewrite E; reflexivity). split; [exact Ed|].
    eapply start_lost; eassumption.
  Qed.
  Lemma accepted_iff groups (feeds : list (feed_t K)) handle states junk junks : zlen groups = zlen feeds -> dist_make_state handle groups feeds = Ok (handle, states) ->
    (exists b, make_state junk n groups feeds None None None None = Ok b) <-> (forall w : wid, In w ws -> exists b, worker_state (junks w) n w states = Ok b).
  Proof.
    intros Hl E. unfold dist_make_state in E. destruct (encode_states groups feeds) as [st|y] eqn:Es; cbn [bind] in E; [|discriminate]. injection E as ->. split.
    - intros (b & Hm) w Hw. eapply accepted; eassumption.
    - intros H. destruct (make_state junk n groups feeds None None None None) as [b|x] eqn:Hm; [eauto|]. exfalso.
      destruct (rejected_row groups feeds states junk x Hl Es Hm) as (a & Ha & Hrow). assert (Hd : In (a, a) ws) by (apply (Hws n bq pool Hbq Ht Hb); auto).
      destruct (Hrow (junks (a, a)) (a, a) Hd eq_refl) as (y & Ey). destruct (H (a, a) Hd) as (b & Eb). congruence.
  Qed.
  (** a client that closes without a call *)
  Lemma stays_failed cap (s s' : net pid (msg K) (ending K)) p y : forall sched, procs s p = Fail y -> runs pid_eqb cap s sched = Some s' -> procs s' p = Fail y.
  Proof.
    intros sched. revert s. induction sched as [|i sched IH]; intros s E H; cbn [runs] in H; [injection H as <-; exact E|]. destruct (exec pid_eqb cap s i) as [t|] eqn:Ex; [|discriminate].
    apply (IH t); [|exact H]. unfold exec in Ex. destruct (pid_eqb p i) eqn:Epi.
    - apply pid_eqb_ok in Epi. subst i. rewrite E in Ex. discriminate.
    - assert (Hne : p <> i) by (intros ->; rewrite (proj2 (pid_eqb_ok i i) eq_refl) in Epi; discriminate).
      destruct (procs s i) as [r|x|to m k|from k]; try discriminate; [destruct (has_room _ _); [|discriminate]|destruct (chans s from i); [discriminate|]]; injection Ex as <-; cbn [procs]; rewrite set1_other by exact Hne; exact E.
  Qed.
  Lemma closes cap (q : proc pid (msg K) (ending K)) : forall l (s : net pid (msg K) (ending K)), NoDup l -> (forall w : wid, In w l -> fits (cap Mgr (Wk w)) 1 /\ chans s Mgr (Wk w) = []) ->
    procs s Mgr = pbind (send_to_each_of OClose l) (fun _ => q) ->
    exists s', runs pid_eqb cap s (map (fun _ => Mgr) l) = Some s' /\ procs s' Mgr = q.
  Proof.
    induction l as [|w l IH]; intros s Hn H E; [exists s; split; [reflexivity|exact E]|]. inversion Hn as [|x y Hx Hy]; subst. cbn [map runs]. unfold send_to_each_of in E. cbn [pfold pbind] in E. unfold exec. rewrite E.
    destruct (H w (or_introl eq_refl)) as [Hf Hc]. rewrite Hc. replace (has_room (cap Mgr (Wk w)) []) with true by (symmetry; unfold has_room, fits in *; destruct (cap Mgr (Wk w)); [apply Nat.ltb_lt; cbn [length]; lia|reflexivity]).
    apply IH; [exact Hy| |cbn [procs]; rewrite set1_same; reflexivity]. intros v Hv. destruct (H v (or_intror Hv)) as [Hf' Hc']. split; [exact Hf'|]. cbn [chans]. rewrite set2_other; [exact Hc'|]. right. intros X. injection X as ->. contradiction.
  Qed.
  Lemma start_next cap room (rsqrt : K -> K) cfg job groups (feeds : list (feed_t K)) handle states junk x junks envs :
    configured job ws cfg -> capacities cap ws room -> zlen groups = zlen feeds -> dist_make_state handle groups feeds = Ok (handle, states) ->
    make_state junk n groups feeds None None None None = Raise x ->
    (exists sched s', runs pid_eqb cap (start_net rsqrt n ws states [] cfg junks envs) sched = Some s' /\ procs s' Mgr = Ret (EManager [] ws)) /\
    forall sched s', runs pid_eqb cap (start_net rsqrt n ws states [] cfg junks envs) sched = Some s' ->
      forall job' cfg' states' c r calls junks' envs', configured job' ws cfg' -> served c ->
      forall sched' s'', runs pid_eqb cap (next_net rsqrt n ws states' ((c, r) :: calls) cfg' junks' envs' s') sched' = Some s'' ->
      (forall y, procs s'' Mgr <> Ret y) /\ (forall y, procs s'' Mgr <> Fail y).
  Proof.
    intros Hcfg Hcap Hl E Hm. unfold dist_make_state in E. destruct (encode_states groups feeds) as [st|y] eqn:Es; cbn [bind] in E; [|discriminate]. injection E as ->. split.
    - exists (map (fun _ => Mgr) ws). apply (closes cap (Ret (EManager [] ws)) ws); [exact (Hnd n bq pool Hbq Ht Hb)| |reflexivity]. intros w Hw. split; [apply (Hcap w w Hw Hw)|reflexivity].
    - intros sched s' H job' cfg' states' c r calls junks' envs' Hcfg' Hc sched' s'' H'.
      destruct (rejected_row groups feeds states junk x Hl Es Hm) as (a & Ha & Hrow). destruct (served_stuck a c r calls Ha Hc) as (e & He & Ea & Hst).
      destruct (Hrow (junks e) e He Ea) as (y & Ey).
      assert (Ef : procs s' (Wk e) = Fail y).
      { eapply stays_failed; [|exact H]. cbn [start_net procs]. replace (existsb (wid_eqb e) ws) with true by (symmetry; apply existsb_exists; exists e; split; [exact He|apply wid_eqb_ok; reflexivity]).
        unfold worker_start. destruct (Hcfg e He) as (_ & Ei & _). rewrite Ei, Ey. reflexivity. }
      apply (lost_end e). revert H'. apply (lost_runs e cap cfg').
      + split.
        * intros w. cbn [next_net start_net procs]. assert (G : forall p : proc pid (msg K) (ending K), sends (to_partner (c_reg (cfg' w))) p -> sends (to_partner (c_reg (cfg' w))) match procs s' (Wk w) with Fail e => Fail e | _ => p end) by (intros p Hp; destruct (procs s' (Wk w)); [exact Hp|apply s_fail|exact Hp|exact Hp]).
          apply G. destruct (existsb (wid_eqb w) ws); [|apply s_ret]; unfold worker_start; destruct (worker_state (junks' w) n (c_id (cfg' w)) states'); [apply ok_run; reflexivity|apply s_fail].
        * intros w m Hmm. destruct Hmm.
      + unfold lost. cbn [next_net start_net procs chans]. rewrite Ef. split; [|split; [reflexivity|eauto]]. destruct (procs s' Mgr); exact Hst.
  Qed.
End Job.
