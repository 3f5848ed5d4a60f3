(** Proofs for C06, part 4: accesses, configuration, all histories. *)
From Coq Require Import Permutation.
From Verif Require Import Bytes DList_model DList_spec DList_proofs MM2Q_model MM2Q_spec MM2Q_proofs MM2Q_proofs2 MM2Q_proofs3.
Ltac Zify.zify_post_hook ::= idtac.

Lemma K_cfg s q c r nx k : K s q -> cfg s = c -> K (setCfg s c r nx k) (with_cfg q c r nx k).
Proof.
  intros (A & B & D) Ec. destruct B as (E1 & E2 & E3 & E4 & E5 & E6 & E7 & E8).
  assert (Eq : qcfg q = c) by congruence.
  split; [|split].
  - destruct A as (a & b & d & e & Hk). exists a, b, d, e.
    unfold K5 in *. cbn. rewrite <- Eq. exact Hk.
  - unfold Ke. cbn. rewrite <- Eq. auto 12.
  - exact D.
Qed.
Lemma K_count s q f a b c d e : K s q ->
  (forall k, f k = mkCnt (a + nHot k) (b + nCold k) (c + nWarm k) (d + nWarmTail k) (e + nColdTail k)) ->
  K (addCnt s f) (count q a b c d e).
Proof.
  intros HK E. pose proof HK as (_ & (E1 & _ & E3 & E4 & E5 & _) & _). unfold addCnt, count.
  rewrite E, <- E5, <- E3, <- E4. rewrite <- E1. apply K_cfg; auto.
Qed.

Lemma reconf_ok s q now : R s q -> exists s', reconfigure s now = Some s' /\ R s' (spec_reconf q now).
Proof.
  intros (HK & HI). pose proof HK as ((a & b & d & e & Hk) & (E1 & _ & E3 & E4 & E5 & E6 & _) & _).
  pose proof Hk as (HJ & EW & _).
  unfold reconfigure, spec_reconf. rewrite E4. destruct (now <? next_of q)%N; [exists s; split; [reflexivity|split; auto]|].
  unfold oldestWarmAge. destruct (rbeginFrom_at _ _ HJ (S WarmTail)) as (it & -> & A).
  change (S WarmTail) with 2 in A. cbn [revs L5] in A. rewrite app_nil_r, <- rev_app_distr, <- EW in A.
  eexists. split; [reflexivity|]. split; [|exact HI].
  rewrite E1, <- E5, E6.
  replace (match rev (W q) with [] => 0%N | n :: _ => wrap32 (now + 2 ^ 32 - stamp q n)%N end)
    with (match it with Some (_, n) => wrap32 (now + 2 ^ 32 - stamp q n)%N | None => 0%N end).
  - apply K_cfg; auto.
  - destruct (rev (W q)) as [|x r].
    + apply at_none in A as ->. reflexivity.
    + destruct (at_some _ _ _ _ A) as (i & ->). reflexivity.
Qed.

(** Taking out of a list, whatever the flag of the item becomes before. *)
Lemma unlink_at s s0 q n i a b d e : K5 s q a b d e -> Ke s q -> Ku s q -> In n (L5 a b (H q) d e i) ->
  wd s0 = wd s -> (forall x, x <> n -> hot s0 x = hot s x /\ cold s0 x = cold s x /\ tailf s0 x = tailf s x) ->
  cfg s0 = cfg s -> tailTrack s0 = tailTrack s -> refresh s0 = refresh s -> nextReconf s0 = nextReconf s ->
  cnt s0 = cnt s -> utime s0 = utime s ->
  K (lcall s0 (Remove i n)) (taken_out q n).
Proof.
  intros Hk He Hu I0 Ew Fo E1 E2 E3 E4 E5 E6. pose proof Hk as (HJ & EW & Ewt & EC & Ect & HT).
  assert (M : In n (members q)) by (apply (members_L5 _ _ _ _ _ _ n Hk); eauto).
  split; [|split].
  - exists (remove_node a n), (remove_node b n), (remove_node d n), (remove_node e n).
    unfold taken_out, with_queues. split.
    { cbn [H]. pose proof (Jrem _ _ _ _ HJ I0) as JR.
      assert (J' : J (lcall s0 (Remove i n)) (fun k => remove_node (L5 a b (H q) d e k) n)).
      { destruct JR as (Wr & Fl & Big). split; [|split; [|exact Big]].
        - cbn [wd lcall setWd] in *. rewrite Ew. exact Wr.
        - intros k x X. pose proof X as Y. apply remove_node_in in Y as (_ & D).
          cbn [hot cold tailf lcall setWd]. destruct (Fo x D) as (-> & -> & ->). exact (Fl _ _ X). }
      eapply J_ext; [|exact J']. intros [|[|[|[|[|k]]]]]; reflexivity. }
    cbn [W wt C ct qcfg]. rewrite EW, EC, !remove_app.
    pose proof (J_nodup _ _ 1 HJ) as N1. pose proof (J_nodup _ _ 4 HJ) as N4. cbn in N1, N4.
    rewrite !len_remove by assumption. unfold less. rewrite Ewt, Ect, !skipn_tail.
    do 4 (split; [reflexivity|]). intros Z; destruct (HT Z) as [-> ->]; split; reflexivity.
  - unfold Ke in *. cbn [cfg tailTrack refresh nextReconf cnt utime lcall setWd]. rewrite E1, E2, E3, E4, E5, E6. exact He.
  - intros x U. destruct (Hu x U) as (A & B). rewrite taken_members. split; [tauto|].
    cbn [hot cold tailf lcall setWd]. assert (D : x <> n) by congruence.
    destruct (Fo x D) as (-> & -> & ->). exact B.
Qed.

(** Linking an unlinked, used item at the head of warm. *)
Lemma link_warm s s0 q n : K s q -> ~ In n (members q) -> used q n = true ->
  wd s0 = wd s -> (forall x, x <> n -> hot s0 x = hot s x /\ cold s0 x = cold s x /\ tailf s0 x = tailf s x) ->
  (hot s0 n = false /\ cold s0 n = false /\ tailf s0 n = false) ->
  cfg s0 = cfg s -> tailTrack s0 = tailTrack s -> refresh s0 = refresh s -> nextReconf s0 = nextReconf s ->
  cnt s0 = cnt s -> utime s0 = utime s ->
  K (lcall s0 (LinkAtHead Warm n)) (with_queues q (H q) (n :: W q) (C q) (wt q) (ct q)).
Proof.
  intros ((a & b & d & e & Hk) & He & Hu) NM Us Ew Fo Fn E1 E2 E3 E4 E5 E6.
  pose proof Hk as (HJ & EW & Ewt & EC & Ect & HT).
  assert (U := proj1 (members_out _ _ _ _ _ _ n Hk) NM).
  split; [|split].
  - exists (n :: a), b, d, e. split.
    { cbn [H with_queues]. eapply J_ext; [|refine (Jlink s s0 _ 0 n HJ U _ Ew Fo _); [lia|exact Fn]].
      intros [|[|[|[|[|k]]]]]; reflexivity. }
    cbn [W wt C ct qcfg with_queues]. rewrite EW. auto.
  - unfold Ke in *. cbn [cfg tailTrack refresh nextReconf cnt utime lcall setWd]. rewrite E1, E2, E3, E4, E5, E6. exact He.
  - intros x Ux. change (used q x = false) in Ux. destruct (Hu x Ux) as (A & B).
    assert (D : x <> n) by congruence.
    split.
    + unfold members in *. cbn [H W C with_queues]. rewrite !in_app_iff in *. simpl. intuition congruence.
    + cbn [hot cold tailf lcall setWd]. destruct (Fo x D) as (-> & -> & ->). exact B.
Qed.

Lemma used_member s q n : K s q -> In n (members q) -> used q n = true.
Proof.
  intros (_ & _ & Hu) M. destruct (used q n) eqn:E; auto. destruct (Hu n E) as (X & _). contradiction.
Qed.

Lemma mth_hot s q n : K s q -> In n (H q) ->
  K (lcall s (MoveToHead Hot n)) (with_queues q (n :: remove_node (H q) n) (W q) (C q) (wt q) (ct q)).
Proof.
  intros ((a & b & d & e & Hk) & He & Hu) I0. pose proof Hk as (HJ & EW & Ewt & EC & Ect & HT).
  split; [|split].
  - exists a, b, d, e. split.
    { cbn [H with_queues]. eapply J_ext; [|apply (Jmth _ _ 2 n HJ I0)]. intros [|[|[|[|[|k]]]]]; reflexivity. }
    cbn [W wt C ct qcfg with_queues]. auto.
  - exact He.
  - intros x Ux. destruct (Hu x Ux) as (A & B). split; [|exact B].
    unfold members in *. cbn [H W C with_queues]. rewrite !in_app_iff in *. simpl. rewrite remove_node_in.
    intros [[X|X]|X]; [subst; tauto|tauto|tauto].
Qed.
Lemma mth_warm s q n a b d e : K5 s q a b d e -> Ke s q -> Ku s q -> In n a ->
  K (lcall s (MoveToHead Warm n)) (with_queues q (H q) (n :: remove_node (W q) n) (C q) (wt q) (ct q)).
Proof.
  intros Hk He Hu I0. pose proof Hk as (HJ & EW & Ewt & EC & Ect & HT).
  assert (Nb : ~ In n b). { intros X. assert (0 = 1) by (eapply (J_disj _ _ 0 1 n HJ); auto). discriminate. }
  split; [|split].
  - exists (n :: remove_node a n), b, d, e. split.
    { cbn [H with_queues]. eapply J_ext; [|apply (Jmth _ _ 0 n HJ I0)]. intros [|[|[|[|[|k]]]]]; reflexivity. }
    cbn [W wt C ct qcfg with_queues]. rewrite EW, remove_app, (remove_node_notin b) by auto. auto.
  - exact He.
  - intros x Ux. destruct (Hu x Ux) as (A & B). split; [|exact B].
    assert (MM : In n (members q)). { unfold members. rewrite EW, !in_app_iff. auto. }
    unfold members in *. cbn [H W C with_queues]. rewrite !in_app_iff in *. simpl. rewrite remove_node_in.
    intros X. apply A. rewrite ?in_app_iff in *. intuition (subst; tauto).
Qed.

Lemma with_queues_twice q h w c a b h' w' c' a' b' :
  with_queues (with_queues q h w c a b) h' w' c' a' b' = with_queues q h' w' c' a' b'.
Proof. reflexivity. Qed.
Lemma taken_out_notin (l : list node) n : ~ In n l -> remove_node l n = l.
Proof. apply remove_node_notin. Qed.
Lemma less_notin t l n : ~ In n l -> less t l n = t.
Proof.
  intros N. unfold less. destruct (mem n _) eqn:E; auto. apply mem_in, skipn_in in E. contradiction.
Qed.

Lemma access_core s q n : K s q -> In n (members q) -> inMM s n = true -> exists s1,
  (if hot s n then
         Some (addCnt (lcall s (MoveToHead Hot n))
                 (fun c => mkCnt (S (nHot c)) (nCold c) (nWarm c) (nWarmTail c) (nColdTail c)))
       else if cold s n then
         let s1 := if inTail s n
                   then addCnt (lcall (setTail s n false) (Remove ColdTail n))
                          (fun c => mkCnt (nHot c) (nCold c) (nWarm c) (nWarmTail c) (S (nColdTail c)))
                   else lcall s (Remove Cold n) in
         let s2 := setCold (lcall s1 (LinkAtHead Warm n)) n false in
         let s3 := addCnt s2 (fun c => mkCnt (nHot c) (S (nCold c)) (nWarm c) (nWarmTail c) (nColdTail c)) in
         if rebalOnAccess (cfg s3) then rebalance s3 else Some s3
       else
         let s1 := if inTail s n
                   then addCnt (lcall (lcall (setTail s n false) (Remove WarmTail n)) (LinkAtHead Warm n))
                          (fun c => mkCnt (nHot c) (nCold c) (nWarm c) (S (nWarmTail c)) (nColdTail c))
                   else lcall s (MoveToHead Warm n) in
         Some (addCnt s1 (fun c => mkCnt (nHot c) (nCold c) (S (nWarm c)) (nWarmTail c) (nColdTail c)))) = Some s1 /\
  K s1 (promoted q n) /\ inMM s1 = inMM s.
Proof.
  intros HK M IM. pose proof HK as ((a & b & d & e & Hk) & He & Hu).
  pose proof Hk as (HJ & EW & Ewt & EC & Ect & HT). pose proof HJ as (_ & Fl & _).
  pose proof (proj1 (members_L5 _ _ _ _ _ _ n Hk) M) as (i & I0).
  assert (Li := J_lt _ _ _ _ HJ I0).
  destruct (Fl _ _ I0) as (Fh & Fc & Ft).
  assert (DJ : forall j, j <> i -> ~ In n (L5 a b (H q) d e j)).
  { intros j D X. apply D. eapply J_disj; eauto. }
  assert (Us := used_member _ _ _ HK M).
  assert (NT : ~ In n (members (taken_out q n))). { rewrite taken_members. tauto. }
  assert (UT : used (taken_out q n) n = true) by exact Us.
  assert (Tz : inTail s n = tailf s n).
  { unfold inTail. destruct (Nat.eqb_spec (tailSize (cfg s)) 0) as [Z|Z]; [|reflexivity].
    destruct He as (E1 & _). rewrite E1 in Z. destruct (HT Z) as [-> ->].
    rewrite Ft. destruct i as [|[|[|[|[|i]]]]]; try reflexivity; destruct I0. }
  rewrite Tz, Fh, Fc, Ft.
  destruct i as [|[|[|[|[|i]]]]]; [| | | | |lia]; cbn [Nat.eqb orb andb L5] in *.
  - (* warm *)
    assert (N2 : ~ In n (H q)) by (apply (DJ 2); lia). assert (N3 : ~ In n d) by (apply (DJ 3); lia).
    assert (N4 : ~ In n e) by (apply (DJ 4); lia). assert (N1 : ~ In n b) by (apply (DJ 1); lia).
    eexists. split; [reflexivity|]. split; [|reflexivity].
    unfold promoted. rewrite (proj2 (mem_false n (H q))) by auto.
    rewrite (proj2 (mem_false n (C q))) by (rewrite EC, in_app_iff; tauto).
    assert (Et : in_tail (wt q) (W q) n = false).
    { unfold in_tail. rewrite Ewt, EW, skipn_tail. now apply mem_false. }
    rewrite Et. cbn [b2n]. apply K_count; [|reflexivity].
    pose proof (mth_warm _ _ _ _ _ _ _ Hk He Hu I0) as Kw.
    unfold taken_out. rewrite with_queues_twice. cbn [H W C wt ct with_queues].
    rewrite (remove_node_notin (H q)), (remove_node_notin (C q)), (less_notin _ (C q)) by (auto; rewrite EC, in_app_iff; tauto).
    replace (less (wt q) (W q) n) with (wt q); [exact Kw|].
    unfold less. unfold in_tail in Et. now rewrite Et.
  - (* warm tail *)
    assert (N2 : ~ In n (H q)) by (apply (DJ 2); lia). assert (N3 : ~ In n d) by (apply (DJ 3); lia).
    assert (N4 : ~ In n e) by (apply (DJ 4); lia).
    eexists. split; [reflexivity|]. split; [|reflexivity].
    unfold promoted. rewrite (proj2 (mem_false n (H q))) by auto.
    rewrite (proj2 (mem_false n (C q))) by (rewrite EC, in_app_iff; tauto).
    assert (Et : in_tail (wt q) (W q) n = true).
    { unfold in_tail. rewrite Ewt, EW, skipn_tail. now apply mem_in. }
    rewrite Et. cbn [b2n].
    assert (Kr : K (lcall (setTail s n false) (Remove WarmTail n)) (taken_out q n)).
    { refine (unlink_at s (setTail s n false) q n 1 a b d e Hk He Hu I0 _ _ _ _ _ _ _ _); try reflexivity.
      intros x D. cbn [hot cold tailf setTail]. rewrite updb_other by auto. auto. }
    assert (Kl : K (lcall (lcall (setTail s n false) (Remove WarmTail n)) (LinkAtHead Warm n))
        (with_queues (taken_out q n) (H (taken_out q n)) (n :: W (taken_out q n)) (C (taken_out q n)) (wt (taken_out q n)) (ct (taken_out q n)))).
    { refine (link_warm _ _ (taken_out q n) n Kr NT UT _ _ _ _ _ _ _ _ _); try reflexivity; auto.
      cbn [hot cold tailf lcall setWd setTail]. rewrite updb_same, Fh, Fc. auto. }
    match goal with |- K (addCnt (addCnt ?s1 ?f) ?g) _ => 
      change (addCnt (addCnt s1 f) g) with (addCnt s1 (fun c => g (f c))) end.
    apply K_count; [exact Kl|]. reflexivity.
  - (* hot *)
    eexists. split; [reflexivity|]. split; [|reflexivity].
    unfold promoted. rewrite (proj2 (mem_in n (H q))) by auto.
    apply K_count; [|reflexivity]. now apply mth_hot.
  - (* cold *)
    assert (N2 : ~ In n (H q)) by (apply (DJ 2); lia). assert (N4 : ~ In n e) by (apply (DJ 4); lia).
    assert (Kr : K (lcall s (Remove Cold n)) (taken_out q n)).
    { refine (unlink_at s s q n 3 a b d e Hk He Hu I0 _ _ _ _ _ _ _ _); try reflexivity. auto. }
    assert (Kl : K (setCold (lcall (lcall s (Remove Cold n)) (LinkAtHead Warm n)) n false)
        (with_queues (taken_out q n) (H (taken_out q n)) (n :: W (taken_out q n)) (C (taken_out q n)) (wt (taken_out q n)) (ct (taken_out q n)))).
    { refine (link_warm _ (setCold (lcall s (Remove Cold n)) n false) (taken_out q n) n Kr NT UT _ _ _ _ _ _ _ _ _); try reflexivity; auto.
      - intros x D. cbn [hot cold tailf setCold]. rewrite updb_other by auto. auto.
      - cbn [hot cold tailf lcall setWd setCold]. rewrite updb_same, Fh, Ft. auto. }
    cbn zeta. set (s3 := addCnt _ _).
    assert (K3 : K s3 (count (with_queues (taken_out q n) (H (taken_out q n)) (n :: W (taken_out q n)) (C (taken_out q n)) (wt (taken_out q n)) (ct (taken_out q n))) 0 1 0 0 0)).
    { apply K_count; [exact Kl|reflexivity]. }
    unfold promoted. rewrite (proj2 (mem_false n (H q))) by auto.
    rewrite (proj2 (mem_in n (C q))) by (rewrite EC, in_app_iff; tauto).
    assert (Et : in_tail (ct q) (C q) n = false).
    { unfold in_tail. rewrite Ect, EC, skipn_tail. now apply mem_false. }
    rewrite Et. cbn [b2n]. replace (rebalOnAccess (cfg s3)) with (rebalOnAccess (qcfg q)) by (rewrite <- (proj1 He); reflexivity).
    destruct (rebalOnAccess (qcfg q)).
    + destruct (rebalance_ok _ _ K3) as (s' & X & K' & I'). exists s'. split; [exact X|]. split; [exact K'|]. rewrite I'. reflexivity.
    + exists s3. split; [reflexivity|]. split; [exact K3|reflexivity].
  - (* cold tail *)
    assert (N2 : ~ In n (H q)) by (apply (DJ 2); lia).
    assert (Kr : K (lcall (setTail s n false) (Remove ColdTail n)) (taken_out q n)).
    { refine (unlink_at s (setTail s n false) q n 4 a b d e Hk He Hu I0 _ _ _ _ _ _ _ _); try reflexivity.
      intros x D. cbn [hot cold tailf setTail]. rewrite updb_other by auto. auto. }
    assert (Kl : K (setCold (lcall (lcall (setTail s n false) (Remove ColdTail n)) (LinkAtHead Warm n)) n false)
        (with_queues (taken_out q n) (H (taken_out q n)) (n :: W (taken_out q n)) (C (taken_out q n)) (wt (taken_out q n)) (ct (taken_out q n)))).
    { refine (link_warm _ (setCold (lcall (setTail s n false) (Remove ColdTail n)) n false) (taken_out q n) n Kr NT UT _ _ _ _ _ _ _ _ _); try reflexivity; auto.
      - intros x D. cbn [hot cold tailf setCold]. rewrite updb_other by auto. auto.
      - cbn [hot cold tailf lcall setWd setCold setTail]. rewrite !updb_same, Fh. auto. }
    cbn zeta. set (s3 := addCnt _ _).
    assert (K3 : K s3 (count (with_queues (taken_out q n) (H (taken_out q n)) (n :: W (taken_out q n)) (C (taken_out q n)) (wt (taken_out q n)) (ct (taken_out q n))) 0 1 0 0 1)).
    { subst s3. match goal with |- K (addCnt (setCold (lcall (addCnt ?s1 ?f) ?c) ?x ?y) ?g) _ => 
      change (addCnt (setCold (lcall (addCnt s1 f) c) x y) g) with (addCnt (setCold (lcall s1 c) x y) (fun cc => g (f cc))) end.
      apply K_count; [exact Kl|]. reflexivity. }
    unfold promoted. rewrite (proj2 (mem_false n (H q))) by auto.
    rewrite (proj2 (mem_in n (C q))) by (rewrite EC, in_app_iff; tauto).
    assert (Et : in_tail (ct q) (C q) n = true).
    { unfold in_tail. rewrite Ect, EC, skipn_tail. now apply mem_in. }
    rewrite Et. cbn [b2n]. replace (rebalOnAccess (cfg s3)) with (rebalOnAccess (qcfg q)) by (rewrite <- (proj1 He); reflexivity).
    destruct (rebalOnAccess (qcfg q)).
    + destruct (rebalance_ok _ _ K3) as (s' & X & K' & I'). exists s'. split; [exact X|]. split; [exact K'|]. rewrite I'. reflexivity.
    + exists s3. split; [reflexivity|]. split; [exact K3|reflexivity].
Qed.

Lemma promoted_members q n x : In n (members q) -> (In x (members (promoted q n)) <-> In x (members q)).
Proof.
  intros M. unfold promoted. destruct (mem n (H q)) eqn:E.
  - apply mem_in in E. unfold count, with_cfg, members, with_queues. cbn [H W C].
    rewrite !in_app_iff. cbn [In]. rewrite remove_node_in. destruct (Nat.eq_dec x n); subst; intuition congruence.
  - assert (G : forall q', members q' = members (with_queues (taken_out q n) (H (taken_out q n)) (n :: W (taken_out q n)) (C (taken_out q n)) (wt (taken_out q n)) (ct (taken_out q n))) ->
      (In x (members q') <-> In x (members q))).
    { intros q' ->. pose proof (taken_members q n x) as T. unfold members in *. cbn [H W C with_queues taken_out] in *.
      rewrite !in_app_iff in *. cbn [In]. destruct (Nat.eq_dec x n); subst; intuition congruence. }
    destruct (mem n (C q)).
    + cbv zeta. destruct (rebalOnAccess (qcfg q)); [rewrite rebalanced_members|]; apply G; reflexivity.
    + cbv zeta. apply G. reflexivity.
Qed.

Lemma accessLocked_ok s q n now : R s q -> exists s',
  mexec s (MAccessLocked n now) = Some (s', snd (spec_exec q (MAccessLocked n now))) /\
  R s' (fst (spec_exec q (MAccessLocked n now))).
Proof.
  intros HR. cbn [mexec spec_exec]. unfold accessLocked, spec_access.
  destruct (reconf_ok _ _ now HR) as (s1 & -> & R1). set (q1 := spec_reconf q now) in *.
  pose proof (in_mem _ _ n R1) as Em. rewrite Em.
  destruct (mem n (members q1)) eqn:E; cbn [negb]; [|exists s1; auto].
  apply mem_in in E. destruct R1 as (K1 & HI).
  destruct (access_core _ _ _ K1 E Em) as (s2 & X2 & K2 & I2).
  cbv zeta in X2 |- *. match type of X2 with ?t = _ => match goal with |- context [match ?u with Some _ => _ | None => _ end] => change u with t end end. rewrite X2.
  eexists. split; [reflexivity|]. cbn [fst]. split; [now apply K_stamp|].
  intros x. cbn [inMM setTime]. rewrite I2, HI.
  change (members (with_stamp (promoted q1 n) n now)) with (members (promoted q1 n)).
  symmetry. now apply promoted_members.
Qed.

Lemma check_due s q n w now : R s q -> accessCheck s n w now = due q n w now.
Proof.
  intros HR. unfold accessCheck, due. rewrite (in_mem _ _ n HR).
  destruct HR as ((_ & (E1 & _ & E3 & _ & _ & E6 & _) & _) & _). rewrite E1, E3, E6.
  destruct w; cbn [andb orb negb]; rewrite ?orb_false_r; [destruct (updOnWrite (qcfg q))|destruct (updOnRead (qcfg q))];
  cbn [andb orb negb]; reflexivity.
Qed.

Lemma setConfig_ok s q c now : R s q -> (hotPct c < 2 ^ 64)%N -> (coldPct c < 2 ^ 64)%N ->
  let (s', b) := setConfig s c now in
  b = good_conf q c /\ R s' (if b then with_cfg q c (defRefresh c) (next_at c now) (qcnt q) else q).
Proof.
  intros (HK & HI) Lh Lc. pose proof HK as (HK5 & (E1 & E2 & E3 & E4 & E5 & E6 & E7 & E8) & Hu).
  unfold setConfig, good_conf. rewrite E2.
  destruct (checkLruSizes c) eqn:Ch; cbn [negb].
  2: { destruct (good_pct c) eqn:G; [|split; [reflexivity|split; auto]].
       apply good_check in G. congruence. }
  rewrite (check_good c Ch Lh Lc).
  destruct (Nat.ltb_spec 0 (tailSize c)) as [L|L]; destruct (track q) eqn:T; cbn [negb andb Bool.eqb];
    try (split; [reflexivity|split; auto; fail]).
  - replace (tailSize c =? 0) with false by (symmetry; apply Nat.eqb_neq; lia). cbn [andb].
    split; [reflexivity|]. split; [|exact HI]. split; [|split].
    + destruct HK5 as (a & b & d & e & Hk). exists a, b, d, e.
      destruct Hk as (HJ & EW & Ewt & EC & Ect & HT). split; [exact HJ|]. cbn. repeat split; auto; lia.
    + unfold Ke, setCfg, with_cfg. cbn. rewrite E2, T, E5. repeat split; auto.
      { exact (check_good c Ch Lh Lc). } { destruct (tailSize c); [lia|reflexivity]. }
    + exact Hu.
  - replace (tailSize c =? 0) with true by (symmetry; apply Nat.eqb_eq; lia).
    split; [reflexivity|]. split; auto.
  - split; [reflexivity|]. split; [|exact HI]. split; [|split].
    + destruct HK5 as (a & b & d & e & Hk). exists a, b, d, e.
      destruct Hk as (HJ & EW & Ewt & EC & Ect & HT). split; [exact HJ|]. cbn. repeat split; auto;
      apply HT; rewrite Nat.ltb_ge in E8; lia.
    + unfold Ke, setCfg, with_cfg. cbn. rewrite E2, T, E5. repeat split; auto.
      { exact (check_good c Ch Lh Lc). } { destruct (tailSize c); [reflexivity|lia]. }
    + exact Hu.
Qed.

Lemma good_lt c : good_pct c = true -> (hotPct c < 2 ^ 64 /\ coldPct c < 2 ^ 64)%N.
Proof.
  intros G. unfold good_pct in G. change (2 ^ 64)%N with 18446744073709551616%N. apply orb_true_iff in G as [G|G].
  - apply andb_true_iff in G as [A B]. apply N.eqb_eq in A. apply N.eqb_eq in B. lia.
  - rewrite !andb_true_iff, !N.leb_le in G. lia.
Qed.

Lemma restart_ok s q t now : R s q -> exists s',
  mexec s (MRestart t now) = Some (s', snd (spec_exec q (MRestart t now))) /\
  R s' (fst (spec_exec q (MRestart t now))).
Proof.
  intros HR. pose proof HR as (HK & HI). pose proof HK as (HK5 & (E1 & E2 & E3 & E4 & E5 & E6 & E7 & E8) & Hu).
  cbn [mexec spec_exec]. unfold restart, setConfig. cbn [tailTrack setCfg tailSize]. rewrite E1, E2, E3.
  set (c2 := mkConf _ _ _ _ _ _ _ t 0).
  assert (G2 : good_pct c2 = true) by exact E7.
  rewrite (good_check _ G2). cbn [negb].
  destruct (Nat.ltb_spec 0 t) as [L|L]; destruct (track q) eqn:T; cbn [negb andb Bool.eqb];
    try (exists s; split; [reflexivity|exact HR]).
  - replace (t =? 0) with false by (symmetry; apply Nat.eqb_neq; lia). cbn [andb].
    eexists. split; [reflexivity|]. cbn [fst]. split; [|exact HI]. split; [|split].
    + destruct HK5 as (a & b & d & e & Hk). exists a, b, d, e.
      destruct Hk as (HJ & EW & Ewt & EC & Ect & HT). split; [exact HJ|]. cbn. repeat split; auto; lia.
    + unfold Ke, setCfg, with_cfg. cbn. rewrite E2, T. repeat split; auto. destruct t; [lia|reflexivity].
    + exact Hu.
  - replace (t =? 0) with true by (symmetry; apply Nat.eqb_eq; lia). exists s; split; [reflexivity|exact HR].
  - eexists. split; [reflexivity|]. cbn [fst]. split; [|exact HI]. split; [|split].
    + destruct HK5 as (a & b & d & e & Hk). exists a, b, d, e.
      destruct Hk as (HJ & EW & Ewt & EC & Ect & HT). split; [exact HJ|]. cbn. repeat split; auto;
      apply HT; rewrite Nat.ltb_ge in E8; lia.
    + unfold Ke, setCfg, with_cfg. cbn. rewrite E2, T. repeat split; auto.
      destruct t; [reflexivity|lia].
    + exact Hu.
Qed.

Lemma fresh_ok s q n : R s q -> ~ In n (members q) -> R (fresh s n) (with_used q n false).
Proof.
  intros (HK & HI) NM. pose proof HK as ((a & b & d & e & Hk) & He & Hu).
  assert (U := proj1 (members_out _ _ _ _ _ _ n Hk) NM).
  assert (Fo : forall x, x <> n -> hot (fresh s n) x = hot s x /\ cold (fresh s n) x = cold s x /\ tailf (fresh s n) x = tailf s x).
  { intros x D. unfold fresh. cbn [hot cold tailf setTail setCold setHot]. rewrite !updb_other by auto. auto. }
  split; [|exact HI]. split; [|split].
  - exists a, b, d, e. destruct Hk as (HJ & Rest). split; [|exact Rest].
    destruct HJ as (Wr & Fl & Big). split; [exact Wr|split; [|exact Big]].
    intros i x X. destruct (Fo x) as (-> & -> & ->); [|exact (Fl _ _ X)]. intros ->. exact (U i X).
  - exact He.
  - intros x Ux. cbn [used with_used] in Ux. unfold updb in Ux. destruct (Nat.eqb_spec x n) as [E|D].
    + rewrite E. split; [exact NM|]. unfold fresh. cbn [hot cold tailf setTail setCold setHot]. rewrite !updb_same. auto.
    + destruct (Fo x D) as (-> & -> & ->). exact (Hu x Ux).
Qed.

Lemma mexec_ok s q c : R s q -> mlegal q c -> exists s',
  mexec s c = Some (s', snd (spec_exec q c)) /\ R s' (fst (spec_exec q c)).
Proof.
  intros HR L. destruct c as [n|n now|n|n|o n|n w now|n now|n w now|c now|t now].
  - exists (fresh s n). split; [reflexivity|]. now apply fresh_ok.
  - now apply add_ok.
  - now apply remove_ok2.
  - now apply evict_ok.
  - now apply replace_ok2.
  - exists s. cbn [mexec spec_exec fst snd]. rewrite (check_due _ _ n w now HR). auto.
  - now apply accessLocked_ok.
  - cbn [mexec spec_exec]. unfold recordAccess. rewrite (check_due _ _ n w now HR).
    destruct (due q n w now); [|exists s; auto].
    destruct (accessLocked_ok _ _ n now HR) as (s' & X & Y). cbn [mexec spec_exec] in X, Y. exists s'. auto.
  - cbn [mexec spec_exec]. destruct L as [L1 L2]. pose proof (setConfig_ok s q c now HR L1 L2) as X.
    destruct (setConfig s c now) as [s' b]. destruct X as (-> & X). exists s'.
    destruct (good_conf q c); auto.
  - now apply restart_ok.
Qed.
Lemma mexecs_ok cs : forall s q, R s q -> mlegals q cs -> exists s',
  mexecs s cs = Some (s', snd (spec_execs q cs)) /\ R s' (fst (spec_execs q cs)).
Proof.
  induction cs as [|c r IH]; intros s q HR L; cbn [mexecs spec_execs].
  - exists s. auto.
  - destruct L as [L1 L2]. destruct (mexec_ok s q c HR L1) as (s1 & -> & R1).
    destruct (spec_exec q c) as [q1 o]. cbn [fst snd] in *.
    destruct (IH s1 q1 R1 L2) as (s2 & -> & R2). destruct (spec_execs q1 r) as [q2 os]. cbn [fst snd] in *.
    exists s2. auto.
Qed.
Lemma init_R c now : good_pct c = true -> R (initMM c now) (init_q c now).
Proof.
  intros G. split; [|intros n; cbn; split; [discriminate|intros []]]. split; [|split].
  - exists [], [], [], []. split; [|cbn; auto 12]. split; [|split].
    + eapply wrep_ext; [|exact init_wrep]. intros [|[|[|[|[|k]]]]]; reflexivity.
    + intros [|[|[|[|[|i]]]]] n X; destruct X.
    + intros [|[|[|[|[|i]]]]] X; reflexivity.
  - unfold Ke. cbn. auto 10.
  - intros n _. cbn. auto.
Qed.
