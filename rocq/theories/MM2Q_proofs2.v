(** Proofs for C06, part 2: refinement of the three-queue specification. *)
From Verif Require Import Bytes DList_model DList_spec DList_proofs MM2Q_model MM2Q_spec MM2Q_proofs.
Ltac Zify.zify_post_hook ::= idtac.

Definition K5 (s : mm) (q : q2) (a b d e : list node) : Prop :=
  J s (L5 a b (H q) d e) /\ W q = a ++ b /\ wt q = length b /\ C q = d ++ e /\ ct q = length e /\
  (tailSize (qcfg q) = 0 -> b = [] /\ e = []).
Definition Ke (s : mm) (q : q2) : Prop :=
  cfg s = qcfg q /\ tailTrack s = track q /\ refresh s = ref_of q /\ nextReconf s = next_of q /\
  cnt s = qcnt q /\ utime s = stamp q /\ good_pct (qcfg q) = true /\
  (0 <? tailSize (qcfg q)) = track q.
Definition Ku (s : mm) (q : q2) : Prop :=
  forall n, used q n = false -> ~ In n (members q) /\ hot s n = false /\ cold s n = false /\ tailf s n = false.
Definition K (s : mm) (q : q2) : Prop := (exists a b d e, K5 s q a b d e) /\ Ke s q /\ Ku s q.
Definition R (s : mm) (q : q2) : Prop := K s q /\ (forall n, inMM s n = true <-> In n (members q)).

Lemma mem_in n l : mem n l = true <-> In n l.
Proof.
  unfold mem. rewrite existsb_exists. split.
  - intros (x & I0 & E). apply Nat.eqb_eq in E. now subst.
  - intros I0. exists n. split; auto. apply Nat.eqb_refl.
Qed.
Lemma mem_false n l : mem n l = false <-> ~ In n l.
Proof. rewrite <- mem_in. destruct (mem n l); intuition congruence. Qed.

Lemma members_L5 s q a b d e n : K5 s q a b d e ->
  (In n (members q) <-> exists i, In n (L5 a b (H q) d e i)).
Proof.
  intros (_ & EW & _ & EC & _). unfold members. rewrite EW, EC, !in_app_iff. split.
  - intros [X|[[X|X]|[X|X]]]; [exists 2|exists 0|exists 1|exists 3|exists 4]; exact X.
  - intros ([|[|[|[|[|i]]]]] & X); cbn in X; tauto.
Qed.
Lemma members_out s q a b d e n : K5 s q a b d e ->
  (~ In n (members q) <-> unlinked_out (L5 a b (H q) d e) n).
Proof.
  intros Hk. rewrite (members_L5 _ _ _ _ _ _ n Hk). unfold unlinked_out. split.
  - intros X i Y. apply X. eauto.
  - intros X (i & Y). eapply X; eauto.
Qed.

Lemma warm_pct_ok c : good_pct c = true -> warmPct c = warm_pct c.
Proof.
  unfold good_pct, warmPct, warm_pct. intros G.
  assert (L : (hotPct c + coldPct c <= 100)%N).
  { apply orb_true_iff in G as [G|G].
    - apply andb_true_iff in G as [A B]. apply N.eqb_eq in A. apply N.eqb_eq in B. lia.
    - apply andb_true_iff in G as [_ A]. apply N.leb_le in A. lia. }
  clear G. assert (B : (SIZE_MOD = 18446744073709551616)%N) by reflexivity. rewrite B.
  rewrite !(N.mod_small (hotPct c)), !(N.mod_small (coldPct c)) by lia.
  replace (100 + 2 * 18446744073709551616 - hotPct c - coldPct c)%N
    with ((100 - hotPct c - coldPct c) + 2 * 18446744073709551616)%N by lia.
  rewrite N.mod_add by lia. apply N.mod_small. lia.
Qed.
Lemma check_good c : checkLruSizes c = true -> (hotPct c < SIZE_MOD)%N -> (coldPct c < SIZE_MOD)%N -> good_pct c = true.
Proof.
  unfold checkLruSizes, good_pct, warmPct. intros G Hh Hc.
  rewrite !(N.mod_small (hotPct c)), !(N.mod_small (coldPct c)) in G by assumption.
  assert (B : (SIZE_MOD = 18446744073709551616)%N) by reflexivity. rewrite B in *.
  destruct (N.eqb_spec (hotPct c) 100) as [E|E].
  - rewrite E in G. destruct (N.eqb_spec (coldPct c) 0); auto. exfalso.
    cbn [negb andb] in G. destruct (N.eqb_spec ((100 + 2 * 18446744073709551616 - 100 - coldPct c) mod 18446744073709551616) 0) as [Z|Z];
      [|discriminate].
    replace (100 + 2 * 18446744073709551616 - 100 - coldPct c)%N
      with ((18446744073709551616 - coldPct c) + 1 * 18446744073709551616)%N in Z by lia.
    rewrite N.mod_add, N.mod_small in Z by lia. lia.
  - cbn [orb andb]. apply negb_true_iff in G. rewrite !orb_false_iff in G.
    destruct G as (((((A & B1) & D) & F) & G1) & G2).
    apply N.leb_gt in A, D, F, G1, G2. apply N.ltb_ge in B1.
    assert (X : (hotPct c + coldPct c <= 99)%N).
    { destruct (N.le_gt_cases (hotPct c + coldPct c) 100) as [L|L].
      - replace (100 + 2 * 18446744073709551616 - hotPct c - coldPct c)%N
          with ((100 - hotPct c - coldPct c) + 2 * 18446744073709551616)%N in G1 by lia.
        rewrite N.mod_add, N.mod_small in G1 by lia. lia.
      - replace (100 + 2 * 18446744073709551616 - hotPct c - coldPct c)%N
          with ((100 + 18446744073709551616 - hotPct c - coldPct c) + 1 * 18446744073709551616)%N in G2 by lia.
        rewrite N.mod_add, N.mod_small in G2 by lia. lia. }
    rewrite !andb_true_iff, !N.leb_le. lia.
Qed.
Lemma good_check c : good_pct c = true -> checkLruSizes c = true.
Proof.
  intros G. pose proof (warm_pct_ok c G) as E. unfold checkLruSizes. rewrite E. clear E.
  unfold good_pct, warm_pct in *. apply orb_true_iff in G as [G|G].
  - apply andb_true_iff in G as [A B]. rewrite A, B. reflexivity.
  - rewrite !andb_true_iff, !N.leb_le in G. destruct G as ((A & B) & D).
    destruct (N.eqb_spec (hotPct c) 100); [lia|]. apply negb_true_iff. rewrite !orb_false_iff.
    rewrite !N.leb_gt, N.ltb_ge. lia.
Qed.

Lemma members_perm_len s q a b d e : K5 s q a b d e -> total s = length (members q).
Proof.
  intros (HJ & EW & _ & EC & _). rewrite (J_total _ _ _ _ _ _ HJ). unfold members.
  rewrite EW, EC, !app_length. lia.
Qed.

Lemma firstn_in {A} k (l : list A) x : In x (firstn k l) -> In x l.
Proof. intros X. rewrite <- (firstn_skipn k l). apply in_or_app. auto. Qed.
Lemma skipn_in {A} k (l : list A) x : In x (skipn k l) -> In x l.
Proof. intros X. rewrite <- (firstn_skipn k l). apply in_or_app. auto. Qed.
Lemma fs_in {A} k (l : list A) x : In x l <-> In x (firstn k l) \/ In x (skipn k l).
Proof. rewrite <- in_app_iff, firstn_skipn. tauto. Qed.

Lemma rebalanced_members q n : In n (members (rebalanced q)) <-> In n (members q).
Proof.
  unfold rebalanced, with_queues, members. cbn [H W C].
  set (eh := share _ _). set (ew := share _ _).
  rewrite !in_app_iff. rewrite (fs_in eh (H q)), (fs_in ew (W q)). tauto.
Qed.

Lemma rebalance_ok s q : K s q -> exists s', rebalance s = Some s' /\ K s' (rebalanced q) /\ inMM s' = inMM s.
Proof.
  intros ((a & b & d & e & Hk) & He & Hu). pose proof Hk as (HJ & EW & Ewt & EC & Ect & HT).
  pose proof (members_perm_len _ _ _ _ _ _ Hk) as Et.
  destruct He as (E1 & E2 & E3 & E4 & E5 & E6 & E7 & E8).
  unfold rebalance. rewrite Et, E1, warm_pct_ok by assumption.
  pose proof (J_total _ _ _ _ _ _ HJ) as Tot. rewrite Et in Tot.
  set (n := length (members q)) in *. set (ew := expected (warm_pct (qcfg q)) n).
  destruct (shrinkWarm_ok ew (S n) s _ _ _ _ _ HJ) as (s1 & X1 & J1 & F1 & O1); [lia|].
  rewrite X1. assert (T1 : total s1 = n).
  { rewrite (J_total _ _ _ _ _ _ J1). rewrite !app_length, !firstn_length, !skipn_length, !app_length. lia. }
  rewrite T1. replace (cfg s1) with (qcfg q) by (destruct F1; intuition congruence).
  set (eh := expected (hotPct (qcfg q)) n).
  destruct (shrinkHot_ok eh (S n) s1 _ _ _ _ _ J1) as (s2 & X2 & J2 & F2 & O2); [lia|].
  rewrite X2.
  assert (Ec2 : cfg s2 = qcfg q) by (unfold frame in *; intuition congruence).
  set (a1 := firstn ew a) in *. set (b1 := firstn (ew - length a) b) in *.
  set (d1 := skipn eh (H q) ++ skipn ew (a ++ b) ++ d) in *.
  destruct (adjustCold_ok (S n) s2 _ _ _ _ _ J2) as (s3 & X3 & J3 & F3 & O3).
  { subst d1. rewrite !app_length, !skipn_length, !app_length. lia. }
  rewrite X3. rewrite Ec2 in J3.
  assert (Ec3 : cfg s3 = qcfg q) by (unfold frame in *; intuition congruence).
  destruct (adjustWarm_ok (S n) s3 _ _ _ _ _ J3) as (s4 & X4 & J4 & F4 & O4).
  { subst a1. rewrite firstn_length. lia. }
  rewrite Ec3 in J4. exists s4. split; [exact X4|].
  set (T := tailSize (qcfg q)) in *. set (k2 := cut T d1 e) in *. set (k1 := cut T a1 b1) in *.
  assert (Fr : frame s s4) by (eapply frame_trans; [|exact F4]; eapply frame_trans; [|exact F3]; eapply frame_trans; eauto).
  split; [|unfold frame in Fr; intuition].
  assert (EWq : firstn ew (W q) = a1 ++ b1) by (rewrite EW, firstn_app; reflexivity).
  assert (La1 : length a1 = Nat.min ew (length a)) by apply firstn_length.
  assert (Lb1 : length b1 = Nat.min (ew - length a) (length b)) by apply firstn_length.
  split; [|split].
  - exists (firstn k1 a1), (skipn k1 a1 ++ b1), (firstn k2 d1), (skipn k2 d1 ++ e).
    unfold rebalanced, with_queues. cbn [H W C wt ct qcfg].
    change (share (warm_pct (qcfg q)) (length (members q))) with ew.
    change (share (hotPct (qcfg q)) (length (members q))) with eh.
    rewrite EWq. split; [exact J4|]. cbn [W wt C ct qcfg].
    split; [now rewrite app_assoc, firstn_skipn|].
    split. { fold T. unfold grow. rewrite !app_length, skipn_length, Ewt, EW, app_length, La1, Lb1. subst k1. unfold cut. rewrite La1, Lb1. lia. }
    split. { rewrite (app_assoc (firstn k2 d1)), firstn_skipn. subst d1. rewrite <- !app_assoc. rewrite EW, EC. reflexivity. }
    split. { fold T. unfold grow. rewrite !app_length, !skipn_length, EC, EW, Ect, !app_length. subst k2. unfold cut. subst d1.
             rewrite !app_length, !skipn_length, !app_length. lia. }
    fold T. intros HT0. destruct (HT HT0) as [-> ->].
    subst k1 k2. unfold cut. rewrite HT0. cbn [length]. rewrite !Nat.sub_0_r.
    rewrite !skipn_all2 by lia. subst b1. rewrite firstn_nil. auto.
  - unfold frame in Fr. unfold Ke, rebalanced, with_queues. cbn. intuition congruence.
  - intros x U. change (used q x = false) in U. destruct (Hu x U) as (A & B1 & B2 & B3).
    rewrite rebalanced_members. split; [exact A|].
    apply (members_out _ _ _ _ _ _ x Hk) in A. pose proof A as A0. apply L5_out in A0.
    destruct (O1 x A) as (Y1 & Y2 & Y3). destruct (O2 x) as (Z1 & Z2 & Z3).
    { apply L5_out. intros X. apply A0. clear -X. rewrite !in_app_iff in *.
      rewrite (fs_in ew (a ++ b)) in X || idtac. subst a1 b1.
      repeat match goal with H : _ \/ _ |- _ => destruct H as [H|H] end; eauto using firstn_in; auto;
        try (apply skipn_in in X; rewrite in_app_iff in X); try apply firstn_in in X; tauto. }
    destruct (O3 x) as (V1 & V2 & V3).
    { apply L5_out. intros X. apply A0. clear -X. subst a1 b1 d1. rewrite !in_app_iff in *.
      repeat match goal with H : _ \/ _ |- _ => destruct H as [H|H] end; 
        try apply firstn_in in X; try apply skipn_in in X; rewrite ?in_app_iff in X; try tauto. }
    destruct (O4 x) as (U1 & U2 & U3).
    { apply L5_out. intros X. apply A0. clear -X. subst a1 b1 d1 k2. rewrite !in_app_iff in *.
      repeat match goal with H : _ \/ _ |- _ => destruct H as [H|H] end; 
        repeat first [apply firstn_in in X | apply skipn_in in X]; rewrite ?in_app_iff in X; try tauto.
      all: repeat match goal with H : _ \/ _ |- _ => destruct H as [H|H] end;
        repeat first [apply firstn_in in X | apply skipn_in in X]; rewrite ?in_app_iff in X; try tauto. }
    repeat split; congruence.
Qed.

(** Primitive steps on the lists. *)
Lemma Jrem s l i n : J s l -> In n (l i) -> J (lcall s (Remove i n)) (fun k => remove_node (l k) n).
Proof.
  intros HJ I0. pose proof HJ as (Wr & Fl & Big). split; [|split].
  - eapply wrep_ext; [|apply (call_ok _ _ _ Wr); exact I0].
    intros k. cbn [spec_call]. unfold set_seq. destruct (Nat.eqb_spec k i); [subst; reflexivity|].
    symmetry. apply remove_node_notin. intros X. apply n0. eapply J_disj; eauto.
  - intros k x X. apply remove_node_in in X as [X _]. exact (Fl _ _ X).
  - intros k Hk. rewrite Big by auto. reflexivity.
Qed.
Lemma Jlink s0 s l j n : J s0 l -> unlinked_out l n -> j < 5 -> wd s = wd s0 ->
  (forall x, x <> n -> hot s x = hot s0 x /\ cold s x = cold s0 x /\ tailf s x = tailf s0 x) ->
  (hot s n = (j =? 2) /\ cold s n = ((j =? 3) || (j =? 4)) /\ tailf s n = ((j =? 1) || (j =? 4))) ->
  J (lcall s (LinkAtHead j n)) (fun k => if k =? j then n :: l j else l k).
Proof.
  intros HJ U Lt Ew Fo Fn. pose proof HJ as (Wr & Fl & Big). split; [|split].
  - cbn [wd lcall setWd]. rewrite Ew. apply (call_ok _ _ (LinkAtHead j n) Wr). exact U.
  - intros k x. cbn [hot cold tailf lcall setWd]. intros X.
    destruct (Nat.eq_dec x n) as [->|D].
    + destruct (Nat.eqb_spec k j) as [E|D]; [rewrite E; exact Fn|]. destruct (U _ X).
    + destruct (Fo x D) as (-> & -> & ->). destruct (Nat.eqb_spec k j) as [E|D2].
      * rewrite E. destruct X as [X|X]; [congruence|]. exact (Fl _ _ X).
      * exact (Fl _ _ X).
  - intros k Hk. destruct (Nat.eqb_spec k j); [lia|]. auto.
Qed.
Lemma Jmth s l i n : J s l -> In n (l i) ->
  J (lcall s (MoveToHead i n)) (fun k => if k =? i then n :: remove_node (l i) n else l k).
Proof.
  intros HJ I0. pose proof HJ as (Wr & Fl & Big). split; [|split].
  - apply (call_ok _ _ (MoveToHead i n) Wr). exact I0.
  - intros k x X. apply Fl. destruct (Nat.eqb_spec k i) as [E|D]; [rewrite E|exact X].
    destruct X as [<-|X]; [exact I0|]. apply remove_node_in in X. tauto.
  - intros k Hk. destruct (Nat.eqb_spec k i) as [E|D]; [|auto]. rewrite Big in I0 by lia. destruct I0.
Qed.
Lemma Jrepl s l s' i o n : J s l -> In o (l i) -> unlinked_out l n ->
  wd s' = doCall (wd s) (Replace i o n) ->
  (forall x, x <> n -> hot s' x = hot s x /\ cold s' x = cold s x /\ tailf s' x = tailf s x) ->
  (hot s' n = (i =? 2) /\ cold s' n = ((i =? 3) || (i =? 4)) /\ tailf s' n = ((i =? 1) || (i =? 4))) ->
  J s' (fun k => replace_node (l k) o n).
Proof.
  intros HJ I0 U Ew Fo Fn. pose proof HJ as (Wr & Fl & Big). split; [|split].
  - rewrite Ew. eapply wrep_ext; [|apply (call_ok _ _ _ Wr); split; [exact I0|exact U]].
    intros k. cbn [spec_call]. unfold set_seq. destruct (Nat.eqb_spec k i); [subst; reflexivity|].
    symmetry. apply replace_node_notin. intros X. apply n0. eapply J_disj; eauto.
  - intros k x X. unfold replace_node in X. apply in_map_iff in X as (y & Ey & Iy).
    destruct (Nat.eqb_spec y o).
    + subst. assert (k = i) by (eapply J_disj; eauto). subst k. exact Fn.
    + subst. destruct (Fo x) as (-> & -> & ->); [|exact (Fl _ _ Iy)]. intros ->. destruct (U k Iy).
  - intros k Hk. rewrite Big by auto. reflexivity.
Qed.

Lemma type_ok s q a b d e i n : K5 s q a b d e -> cfg s = qcfg q -> In n (L5 a b (H q) d e i) -> getLruType s n = i.
Proof.
  intros (HJ & _ & _ & _ & _ & HT) Ec I0. pose proof HJ as (_ & Fl & _).
  destruct (Fl _ _ I0) as (E1 & E2 & E3). unfold getLruType, inTail. rewrite E1, E2, E3, Ec.
  destruct (Nat.eqb_spec (tailSize (qcfg q)) 0) as [Z|Z].
  - destruct (HT Z) as [-> ->]. destruct i as [|[|[|[|[|i]]]]]; try reflexivity; destruct I0.
  - destruct i as [|[|[|[|[|i]]]]]; try reflexivity; destruct I0.
Qed.

Lemma len_remove l n : NoDup l -> length (remove_node l n) = if mem n l then length l - 1 else length l.
Proof.
  intros ND. destruct (mem n l) eqn:E.
  - apply mem_in, in_split in E as (x & y & ->). apply nodup_mid in ND as (A & B & _).
    rewrite remove_node_mid by auto. rewrite !app_length. simpl. lia.
  - apply mem_false in E. now rewrite remove_node_notin.
Qed.
Lemma skipn_tail (x y : list node) : skipn (length (x ++ y) - length y) (x ++ y) = y.
Proof. rewrite app_length, Nat.add_sub. rewrite skipn_app, skipn_all2, Nat.sub_diag by lia. reflexivity. Qed.
Lemma remove_app l1 l2 n : remove_node (l1 ++ l2) n = remove_node l1 n ++ remove_node l2 n.
Proof. unfold remove_node. apply filter_app. Qed.
Lemma replace_app l1 l2 o n : replace_node (l1 ++ l2) o n = replace_node l1 o n ++ replace_node l2 o n.
Proof. unfold replace_node. apply map_app. Qed.

Lemma taken_members q n x : In x (members (taken_out q n)) <-> In x (members q) /\ x <> n.
Proof.
  unfold taken_out, members, with_queues. cbn [H W C]. rewrite !in_app_iff, !remove_node_in. tauto.
Qed.

Lemma unlink_ok2 s q n : K s q -> In n (members q) ->
  K (lcall s (Remove (getLruType s n) n)) (taken_out q n).
Proof.
  intros ((a & b & d & e & Hk) & He & Hu) I0. pose proof Hk as (HJ & EW & Ewt & EC & Ect & HT).
  apply (members_L5 _ _ _ _ _ _ n Hk) in I0 as (i & I0).
  rewrite (type_ok _ _ _ _ _ _ _ _ Hk (proj1 He) I0).
  split; [|split].
  - exists (remove_node a n), (remove_node b n), (remove_node d n), (remove_node e n).
    unfold taken_out, with_queues. split.
    { cbn [H]. eapply J_ext; [|apply (Jrem _ _ _ _ HJ I0)]. intros [|[|[|[|[|k]]]]]; reflexivity. }
    cbn [W wt C ct qcfg]. rewrite EW, EC, !remove_app.
    pose proof (J_nodup _ _ 1 HJ) as N1. pose proof (J_nodup _ _ 4 HJ) as N4. cbn in N1, N4.
    rewrite !len_remove by assumption. unfold less. rewrite Ewt, Ect, !skipn_tail.
    do 4 (split; [reflexivity|]). intros Z; destruct (HT Z) as [-> ->]; split; reflexivity.
  - exact He.
  - intros x U. destruct (Hu x U) as (A & B). split; [|exact B]. rewrite taken_members. tauto.
Qed.
