(** Every step preserves the base invariant. *)
From Coq Require Import List Arith Bool Lia.
Import ListNotations.
From Verif Require Import MoveWait_model MoveWait_proofs1 MoveWait_proofs2.

Lemma base_ext s t : (forall a, mem t a = mem s a) -> idx t = idx s -> trys t = trys s -> mvs t = mvs s -> held t = held s ->
  Base s -> Base t.
Proof.
  intros M I T V H [B1 B2 B3 B4 B5 B6 B7 B8].
  assert (BU : forall a, busy t a = busy s a) by (intros; unfold busy; now rewrite H, V).
  constructor; rewrite ?I, ?T, ?V, ?H.
  - intros k a. rewrite M. apply B1.
  - intros m a P Q. specialize (B2 m a P Q). unfold okown in *. rewrite M, BU.
    destruct B2 as (X & Y & Z). split; [auto|split; [auto|]].
    unfold stage, noidx in *. rewrite M, I. exact Z.
  - unfold owners. rewrite V. exact B3.
  - intros a. rewrite M. apply B4.
  - intros a. rewrite M. apply B5.
  - intros a k. rewrite M. apply B6.
  - intros m a. rewrite M. apply B7.
  - intros w a. rewrite M. apply B8.
Qed.

Lemma own_pc s l1 m l2 a m' : Base s -> mvs s = l1 ++ m :: l2 -> ownl m = [a] ->
  ownl m' = [a] \/ ownl m' = [] ->
  (forall x, mholds x m' = true -> mholds x m = true \/ clive (mem s x) = true /\ ~ In x (owners s)) ->
  let t := w_mvs s (l1 ++ m' :: l2) in
  (ownl m' = [a] -> stage t m' a) ->
  (cmov (mem s a) = true -> movst m' = true /\ ownl m' = [a]) -> (cexc (mem s a) = true -> m' = MEvU a) -> Base t.
Proof.
  intros B E O O' H t S M X.
  assert (L : clive (mem s a) = true).
  { destruct (b_own s B m a) as (L & _); [rewrite E; apply in_mid; auto|rewrite O; left; reflexivity|exact L]. }
  apply (base_ext (w_mvs (w_mem s a (mem s a)) (l1 ++ m' :: l2))); try reflexivity.
  - intros b. cbn. unfold upd. destruct (a =? b) eqn:Q; [apply Nat.eqb_eq in Q; congruence|auto].
  - eapply own_step; eauto. intros Z. specialize (S Z). unfold stage in *. cbn [mem w_mem w_mvs]. rewrite upd_eq. exact S.
Qed.

Lemma owned s l1 m l2 a : Base s -> mvs s = l1 ++ m :: l2 -> ownl m = [a] -> okown s m a.
Proof. intros B E O. apply (b_own s B); [rewrite E; apply in_mid; auto|rewrite O; left; reflexivity]. Qed.

Lemma acquired_ok s k a : Base s -> idx s k = Some a -> cmov (mem s a) = false -> okans s (acquired s a).
Proof.
  intros B H M b. unfold acquired. destruct (cexc (mem s a)) eqn:X; [discriminate|]. intros [= <-].
  split; [eapply b_idx; eauto|eapply idx_free_not_owned; eauto].
Qed.
Lemma mh_ok s m n : Base s -> In m (mvs s) -> mholds n m = true -> okans s (Some n).
Proof.
  intros B I H b [= <-]. split; [eapply b_mh; eauto|]. apply busy_not_owned; [auto|].
  unfold busy. apply orb_true_iff. right. apply existsb_exists. eauto.
Qed.
Lemma enqueue_same visits s a w : same5 s (enqueue visits s a w).
Proof. unfold enqueue. destruct (addTo _ _ _ _ _); repeat split. Qed.
Lemma ask_same s k : same5 s (ask s k). Proof. repeat split. Qed.
Lemma emit_same s e : same5 s (emit s e). Proof. repeat split. Qed.

(** The unlinking step at the start of an eviction. *)
Lemma unindex_base s a : Base s -> locked s (ckey (mem s a)) = false ->
  let t := if indexed s a then w_idx s (ckey (mem s a)) None else s in
  Base t /\ noidx t a /\ mem t = mem s /\ mvs t = mvs s /\ held t = held s /\ (forall b, busy t b = busy s b).
Proof.
  intros B L t. subst t. destruct (indexed s a) eqn:I.
  - split; [now apply idx_none_base|]. split; [|repeat split].
    intros k H. cbn in H. unfold upd in H. destruct (ckey (mem s a) =? k) eqn:E; [discriminate|].
    apply Nat.eqb_neq in E. apply E. symmetry. apply (b_idx s B k a) in H. destruct H. auto.
  - split; [auto|]. split; [now apply indexed_false|repeat split].
Qed.

Lemma moverStep_base visits s i m c s' : Base s -> nth_error (mvs s) i = Some m -> moverStep visits s i m c = Some s' -> Base s'.
Proof.
  intros B N H. destruct (split_nth _ _ _ N) as (l1 & l2 & E & LEN & U).
  assert (IN : In m (mvs s)) by (rewrite E; apply in_mid; auto).
  destruct m as [a|a n|a n|a|a|a|a|p|p|p k|p k w|p k v|]; cbn [moverStep] in H; unfold go in H.
  - (* MReg *)
    destruct (owned s l1 _ l2 a B E eq_refl) as (LA & BA & (SM & SX)).
    destruct c as [n|].
    + destruct (clive (mem s n) || locked s (ckey (mem s a))) eqn:G; [discriminate|].
      apply orb_false_iff in G. destruct G as (D & LK).
      destruct (indexed s a) eqn:I.
      * injection H as <-. cbn [mvs w_idx w_mem]. rewrite U.
        pose proof (new_base s (ckey (mem s a)) n B D LK) as B1.
        set (s1 := w_idx (w_mem s n (mkC (ckey (mem s a)) true true false false)) (ckey (mem s a)) (Some n)) in *.
        assert (NE : n <> a) by congruence.
        assert (MA : mem s1 a = mem s a) by (cbn; now apply upd_ne).
        apply (own_pc s1 l1 (MReg a) l2 a); auto; try (rewrite MA; congruence).
        -- intros x Hx. cbn in Hx. apply Nat.eqb_eq in Hx. subst x. right. cbn. rewrite upd_eq. split; [reflexivity|].
           apply (new_not_owned s n B D).
        -- intros _. cbn [stage w_mvs mem]. rewrite MA. split; [auto|]. split; [auto|].
           intros k Hk. cbn [w_mvs idx s1 w_idx] in Hk. unfold upd in Hk.
           destruct (ckey (mem s a) =? k) eqn:Q; [congruence|]. apply Nat.eqb_neq in Q. apply Q.
           apply (b_idx s B k a) in Hk. destruct Hk. auto.
      * injection H as <-. rewrite U. apply (own_pc s l1 (MReg a) l2 a); auto; try congruence; try (intros x Hx; discriminate); try (intros _; cbn; auto; fail).
    + injection H as <-. rewrite U. apply (own_pc s l1 (MReg a) l2 a); auto; try congruence; try (intros x Hx; discriminate); try (intros _; cbn; auto; fail).
  - (* MUnm *)
    destruct (owned s l1 _ l2 a B E eq_refl) as (LA & BA & (SM & SX & SN)).
    injection H as <-. cbn [mvs w_mem]. rewrite U. eapply (own_step s l1 (MUnm a n) l2 a); eauto; cbn; try congruence.
    intros _. rewrite upd_eq. cbn. auto.
  - (* MWake *)
    destruct (owned s l1 _ l2 a B E eq_refl) as (LA & BA & (SM & SX & SL & SN)).
    assert (OK : okans s (Some n)) by (eapply mh_ok; eauto; cbn; apply Nat.eqb_refl).
    destruct (wake_base visits s (ckey (mem s a)) (Some n) B OK) as (B1 & OK1).
    destruct (wake_frame visits s (ckey (mem s a)) (Some n)) as (F1 & F2 & F3 & F4 & F5).
    pose proof (wake_nth visits s (ckey (mem s a)) (Some n) i _ N eq_refl) as N1.
    set (s1 := wake visits s (ckey (mem s a)) (Some n)) in *.
    destruct (split_nth _ _ _ N1) as (k1 & k2 & E1 & LEN1 & U1).
    destruct (F5 a) as (G1 & G2 & G3 & G4 & G5).
    injection H as <-. rewrite U1.
    assert (B2 : Base (w_mvs s1 (k1 ++ MFree a :: k2))).
    { apply (own_pc s1 k1 (MWake a n) k2 a); auto; try congruence; try (intros x Hx; discriminate); try (intros _; cbn; auto; fail).
      intros _. cbn. unfold noidx in *. cbn. rewrite F1. repeat split; try congruence; auto. }
    apply unref_base; [exact B2|]. unfold owners. cbn. rewrite flat_map_app. cbn.
    destruct (OK1 n eq_refl) as (_ & Q). unfold owners in Q. rewrite E1, flat_map_app in Q. exact Q.
  - (* MFree *)
    destruct (owned s l1 _ l2 a B E eq_refl) as (LA & BA & (SM & SX & SL & SN)).
    injection H as <-. cbn [mvs w_mem]. rewrite U.
    assert (B1 : Base (w_mvs s (l1 ++ MDone :: l2))).
    { apply (own_pc s l1 (MFree a) l2 a); auto; try congruence; try (intros x Hx; discriminate); try (intros _; cbn; auto; fail). }
    apply (die_base (w_mvs s (l1 ++ MDone :: l2)) a (c_live (mem s a) false) B1); cbn; auto.
    split; [exact SN|]. split.
    + apply busy_false in BA. apply busy_false. cbn. split; [apply BA|]. intros x P. apply in_mid in P.
      destruct P as [->|P]; [reflexivity|]. apply BA. rewrite E. apply in_mid. auto.
    + pose proof (b_uniq s B) as Q. unfold owners in *. cbn. rewrite E, flat_map_app in Q. rewrite flat_map_app. cbn in *.
      apply NoDup_remove_2 in Q. exact Q.
  - (* MEv *)
    destruct (owned s l1 _ l2 a B E eq_refl) as (LA & BA & (SM & SX)).
    injection H as <-. cbn [mvs w_mem]. rewrite U. eapply (own_step s l1 (MEv a) l2 a); eauto; cbn; try congruence.
    intros _. rewrite upd_eq. cbn. auto.
  - (* MEvU *)
    destruct (owned s l1 _ l2 a B E eq_refl) as (LA & BA & (SM & SX)).
    destruct (locked s (ckey (mem s a))) eqn:LK; [discriminate|]. injection H as <-. cbn [mvs w_mem emit].
    destruct (unindex_base s a B LK) as (B1 & N1 & M1 & V1 & H1 & U1).
    set (s1 := if indexed s a then w_idx s (ckey (mem s a)) None else s) in *. rewrite V1, U.
    eapply same5_base; [|eapply (own_step s1 l1 (MEvU a) l2 a (c_lnk (c_exc (mem s1 a) false) false) (MEvW a)); eauto; cbn; try congruence].
    + repeat split.
    + intros _. rewrite upd_eq. cbn. rewrite M1. repeat split; auto.
  - (* MEvW *)
    destruct (owned s l1 _ l2 a B E eq_refl) as (LA & BA & (SM & SX & SL & SN)).
    destruct (wake_base visits s (ckey (mem s a)) None B) as (B1 & _); [discriminate|].
    destruct (wake_frame visits s (ckey (mem s a)) None) as (F1 & F2 & F3 & F4 & F5).
    pose proof (wake_nth visits s (ckey (mem s a)) None i _ N eq_refl) as N1.
    set (s1 := wake visits s (ckey (mem s a)) None) in *.
    destruct (split_nth _ _ _ N1) as (k1 & k2 & E1 & LEN1 & U1).
    destruct (F5 a) as (G1 & G2 & G3 & G4 & G5).
    injection H as <-. rewrite U1.
    apply (own_pc s1 k1 (MEvW a) k2 a); auto; try congruence; try (intros x Hx; discriminate); try (intros _; cbn; auto; fail).
    intros _. cbn. unfold noidx in *. cbn. rewrite F1. repeat split; try congruence; auto.
  - (* MChild *)
    destruct (owned s l1 _ l2 p B E eq_refl) as (LA & BA & (SM & SX)).
    destruct c; injection H as <-; rewrite U; apply (own_pc s l1 (MChild p) l2 p); auto; try congruence; try (intros x Hx; discriminate); try (intros _; cbn; auto; fail).
  - (* MCUnm *)
    destruct (owned s l1 _ l2 p B E eq_refl) as (LA & BA & (SM & SX)).
    injection H as <-. cbn [mvs w_mem]. rewrite U. eapply (own_step s l1 (MCUnm p) l2 p); eauto; cbn; try congruence.
  - (* MCFind *)
    destruct (idx s k) as [a|] eqn:I.
    + destruct (cmov (mem s a)) eqn:M.
      * injection H as <-.
        assert (B1 : Base (enqueue visits (ask s k) a (nw s, WMover))).
        { eapply same5_base; [apply enqueue_same|]. eapply same5_base; [apply ask_same|]. exact B. }
        destruct (enqueue_same visits (ask s k) a (nw s, WMover)) as (_ & _ & _ & V & _). rewrite V. cbn [mvs ask]. rewrite U.
        apply (pc_step _ l1 (MCFind p k) l2); auto; try (rewrite V; exact E); try (intros x Hx; discriminate).
      * injection H as <-. rewrite U. apply (pc_step s l1 (MCFind p k) l2); auto.
        intros x Hx. right. apply (acquired_ok s k a B I M x). cbn in Hx. destruct (acquired s a); [|discriminate].
        apply Nat.eqb_eq in Hx. congruence.
    + injection H as <-. rewrite U. apply (pc_step s l1 (MCFind p k) l2); auto; try (intros x Hx; discriminate).
  - discriminate.
  - (* MCWake *)
    assert (OK : okans s v).
    { destruct v as [b|]; [|discriminate]. eapply mh_ok; eauto. cbn. apply Nat.eqb_refl. }
    destruct (wake_base visits s k v B OK) as (B1 & OK1).
    pose proof (wake_nth visits s k v i _ N eq_refl) as N1.
    set (s1 := wake visits s k v) in *.
    destruct (split_nth _ _ _ N1) as (k1 & k2 & E1 & LEN1 & U1).
    injection H as <-. rewrite U1.
    assert (B2 : Base (w_mvs s1 (k1 ++ MDone :: k2))).
    { apply (pc_step s1 k1 (MCWake p k v) k2); auto; try (intros x Hx; discriminate). }
    destruct v as [b|]; [|exact B2]. apply unref_base; [exact B2|]. unfold owners. cbn. rewrite flat_map_app. cbn.
    destruct (OK1 b eq_refl) as (_ & Q). unfold owners in Q. rewrite E1, flat_map_app in Q. exact Q.
  - discriminate.
Qed.

Lemma some_inj {A} (x y : A) : Some x = Some y -> x = y.
Proof. congruence. Qed.
Lemma answer_base1 s w o v : Base s -> okans s v -> Base (answer s w o v).
Proof. intros B K. exact (proj1 (answer_base s w o v B K)). Qed.

Lemma step_base visits pin s x s' : Base s -> step visits pin s x = Some s' -> Base s'.
Proof.
  intros B H. destruct x as [k a|k|i|i|i|a|a|a|i c]; cbn [step] in H.
  - destruct (clive (mem s a) || locked s k) eqn:G; [discriminate|]. apply orb_false_iff in G. destruct G as (D & L).
    pose proof (new_base s k a B D L) as B1.
    assert (B2 : Base (w_idx (w_held (w_mem s a (mkC k true true false false)) ((a, k) :: held s)) k (Some a))).
    { pose proof (held_base _ a B1) as Q. cbn in Q. rewrite upd_eq in Q. cbn in Q. apply Q; [reflexivity|].
      apply (new_not_owned s a B D). }
    set (s1 := w_idx (w_held (w_mem s a (mkC k true true false false)) ((a, k) :: held s)) k (Some a)) in *.
    destruct (idx s k) as [o|] eqn:I; [|now injection H as <-].
    assert (B3 : Base (emit (ask s1 k) (EIns (nw s) k a))) by (eapply same5_base; [|exact B2]; repeat split).
    destruct (cmov (mem s o)) eqn:M.
    + injection H as <-. eapply same5_base; [apply enqueue_same|exact B3].
    + apply some_inj in H. subst s'. apply answer_base1; [exact B3|].
      intros b Hb. unfold acquired in Hb. destruct (cexc (mem s o)) eqn:X; [discriminate|]. injection Hb as <-.
      destruct (b_idx s B k o I) as (L1 & _). cbn. rewrite upd_ne by congruence. split; [exact L1|].
      apply (idx_free_not_owned s k o B I M X).
  - destruct (idx s k) as [a|] eqn:I.
    + destruct (cmov (mem s a)) eqn:M.
      * injection H as <-. apply (same5_base (w_trys s ((nw s, a) :: trys s))); [repeat split|]. eapply try_base; eauto.
      * apply some_inj in H. subst s'. apply answer_base1; [eapply same5_base; [apply ask_same|exact B]|].
        exact (acquired_ok s k a B I M).
    + apply some_inj in H. subst s'. apply answer_base1; [eapply same5_base; [apply ask_same|exact B]|discriminate].
  - destruct (nth_error (trys s) i) as [[w a]|] eqn:N; [|discriminate].
    destruct (del_mid _ _ _ N) as (l1 & l2 & E & D).
    assert (IN : In (w, a) (trys s)) by (eapply nth_error_In; eauto).
    assert (B1 : Base (w_trys s (del (trys s) i))).
    { apply untry_base; [exact B|]. intros x. rewrite D, E, !in_app_iff. cbn. tauto. }
    destruct (b_try s B w a IN) as (L & I).
    destruct (cmov (mem s a)) eqn:M.
    + injection H as <-. eapply same5_base; [apply enqueue_same|exact B1].
    + apply some_inj in H. subst s'. apply answer_base1; [exact B1|]. apply (acquired_ok s _ a B I M).
  - destruct (nth_error (held s) i) as [[a k]|] eqn:N; [|discriminate]. destruct (pinned pin s a); [discriminate|].
    injection H as <-. destruct (del_mid _ _ _ N) as (l1 & l2 & E & D).
    assert (IN : In (a, k) (held s)) by (eapply nth_error_In; eauto).
    apply unref_base.
    + apply unheld_base; [exact B|]. intros x. rewrite D, E, !in_app_iff. cbn. tauto.
    + apply (busy_not_owned s a B). unfold busy. apply orb_true_iff. left. apply existsb_exists. exists (a, k). split; [auto|apply Nat.eqb_refl].
  - destruct (nth_error (held s) i) as [[a k]|] eqn:N; [|discriminate].
    destruct (locked s (ckey (mem s a))) eqn:L; [discriminate|]. injection H as <-.
    destruct (unindex_base s a B L) as (B1 & _). apply unlink_base. exact B1.
  - destruct (markable s a && negb (locked s (ckey (mem s a))) && negb (pinned pin s a)) eqn:G; [|discriminate].
    rewrite !andb_true_iff, !negb_true_iff in G. destruct G as ((K & L) & _). injection H as <-.
    destruct (unindex_base s a B L) as (B1 & N1 & M1 & V1 & H1 & U1).
    pose proof (markable_not_owned s a B K) as O. unfold markable in K.
    rewrite !andb_true_iff, !negb_true_iff in K. destruct K as ((((LV & LN) & BU) & MV) & EX).
    set (s1 := if indexed s a then w_idx s (ckey (mem s a)) None else s) in *.
    apply die_base; cbn; rewrite ?M1; auto. split; [exact N1|]. split; [now rewrite U1|]. unfold owners in *. now rewrite V1.
  - destruct (markable s a) eqn:K; [|discriminate]. injection H as <-. apply mark_base; auto.
  - destruct (markable s a) eqn:K; [|discriminate]. injection H as <-. apply mark_base; auto.
  - destruct (nth_error (mvs s) i) as [m|] eqn:N; [|discriminate]. eapply moverStep_base; eauto.
Qed.

Lemma init_base : Base init.
Proof.
  constructor; cbn; try tauto; try discriminate. constructor.
Qed.
Lemma run_base visits pin l : forall s s', Base s -> run visits pin s l = Some s' -> Base s'.
Proof.
  induction l as [|x r IH]; intros s s' B H; cbn in H; [now injection H as <-|].
  destruct (step visits pin s x) as [s1|] eqn:E; [|discriminate]. eapply IH; [|exact H]. eapply step_base; eauto.
Qed.
