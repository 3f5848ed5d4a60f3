(** Every step preserves the table invariant, when no parent is freed in the window. *)
From Coq Require Import List Arith Bool Lia.
Import ListNotations.
From Verif Require Import MoveWait_model MoveWait_proofs1 MoveWait_proofs2 MoveWait_proofs3 MoveWait_proofs4 MoveWait_proofs5 MoveWait_proofs6.

Lemma cover_owner m a k : cover m a k -> In a (ownl m) \/ window a m = true.
Proof. destruct m; cbn; try tauto; intros; try (left; auto; fail); right; destruct H; subst; apply Nat.eqb_refl. Qed.
Lemma unpinned_ptr s a : Tbl s -> ~ In a (owners s) -> pinned true s a = false -> forall e, In e (tbl s) -> eptr e <> a.
Proof.
  intros T O P e I F. destruct (t_ent s T e I) as (_ & _ & m & J & C). rewrite F in C. apply cover_owner in C.
  destruct C as [C|C]; [apply O; eapply owned_in; eauto|].
  unfold pinned in P. cbn in P. rewrite existsb_false in P. specialize (P m J). congruence.
Qed.
Lemma tbl_ext s t : (forall a, mem t a = mem s a) -> tbl t = tbl s -> trys t = trys s -> mvs t = mvs s -> tr t = tr s -> Tbl s -> Tbl t.
Proof.
  intros M E1 E2 E3 E4 [T1 T2 T3 T4 T5 T6 T7 T8]. constructor; rewrite ?E1, ?E2, ?E3, ?E4; auto.
  - intros e I. rewrite M. auto.
  - intros e w o I J. destruct (T3 e w o I J) as (X & m & Y & Z). split; [auto|]. exists m. split; [auto|].
    destruct m; cbn in *; rewrite ?M; auto.
  - intros w a I. rewrite M. auto.
  - intros m I. specialize (T6 m I). destruct m as [a|a n|a n|a|a|a|a|p|p|p k|p k w|p k [b|]|]; cbn in *; rewrite ?M; auto.
Qed.

Lemma own_tbl s l1 m l2 m' a c : Base s -> Tbl s -> mvs s = l1 ++ m :: l2 -> ownl m = [a] ->
  ckey c = ckey (mem s a) -> clive c = clive (mem s a) ->
  (forall k, cover m' a k) -> (forall t k w, ckey (mem t a) = k -> wakes t m' k w) ->
  (forall t, keyok t m') -> (forall x, m' <> MFree x) -> ownl m' = [a] ->
  Tbl (w_mvs (w_mem s a c) (l1 ++ m' :: l2)).
Proof.
  intros B T E O K L CV WK KO NF O'.
  assert (KE : forall b, ckey (upd (mem s) a c b) = ckey (mem s b) /\ clive (upd (mem s) a c b) = clive (mem s b)).
  { intros b. destruct (Nat.eq_dec a b) as [<-|NE]; [now rewrite upd_eq|now rewrite upd_ne]. }
  apply (keep_pc s _ l1 m l2 m'); auto; cbn.
  - intros b _. apply KE.
  - intros e J. rewrite (proj2 (KE _)). now apply T.
  - intros e J Q X. assert (eptr e = a) as ->; [|apply CV]. destruct m; cbn in *; try discriminate; try tauto; congruence.
  - intros e w o J1 J2 W. exists m'. split; [apply in_mid; auto|]. apply WK. cbn. rewrite (proj1 (KE _)).
    destruct m; cbn in *; try discriminate; try tauto; congruence.
  - destruct m'; auto; try (exfalso; eapply NF; eauto; fail). discriminate.
  - intros w b J. rewrite (proj1 (KE _)). now apply T.
  - apply incl_refl.
  - apply T.
Qed.

Section Step.
  Variable visits : nat -> nat -> bool.
  Hypothesis visits_refl : forall k, visits k k = true.

  Lemma moverStep_tbl s i m c s' : Base s -> Cnt s -> Tbl s -> nth_error (mvs s) i = Some m -> moverStep visits s i m c = Some s' -> Tbl s'.
  Proof.
    intros B C T N H. destruct (split_nth _ _ _ N) as (l1 & l2 & E & LEN & U).
    assert (IN : In m (mvs s)) by (rewrite E; apply in_mid; auto).
    pose proof (askOK_cnt s C) as AO.
    destruct m as [a|a n|a n|a|a|a|a|p|p|p k|p k w|p k v|]; cbn [moverStep] in H; unfold go in H.
    - (* MReg *)
      destruct (owned s l1 _ l2 a B E eq_refl) as (LA & BA & (SM & SX)).
      assert (TE : Tbl (w_mvs s (l1 ++ MEv a :: l2))).
      { apply (pc_tbl s l1 (MReg a) l2 (MEv a)); cbn; auto.
        intros e w o I J W. exists (MEv a). split; [apply in_mid; auto|exact W]. }
      destruct c as [n|].
      + destruct (clive (mem s n) || locked s (ckey (mem s a))) eqn:G; [discriminate|].
        apply orb_false_iff in G. destruct G as (D & LK).
        destruct (indexed s a) eqn:I.
        * apply some_inj in H. subst s'. cbn [mvs w_idx w_mem]. rewrite U.
          assert (NE : n <> a) by congruence.
          pose proof (new_tbl s n (mkC (ckey (mem s a)) true true false false) B T D) as T1.
          apply (idx_tbl (w_mvs (w_mem s n (mkC (ckey (mem s a)) true true false false)) (l1 ++ MUnm a n :: l2))).
          apply (keep_pc s _ l1 (MReg a) l2 (MUnm a n)); auto; cbn.
          -- intros b L. cbn. rewrite upd_ne by congruence. reflexivity.
          -- intros e J. rewrite upd_ne; [now apply T|]. intros ->. destruct (t_ent s T e J). congruence.
          -- intros e w o J1 J2 W. exists (MUnm a n). split; [apply in_mid; auto|]. cbn. rewrite upd_ne by auto. exact W.
          -- rewrite upd_eq, upd_ne by auto. reflexivity.
          -- intros w b J. rewrite upd_ne; [now apply T|]. intros ->. destruct (b_try s B w b J). congruence.
          -- apply incl_refl.
          -- apply T.
        * apply some_inj in H. subst s'. rewrite U. exact TE.
      + apply some_inj in H. subst s'. rewrite U. exact TE.
    - (* MUnm *)
      destruct (owned s l1 _ l2 a B E eq_refl) as (LA & BA & (SM & SX & SN)).
      apply some_inj in H. subst s'. cbn [mvs w_mem]. rewrite U.
      assert (KE : forall c, ckey c = ckey (mem s a) -> forall b, ckey (upd (mem s) a c b) = ckey (mem s b)).
      { intros c0 Q b. destruct (Nat.eq_dec a b) as [<-|NE]; [now rewrite upd_eq|now rewrite upd_ne]. }
      apply (keep_pc s _ l1 (MUnm a n) l2 (MWake a n)); auto; cbn.
      + intros b L. cbn. now rewrite KE.
      + intros e J. destruct (Nat.eq_dec a (eptr e)) as [<-|NE]; [now rewrite upd_eq|rewrite upd_ne by auto; now apply T].
      + intros e w o J1 J2 W. exists (MWake a n). split; [apply in_mid; auto|]. cbn. rewrite KE; auto.
      + rewrite !KE by auto. exact (t_key s T _ IN).
      + intros w b J. rewrite KE by auto. now apply T.
      + apply incl_refl.
      + apply T.
    - (* MWake *)
      destruct (owned s l1 _ l2 a B E eq_refl) as (LA & BA & (SM & SX & SL & SN)).
      pose proof (t_key s T _ IN) as KN. cbn in KN.
      destruct (wake_tbl visits visits_refl s (ckey (mem s a)) (Some n) i (MWake a n) (MFree a) B T AO N eq_refl) as (T1 & EK);
        [intros x [= <-]; exact KN|right; eauto|].
      pose proof (moverStep_base visits s i (MWake a n) c s' B N) as B'. cbn [moverStep] in B'.
      destruct (wake_frame visits s (ckey (mem s a)) (Some n)) as (F1 & F2 & F3 & F4 & F5).
      assert (B2 : Base (w_mvs (wake visits s (ckey (mem s a)) (Some n)) (updl (mvs (wake visits s (ckey (mem s a)) (Some n))) i (MFree a)))).
      { assert (OK : okans s (Some n)) by (eapply mh_ok; eauto; cbn; apply Nat.eqb_refl).
        destruct (wake_base visits s (ckey (mem s a)) (Some n) B OK) as (B1 & OK1).
        pose proof (wake_nth visits s (ckey (mem s a)) (Some n) i _ N eq_refl) as N1.
        set (s1 := wake visits s (ckey (mem s a)) (Some n)) in *.
        destruct (split_nth _ _ _ N1) as (k1 & k2 & E1 & LEN1 & U1). rewrite U1.
        destruct (F5 a) as (G1 & G2 & G3 & G4 & G5).
        apply (own_pc s1 k1 (MWake a n) k2 a); auto; try congruence; try (intros x Hx; discriminate); try (intros _; cbn; auto; fail).
        intros _. cbn. unfold noidx in *. cbn. rewrite F1. repeat split; try congruence; auto. }
      apply some_inj in H. subst s'. apply unref_tbl; [exact B2|exact T1|].
      intros e J. left. intros F. apply (EK e J). destruct (t_ent _ T1 e J) as (_ & Q & _). rewrite F in Q. cbn in Q.
      destruct (F5 n) as (G & _). congruence.
    - (* MFree *)
      destruct (owned s l1 _ l2 a B E eq_refl) as (LA & BA & (SM & SX & SL & SN)).
      apply some_inj in H. subst s'. cbn [mvs w_mem]. rewrite U.
      assert (KE : forall b, ckey (upd (mem s) a (c_live (mem s a) false) b) = ckey (mem s b)).
      { intros b. destruct (Nat.eq_dec a b) as [<-|NE]; [now rewrite upd_eq|now rewrite upd_ne]. }
      apply (keep_pc s _ l1 (MFree a) l2 MDone); auto; cbn; try exact Logic.I.
      + intros b L. cbn. now rewrite KE.
      + intros e J. rewrite upd_ne; [now apply T|]. intros F. apply (t_free s T a e IN J). auto.
      + intros e w o J1 J2 [].
      + intros w b J. rewrite KE. now apply T.
      + apply incl_refl.
      + apply T.
    - (* MEv *)
      apply some_inj in H. subst s'. cbn [mvs w_mem]. rewrite U.
      apply (own_tbl s l1 (MEv a) l2 (MEvU a) a); cbn; auto; try (intros; discriminate).
    - (* MEvU *)
      destruct (locked s (ckey (mem s a))) eqn:LK; [discriminate|]. apply some_inj in H. subst s'. cbn [mvs w_mem emit].
      destruct (unindex_base s a B LK) as (B1 & N1 & M1 & V1 & H1 & U1).
      pose proof (unindex_tbl s a T) as T1.
      set (s1 := if indexed s a then w_idx s (ckey (mem s a)) None else s) in *. rewrite V1, U.
      apply (emit_tbl (w_mvs (w_mem s1 a (c_lnk (c_exc (mem s1 a) false) false)) (l1 ++ MEvW a :: l2))); try (intros; discriminate).
      apply (own_tbl s1 l1 (MEvU a) l2 (MEvW a) a); cbn; auto; try (intros; discriminate). now rewrite V1.
    - (* MEvW *)
      apply some_inj in H. subst s'.
      apply (wake_tbl visits visits_refl s (ckey (mem s a)) None i (MEvW a) (MFree a) B T AO N eq_refl);
        [discriminate|right; eauto].
    - (* MChild *)
      destruct c; apply some_inj in H; subst s'; rewrite U; [apply (pc_tbl s l1 (MChild p) l2 (MCUnm p))|apply (pc_tbl s l1 (MChild p) l2 (MEv p))]; cbn; auto;
        intros e w o I J W; eexists; (split; [apply in_mid; left; reflexivity|exact W]).
    - (* MCUnm *)
      apply some_inj in H. subst s'. cbn [mvs w_mem]. rewrite U.
      assert (KE : forall b, ckey (upd (mem s) p (c_mov (mem s p) false) b) = ckey (mem s b)).
      { intros b. destruct (Nat.eq_dec p b) as [<-|NE]; [now rewrite upd_eq|now rewrite upd_ne]. }
      apply (keep_pc s _ l1 (MCUnm p) l2 (MCFind p (ckey (mem s p)))); auto; cbn; try exact Logic.I.
      + intros b L. cbn. now rewrite KE.
      + intros e J. destruct (Nat.eq_dec p (eptr e)) as [<-|NE]; [rewrite upd_eq; cbn|rewrite upd_ne by auto; now apply T].
        exact (proj1 (owned s l1 _ l2 p B E eq_refl)).
      + intros e J Q ->. auto.
      + intros e w o J1 J2 W. eexists. split; [apply in_mid; left; reflexivity|]. exact W.
      + intros w b J. rewrite KE. now apply T.
      + apply incl_refl.
      + apply T.
    - (* MCFind *)
      destruct (idx s k) as [a|] eqn:I.
      + destruct (cmov (mem s a)) eqn:M.
        * apply some_inj in H. subst s'. destruct (b_idx s B k a I) as (LA & KA).
          destruct (ask_tbl s k B T C) as (T1 & AO1 & AI).
          assert (B1 : Base (ask s k)) by (eapply same5_base; [apply ask_same|exact B]).
          destruct (enqueue_tbl visits visits_refl (ask s k) a (nw s) WMover B1 T1 AO1) as (T2 & e & J1 & J2 & J3);
            [exact M|cbn; rewrite KA; left; reflexivity|].
          assert (B2 : Base (enqueue visits (ask s k) a (nw s, WMover))) by (eapply same5_base; [apply enqueue_same|exact B1]).
          destruct (enqueue_same visits (ask s k) a (nw s, WMover)) as (M2 & _ & _ & V & _). rewrite V. cbn [mvs ask]. rewrite U.
          destruct (b_mov s B a M) as (g & G1 & G2 & G3).
          assert (NG : g <> MCFind p k) by (intros ->; discriminate).
          apply (pc_tbl _ l1 (MCFind p k) l2); auto; try exact Logic.I.
          -- rewrite V. exact E.
          -- intros e' w o I' J' W.
             exists g. split; [rewrite E in G1; apply in_mid in G1; apply in_mid; tauto|].
             cbn in W. destruct g; cbn in *; try discriminate; destruct G2 as [->|[]]; rewrite M2; cbn; congruence.
          -- exists e. split; [exact J1|]. split; [|exact J3]. rewrite J2. exact KA.
        * apply some_inj in H. subst s'. rewrite U. destruct (b_idx s B k a I) as (LA & KA).
          apply (pc_tbl s l1 (MCFind p k) l2); cbn; auto.
          -- intros e w o I' J' W. exists (MCWake p k (acquired s a)). split; [apply in_mid; auto|exact W].
          -- unfold acquired. destruct (cexc (mem s a)); auto.
      + apply some_inj in H. subst s'. rewrite U.
        apply (pc_tbl s l1 (MCFind p k) l2); cbn; auto.
        intros e w o I' J' W. exists (MCWake p k None). split; [apply in_mid; auto|exact W].
    - discriminate.
    - (* MCWake *)
      destruct (wake_tbl visits visits_refl s k v i (MCWake p k v) MDone B T AO N eq_refl) as (T1 & EK).
      { intros x ->. exact (t_key s T _ IN). }
      { left. reflexivity. }
      assert (OK : okans s v).
      { destruct v as [b|]; [|discriminate]. eapply mh_ok; eauto. cbn. apply Nat.eqb_refl. }
      destruct (wake_base visits s k v B OK) as (B1 & OK1).
      pose proof (wake_nth visits s k v i _ N eq_refl) as N1.
      destruct (wake_frame visits s k v) as (F1 & F2 & F3 & F4 & F5).
      set (s1 := wake visits s k v) in *.
      destruct (split_nth _ _ _ N1) as (k1 & k2 & E1 & LEN1 & U1).
      apply some_inj in H. subst s'. rewrite U1 in T1, EK |- *.
      destruct v as [b|]; [|exact T1].
      assert (B2 : Base (w_mvs s1 (k1 ++ MDone :: k2))).
      { apply (pc_step s1 k1 (MCWake p k (Some b)) k2); auto; try (intros x Hx; discriminate). }
      apply unref_tbl; [exact B2|exact T1|].
      intros e J. left. intros F. apply (EK e J). destruct (t_ent _ T1 e J) as (_ & Q & _). rewrite F in Q. cbn in Q.
      destruct (F5 b) as (G & _). rewrite <- Q, G. exact (t_key s T _ IN).
    - discriminate.
  Qed.

  Lemma step_tbl s x s' : Base s -> Cnt s -> Tbl s -> step visits true s x = Some s' -> Tbl s'.
  Proof.
    intros B C T H. pose proof (askOK_cnt s C) as AO.
    destruct x as [k a|k|i|i|i|a|a|a|i c]; cbn [step] in H.
    - destruct (clive (mem s a) || locked s k) eqn:G; [discriminate|]. apply orb_false_iff in G. destruct G as (D & L).
      pose proof (new_base s k a B D L) as B1.
      assert (B2 : Base (w_idx (w_held (w_mem s a (mkC k true true false false)) ((a, k) :: held s)) k (Some a))).
      { pose proof (held_base _ a B1) as Q. cbn in Q. rewrite upd_eq in Q. cbn in Q. apply Q; [reflexivity|].
        apply (new_not_owned s a B D). }
      assert (T2 : Tbl (w_idx (w_held (w_mem s a (mkC k true true false false)) ((a, k) :: held s)) k (Some a))).
      { apply idx_tbl, held_tbl, new_tbl; auto. }
      assert (C2 : Cnt (w_idx (w_held (w_mem s a (mkC k true true false false)) ((a, k) :: held s)) k (Some a))).
      { eapply cnt_frame; [| | | |exact C]; reflexivity. }
      set (s1 := w_idx (w_held (w_mem s a (mkC k true true false false)) ((a, k) :: held s)) k (Some a)) in *.
      destruct (idx s k) as [o|] eqn:I; [|now injection H as <-].
      destruct (b_idx s B k o I) as (LO & KO).
      assert (MO : mem s1 o = mem s o) by (cbn; apply upd_ne; congruence).
      destruct (ask_tbl s1 k B2 T2 C2) as (T3 & AO3 & AI).
      assert (T4 : Tbl (emit (ask s1 k) (EIns (nw s) k a))) by (apply emit_tbl; [exact T3|discriminate|discriminate]).
      assert (B4 : Base (emit (ask s1 k) (EIns (nw s) k a))) by (eapply same5_base; [|exact B2]; repeat split).
      assert (AO4 : askOK (emit (ask s1 k) (EIns (nw s) k a))).
      { intros w i j [I1|I1] [I2|I2]; try discriminate. eapply AO3; eauto. }
      destruct (cmov (mem s o)) eqn:M.
      + apply some_inj in H. subst s'. apply (enqueue_tbl visits visits_refl _ o (nw s) WRep B4 T4 AO4).
        * change (cmov (mem s1 o) = true). now rewrite MO.
        * change (In (EAsk (nw s) (ckey (mem s1 o))) (EIns (nw s) k a :: EAsk (nw s) k :: tr s)). rewrite MO, KO. right. left. reflexivity.
      + apply some_inj in H. subst s'. apply (answer_tbl _ (nw s) WRep _ k); auto; try discriminate.
        * right. left. reflexivity.
        * intros b. unfold acquired. destruct (cexc (mem s o)); [discriminate|]. intros [= <-].
          change (ckey (mem s1 o) = k). now rewrite MO.
    - destruct (ask_tbl s k B T C) as (T1 & AO1 & AI).
      assert (B1 : Base (ask s k)) by (eapply same5_base; [apply ask_same|exact B]).
      destruct (idx s k) as [a|] eqn:I.
      + destruct (b_idx s B k a I) as (LA & KA). destruct (cmov (mem s a)) eqn:M.
        * apply some_inj in H. subst s'. apply trys_tbl; [exact T1|]. intros w b [[= <- <-]|J].
          -- cbn. left. now rewrite KA.
          -- apply T1. exact J.
        * apply some_inj in H. subst s'. apply (answer_tbl _ (nw s) WUser _ k); auto; try discriminate.
          intros b. unfold acquired. destruct (cexc (mem s a)); [discriminate|]. intros [= <-]. exact KA.
      + apply some_inj in H. subst s'. apply (answer_tbl _ (nw s) WUser _ k); auto; discriminate.
    - destruct (nth_error (trys s) i) as [[w a]|] eqn:N; [|discriminate].
      destruct (del_mid _ _ _ N) as (l1 & l2 & E & D).
      assert (IN : In (w, a) (trys s)) by (eapply nth_error_In; eauto).
      assert (SUB : forall x, In x (del (trys s) i) -> In x (trys s)) by (intros x; rewrite D, E, !in_app_iff; cbn; tauto).
      assert (B1 : Base (w_trys s (del (trys s) i))) by (apply untry_base; auto).
      assert (T1 : Tbl (w_trys s (del (trys s) i))).
      { apply trys_tbl; [exact T|]. intros y b J. apply (t_try s T y b). auto. }
      pose proof (t_try s T w a IN) as AI.
      destruct (cmov (mem s a)) eqn:M.
      + apply some_inj in H. subst s'. apply (enqueue_tbl visits visits_refl); auto.
      + apply some_inj in H. subst s'. apply (answer_tbl _ w WUser _ (ckey (mem s a))); auto; try discriminate.
        intros b. unfold acquired. destruct (cexc (mem s a)); [discriminate|]. intros [= <-]. reflexivity.
    - destruct (nth_error (held s) i) as [[a k]|] eqn:N; [|discriminate]. destruct (pinned true s a) eqn:P; [discriminate|].
      apply some_inj in H. subst s'. destruct (del_mid _ _ _ N) as (l1 & l2 & E & D).
      assert (IN : In (a, k) (held s)) by (eapply nth_error_In; eauto).
      apply unref_tbl.
      + apply unheld_base; [exact B|]. intros x. rewrite D, E, !in_app_iff. cbn. tauto.
      + now apply held_tbl.
      + intros e J. left. apply (unpinned_ptr s a T); auto.
        apply (busy_not_owned s a B). unfold busy. apply orb_true_iff. left. apply existsb_exists. exists (a, k). split; [auto|apply Nat.eqb_refl].
    - destruct (nth_error (held s) i) as [[a k]|] eqn:N; [|discriminate].
      destruct (locked s (ckey (mem s a))) eqn:L; [discriminate|]. apply some_inj in H. subst s'.
      destruct (unindex_base s a B L) as (B1 & _). apply flags_tbl; auto. now apply unindex_tbl.
    - destruct (markable s a && negb (locked s (ckey (mem s a))) && negb (pinned true s a)) eqn:G; [|discriminate].
      rewrite !andb_true_iff, !negb_true_iff in G. destruct G as ((K & L) & P). apply some_inj in H. subst s'.
      destruct (unindex_base s a B L) as (B1 & N1 & M1 & V1 & H1 & U1).
      pose proof (markable_not_owned s a B K) as O.
      pose proof (unpinned_ptr s a T O P) as NP.
      pose proof (unindex_tbl s a T) as T1.
      assert (TB : tbl (if indexed s a then w_idx s (ckey (mem s a)) None else s) = tbl s) by (destruct (indexed s a); reflexivity).
      set (s1 := if indexed s a then w_idx s (ckey (mem s a)) None else s) in *.
      assert (KE : forall b, ckey (upd (mem s1) a (c_live (c_lnk (mem s1 a) false) false) b) = ckey (mem s1 b)).
      { intros b. destruct (Nat.eq_dec a b) as [<-|NE]; [now rewrite upd_eq|now rewrite upd_ne]. }
      apply (keep_mvs s1); auto; cbn.
      + intros b _. apply KE.
      + intros e J. rewrite upd_ne; [now apply T1|]. rewrite TB in J. intros F. apply (NP e J). auto.
      + intros w b J. rewrite KE. now apply T1.
      + apply incl_refl.
      + apply T1.
    - destruct (markable s a) eqn:K; [|discriminate]. apply some_inj in H. subst s'.
      apply (mark_tbl (w_mem s a (c_mov (mem s a) true)) a); auto. apply flags_tbl; auto.
    - destruct (markable s a) eqn:K; [|discriminate]. apply some_inj in H. subst s'.
      apply (mark_tbl (w_mem s a (c_mov (mem s a) true)) a); auto. apply flags_tbl; auto.
    - destruct (nth_error (mvs s) i) as [m|] eqn:N; [|discriminate]. eapply moverStep_tbl; eauto.
  Qed.

  Lemma init_tbl : Tbl init.
  Proof. constructor; cbn; try tauto. constructor. Qed.

  Definition Inv (s : state) : Prop := Base s /\ Cnt s /\ Tbl s.
  Lemma run_inv l : forall s s', Inv s -> run visits true s l = Some s' -> Inv s'.
  Proof.
    induction l as [|x r IH]; intros s s' (B & C & T) H; cbn [run] in H; [now injection H as <-|].
    destruct (step visits true s x) as [s1|] eqn:E; [|discriminate]. eapply IH; [|exact H].
    split; [eapply step_base; eauto|]. split; [eapply step_cnt; eauto|eapply step_tbl; eauto].
  Qed.
  Lemma init_inv : Inv init.
  Proof. split; [apply init_base|]. split; [apply init_cnt|apply init_tbl]. Qed.
End Step.
