(** The table invariant is preserved. *)
From Coq Require Import List Arith Bool Lia.
Import ListNotations.
From Verif Require Import MoveWait_model MoveWait_proofs1 MoveWait_proofs2 MoveWait_proofs3 MoveWait_proofs4 MoveWait_proofs5.

Lemma answerAll_mvs_in ws : forall s v x, In x (mvs (answerAll s ws v)) ->
  (In x (mvs s) /\ forall p k w, x = MCWait p k w -> ~ In (w, WMover) ws) \/
  exists p k w, In (MCWait p k w) (mvs s) /\ In (w, WMover) ws /\ x = MCWake p k v.
Proof.
  induction ws as [|[w o] r IH]; intros s v x H.
  - left. split; [exact H|]. intros; tauto.
  - cbn in H. apply IH in H. rewrite answer_mvs in H. destruct H as [(H & N)|(p & k & y & H & I & ->)].
    + destruct o.
      1,2: left; split; [exact H|]; intros p k y E [[= ]|J]; eapply N; eauto.
      apply in_map_iff in H. destruct H as (z & E & I). destruct z; cbn in E; subst x;
        try (left; split; [exact I|intros; discriminate]).
      destruct (Nat.eqb_spec w0 w) as [->|D].
      * right. exists p, k, w. split; [auto|]. split; [left; auto|auto].
      * left. split; [exact I|]. intros p' k' y [= <- <- <-] [[= ->]|J]; [congruence|eapply N; eauto].
    + right. destruct o.
      1,2: exists p, k, y; split; [exact H|]; split; [right; auto|auto].
      apply in_map_iff in H. destruct H as (z & E & I'). destruct z as [|??|??|?|?|?|?|?|?|??|p1 k1 w1|???|]; cbn in E; try discriminate.
      destruct (Nat.eqb w1 w) eqn:EW; [discriminate|]. injection E as E1 E2 E3. subst p1 k1 w1.
      exists p, k, y. split; [exact I'|]. split; [right; auto|auto].
Qed.
Lemma answerAll_mvs_stay ws : forall s v x, In x (mvs s) ->
  In x (mvs (answerAll s ws v)) \/ exists p k w, x = MCWait p k w /\ In (MCWake p k v) (mvs (answerAll s ws v)).
Proof.
  induction ws as [|[w o] r IH]; intros s v x H; [left; exact H|]. cbn.
  assert (ST : forall y, In y (mvs (answer s w o v)) -> isWait y = false -> In y (mvs (answerAll (answer s w o v) r v))).
  { intros y I N. destruct (IH (answer s w o v) v y I) as [?|(p & k & z & -> & _)]; [auto|discriminate]. }
  destruct o; [specialize (IH (answer s w WUser v) v x); rewrite answer_mvs in IH; apply IH; exact H|specialize (IH (answer s w WRep v) v x); rewrite answer_mvs in IH; apply IH; exact H|].
  destruct (isWait x) eqn:W.
  - destruct x; try discriminate. destruct (Nat.eqb_spec w0 w) as [->|D].
    + right. exists p, k, w. split; [auto|]. apply ST; [|auto]. rewrite answer_mvs. apply in_map_iff. eexists. split; [|exact H].
      cbn. now rewrite Nat.eqb_refl.
    + apply IH. rewrite answer_mvs. apply in_map_iff. eexists. split; [|exact H]. cbn.
      destruct (Nat.eqb_spec w0 w); [congruence|auto].
  - left. apply ST; [|auto]. rewrite answer_mvs. apply in_map_iff. eexists. split; [|exact H]. destruct x; auto. discriminate.
Qed.

Section Step.
  Variable visits : nat -> nat -> bool.
  Hypothesis visits_refl : forall k, visits k k = true.

  Definition keyOf (s : state) (m : mpc) (k : nat) : Prop :=
    match m with
    | MWake a _ | MEvW a => ckey (mem s a) = k
    | MCWake _ j _ => j = k
    | _ => False
    end.

  Lemma wake_tbl s k v i m m' : Base s -> Tbl s -> askOK s -> nth_error (mvs s) i = Some m -> keyOf s m k ->
    (forall n, v = Some n -> ckey (mem s n) = k) ->
    (m' = MDone \/ exists a, m' = MFree a /\ ckey (mem s a) = k) ->
    let t0 := wake visits s k v in let t := w_mvs t0 (updl (mvs t0) i m') in
    Tbl t /\ forall e, In e (tbl t) -> ekey e <> k.
  Proof.
    intros B T AO N KO KV HM t0.
    assert (NW : isWait m = false) by (destruct m; cbn in *; tauto).
    pose proof (wake_nth visits s k v i m N NW) as N1. fold t0 in N1.
    destruct (split_nth _ _ _ N1) as (l1 & l2 & E & LEN & U). cbn. rewrite U.
    destruct (wake_frame visits s k v) as (F1 & F2 & F3 & F4 & F5). fold t0 in F1, F2, F3, F4, F5.
    destruct (erase_spec visits visits_refl s k (tbl s)) as (P1 & P2 & P3);
      [intros e I; apply (t_ent s T e I)|apply T|].
    assert (TB : tbl t0 = snd (erase visits s k (tbl s))).
    { unfold t0, wake. destruct (answerAll_frame (fst (erase visits s k (tbl s))) (w_tbl s (snd (erase visits s k (tbl s)))) v) as (_ & X & _). exact X. }
    assert (TR : forall x, In x (tr t0) <-> In x (tr s) \/ exists w o, In (w, o) (fst (erase visits s k (tbl s))) /\ x = EAns w (val s v)).
    { intros x. unfold t0, wake. rewrite answerAll_tr, in_app_iff, <- in_rev, in_map_iff. cbn. split.
      - intros [([w o] & <- & I)|I]; [right; exists w, o; auto|auto].
      - intros [I|(w & o & I & ->)]; [auto|left; exists (w, o); auto]. }
    assert (MI : forall x, In x (mvs t0) -> (In x (mvs s) /\ forall p j w, x = MCWait p j w -> ~ In (w, WMover) (fst (erase visits s k (tbl s)))) \/
        exists p j w, In (MCWait p j w) (mvs s) /\ In (w, WMover) (fst (erase visits s k (tbl s))) /\ x = MCWake p j v).
    { intros x I. unfold t0, wake in I. apply answerAll_mvs_in in I. exact I. }
    assert (MS : forall x, In x (mvs s) -> In x (mvs t0) \/ exists p j w, x = MCWait p j w /\ In (MCWake p j v) (mvs t0)).
    { intros x I. exact (answerAll_mvs_stay (fst (erase visits s k (tbl s))) (w_tbl s (snd (erase visits s k (tbl s)))) v x I). }
    assert (EK : forall e, In e (tbl t0) -> In e (tbl s) /\ ekey e <> k) by (intros e; rewrite TB; apply P1).
    assert (KE : keys s t0) by (intros a _; apply F5).
    assert (COV : forall x e, In e (tbl t0) -> In x (mvs s) -> cover x (eptr e) (ekey e) ->
       exists y, In y (l1 ++ m' :: l2) /\ cover y (eptr e) (ekey e)).
    { intros x e I J C. destruct (EK e I) as (I' & NK). destruct (t_ent s T e I') as (_ & CK & _).
      assert (KEYNE : forall z, cover z (eptr e) (ekey e) -> z <> m).
      { intros z Cz ->. destruct m; cbn in KO, Cz; try tauto; try (subst; congruence). destruct Cz; congruence. }
      destruct (MS x J) as [K|(p & j & w & -> & K)].
      - exists x. split; [|auto]. rewrite E in K. apply in_mid in K. apply in_mid. destruct K as [K|K]; [destruct (KEYNE x C K)|auto].
      - exists (MCWake p j v). split; [|exact C]. rewrite E in K. apply in_mid in K. apply in_mid. destruct K as [K|K]; [destruct (KEYNE (MCWake p j v) C K)|auto]. }
    split; [|intros e I; now apply EK].
    constructor; cbn.
    - intros e I. destruct (EK e I) as (I' & NK). destruct (t_ent s T e I') as (A & Bk & x & C & D).
      destruct (F5 (eptr e)) as (G1 & G2 & _). split; [congruence|]. split; [congruence|]. eapply COV; eauto.
    - rewrite TB. exact P3.
    - intros e w o I J. destruct (EK e I) as (I' & NK). destruct (t_w s T e w o I' J) as (A & x & C & D).
      split; [apply TR; auto|].
      assert (KEYNE : forall z, In z (mvs t0) -> wakes t0 z (ekey e) w -> z <> m).
      { intros z _ Cz ->. destruct m; cbn in KO, Cz; try tauto.
        - destruct (F5 a) as (G & _). congruence.
        - destruct (F5 a) as (G & _). congruence.
        - congruence. }
      assert (D' : wakes t0 x (ekey e) w) by (eapply wakes_keys; eauto).
      destruct (MS x C) as [K|(p & j & y & -> & K)].
      + exists x. split.
        * pose proof (KEYNE x K D') as NE. rewrite E in K. apply in_mid in K. apply in_mid. tauto.
        * destruct x; cbn in *; auto.
      + exists (MCWake p j v). assert (D2 : wakes t0 (MCWake p j v) (ekey e) w) by (cbn in *; tauto). split; [|exact D2].
        pose proof (KEYNE _ K D2) as NE. rewrite E in K. apply in_mid in K. apply in_mid. tauto.
    - rewrite F2. intros w a I. destruct (F5 a) as (-> & _). apply TR. left. now apply T.
    - intros p j w I. apply in_mid in I.
      assert (I2 : In (MCWait p j w) (mvs t0)).
      { rewrite E. apply in_mid. destruct I as [I|I]; [|auto]. destruct HM as [->|(a & -> & _)]; discriminate. }
      destruct (MI _ I2) as [(J & NI)|(p' & j' & w' & _ & _ & X)]; [|discriminate].
      destruct (t_wait s T p j w J) as (e & A & Bk & C). exists e. split; [|auto]. rewrite TB. apply P1. split; [auto|].
      intros X. apply (NI p j w eq_refl). apply P2. exists e. auto.
    - intros x I. apply in_mid in I. destruct I as [->|I]; [destruct HM as [->|(a & -> & _)]; exact Logic.I|].
      assert (I2 : In x (mvs t0)) by (rewrite E; apply in_mid; auto).
      destruct (MI _ I2) as [(J & _)|(p & j & w & J1 & J2 & ->)].
      + pose proof (keyok_keys s t0 x B KE J (t_key s T x J)) as Q. unfold keyok in *. cbn. exact Q.
      + cbn. destruct v as [b|]; [|exact Logic.I]. destruct (F5 b) as (-> & _). rewrite (KV b eq_refl).
        apply P2 in J2. destruct J2 as (e & A & Bk & C). destruct (t_w s T e w WMover A C) as (X & _). rewrite Bk in X.
        destruct (t_wait s T p j w J1) as (e' & A' & B' & C'). destruct (t_w s T e' w WMover A' C') as (X' & _). rewrite B' in X'.
        eapply AO; eauto.
    - intros a e I J F. destruct (EK e J) as (J' & NK). destruct (t_ent s T e J') as (_ & CK & _). apply in_mid in I. destruct I as [I|I].
      + destruct HM as [->|(b & -> & HB)]; [discriminate|]. injection I as ->. congruence.
      + assert (I2 : In (MFree a) (mvs t0)) by (rewrite E; apply in_mid; auto).
        destruct (MI _ I2) as [(I3 & _)|(p & j & w & _ & _ & X)]; [|discriminate].
        exact (t_free s T a e I3 J' F).
    - intros w a j i0 I J. apply TR in I. apply TR in J.
      destruct J as [J|(w' & o & _ & X)]; [|discriminate].
      destruct I as [I|(w' & o & I & X)]; [eapply t_ans; eauto|]. injection X as <- X.
      destruct v as [b|]; [|discriminate]. cbn in X. injection X as -> ->. rewrite (KV b eq_refl).
      apply P2 in I. destruct I as (e & A & Bk & C). destruct (t_w s T e w o A C) as (X' & _). rewrite Bk in X'. eapply AO; eauto.
  Qed.

  Lemma unref_tbl s a : Base s -> Tbl s -> (forall e, In e (tbl s) -> eptr e <> a \/ busy s a = true) -> Tbl (unref s a).
  Proof.
    intros B T H. unfold unref.
    destruct (negb (busy s a) && negb (clnk (mem s a)) && negb (cmov (mem s a)) && negb (cexc (mem s a)) && negb (indexed s a)) eqn:E; [|exact T].
    rewrite !andb_true_iff, !negb_true_iff in E. destruct E as ((((BU & _) & M) & X) & I).
    assert (KE : forall b, ckey (upd (mem s) a (c_live (mem s a) false) b) = ckey (mem s b)).
    { intros b. destruct (Nat.eq_dec a b) as [<-|N]; [now rewrite upd_eq|now rewrite upd_ne]. }
    apply (keep_mvs s); auto; cbn.
    - intros b _. apply KE.
    - intros e J. destruct (H e J) as [N|N]; [|congruence]. rewrite upd_ne by auto. now apply T.
    - intros w b J. rewrite KE. now apply T.
    - apply incl_refl.
    - apply T.
  Qed.

  Lemma unindex_tbl s a : Tbl s -> Tbl (if indexed s a then w_idx s (ckey (mem s a)) None else s).
  Proof. intros T. destruct (indexed s a); [|exact T]. destruct T. constructor; auto. Qed.
  Lemma idx_tbl s k v : Tbl s -> Tbl (w_idx s k v).
  Proof. intros T. destruct T. constructor; auto. Qed.
  Lemma new_tbl s a c : Base s -> Tbl s -> clive (mem s a) = false -> Tbl (w_mem s a c).
  Proof.
    intros B T D.
    assert (LV : forall b, clive (mem s b) = true -> upd (mem s) a c b = mem s b) by (intros b L; apply upd_ne; congruence).
    apply (keep_mvs s); auto; cbn.
    - intros b L. cbn. now rewrite LV.
    - intros e I. rewrite LV; now apply T.
    - intros w b I. destruct (b_try s B w b I) as (L & _). rewrite LV by auto. now apply T.
    - apply incl_refl.
    - apply T.
  Qed.
  (** Flags may change freely. *)
  Lemma flags_tbl s a c : Base s -> Tbl s -> ckey c = ckey (mem s a) -> clive c = clive (mem s a) -> Tbl (w_mem s a c).
  Proof.
    intros B T K L.
    assert (LV : forall b, clive (upd (mem s) a c b) = clive (mem s b) /\ ckey (upd (mem s) a c b) = ckey (mem s b)).
    { intros b. destruct (Nat.eq_dec a b) as [<-|N]; [now rewrite upd_eq|now rewrite upd_ne]. }
    apply (keep_mvs s); auto; cbn.
    - intros b _. apply LV.
    - intros e I. rewrite (proj1 (LV _)). now apply T.
    - intros w b I. rewrite (proj2 (LV _)). now apply T.
    - apply incl_refl.
    - apply T.
  Qed.
  Lemma ask_tbl s k : Base s -> Tbl s -> Cnt s -> Tbl (ask s k) /\ askOK (ask s k) /\ In (EAsk (nw s) k) (tr (ask s k)).
  Proof.
    intros B T C. split; [|split].
    - apply (keep_mvs s); auto; cbn.
      + intros b _. reflexivity.
      + intros e I. now apply T.
      + intros w a I. right. now apply T.
      + intros x I. right. exact I.
      + intros w a j i [I|I] [J|J]; try discriminate; [|eapply t_ans; eauto]. injection J as J1 J2. subst w i.
        exfalso. apply ansn_in in I. pose proof (c_one s C (nw s)) as Q. rewrite Nat.ltb_irrefl in Q. cbn [b2n] in Q. lia.
    - intros w i j [I|I] [J|J].
      + congruence.
      + injection I as I1 I2. subst w i. assert (nw s < nw s) by (apply C; eauto). lia.
      + injection J as J1 J2. subst w j. assert (nw s < nw s) by (apply C; eauto). lia.
      + eapply c_fun; eauto.
    - left. reflexivity.
  Qed.
  Lemma emit_tbl s e : Tbl s -> (forall w v, e <> EAns w v) -> (forall w k, e <> EAsk w k) -> Tbl (emit s e).
  Proof.
    intros T N1 N2. destruct T as [T1 T2 T3 T4 T5 T6 T7 T8]. constructor; auto; cbn.
    - intros e' w o I J. destruct (T3 e' w o I J) as (X & Y). split; [right; exact X|exact Y].
    - intros w a I. right. now apply T4.
    - intros w a j k [I|I] [J|J]; try (destruct (N1 _ _ I)); try (destruct (N2 _ _ J)); eauto.
  Qed.
  Lemma held_tbl s h : Tbl s -> Tbl (w_held s h).
  Proof. intros T. destruct T. constructor; auto. Qed.
  Lemma trys_tbl s l : Tbl s -> (forall w a, In (w, a) l -> In (EAsk w (ckey (mem s a))) (tr s)) -> Tbl (w_trys s l).
  Proof. intros T H. destruct T. constructor; auto. Qed.
  Lemma mark_tbl s a m : Tbl s -> m = MReg a \/ m = MChild a -> Tbl (w_mvs s (mvs s ++ [m])).
  Proof.
    intros [T1 T2 T3 T4 T5 T6 T7 T8] M. constructor; auto; cbn.
    - intros e I. destruct (T1 e I) as (A & B & x & C & D). split; [auto|]. split; [auto|]. exists x. split; [apply in_app_iff; auto|auto].
    - intros e w o I J. destruct (T3 e w o I J) as (A & x & C & D). split; [auto|]. exists x. split; [apply in_app_iff; auto|].
      destruct x; cbn in *; auto.
    - intros p k w I. apply in_app_iff in I. destruct I as [I|[I|[]]]; [eauto|]. destruct M; subst m; discriminate.
    - intros x I. apply in_app_iff in I. destruct I as [I|[<-|[]]]; [apply (T6 x I)|]. destruct M; subst m; exact Logic.I.
    - intros b e I. apply in_app_iff in I. destruct I as [I|[I|[]]]; [eauto|]. destruct M; subst m; discriminate.
  Qed.
  Lemma askOK_cnt s : Cnt s -> askOK s. Proof. intros C w k j. apply C. Qed.

  (** A change of place by a mover whose own item's flags change. *)
  Lemma pc_tbl s l1 m l2 m' : Base s -> Tbl s -> mvs s = l1 ++ m :: l2 ->
    (forall e, In e (tbl s) -> cover m (eptr e) (ekey e) -> cover m' (eptr e) (ekey e)) ->
    (forall e w o, In e (tbl s) -> In (w, o) (ews e) -> wakes s m (ekey e) w -> exists x, In x (l1 ++ m' :: l2) /\ wakes s x (ekey e) w) ->
    keyok s m' ->
    match m' with
          | MCWait p k w => exists e, In e (tbl s) /\ ekey e = k /\ In (w, WMover) (ews e)
          | MFree a => forall e, In e (tbl s) -> eptr e <> a | _ => True end ->
    Tbl (w_mvs s (l1 ++ m' :: l2)).
  Proof.
    intros B T E C W K X. eapply (keep_pc s _ l1 m l2 m'); eauto.
    - intros a _. reflexivity.
    - intros e I. now apply (t_ent s T).
    - apply T.
    - apply incl_refl.
    - apply T.
  Qed.
End Step.
