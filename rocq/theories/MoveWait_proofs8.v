(** The moving threads and the lookups that hold a bucket lock always finish. *)
From Coq Require Import List Arith Bool Lia.
Import ListNotations.
From Verif Require Import MoveWait_model MoveWait_proofs1 MoveWait_proofs2 MoveWait_proofs3 MoveWait_proofs4 MoveWait_proofs5 MoveWait_proofs6 MoveWait_proofs7.

Definition rank (m : mpc) : nat :=
  match m with
  | MReg _ | MChild _ => 8 | MUnm _ _ | MCUnm _ => 7 | MEv _ | MCFind _ _ => 6
  | MEvU _ | MWake _ _ | MCWait _ _ _ => 5 | MEvW _ | MCWake _ _ _ => 4 | MFree _ => 1 | MDone => 0
  end.
Fixpoint ranks (l : list mpc) : nat := match l with [] => 0 | m :: r => rank m + ranks r end.
Definition measure (s : state) : nat := length (trys s) + ranks (mvs s).

Lemma ranks_mid l1 m l2 : ranks (l1 ++ m :: l2) = ranks l1 + rank m + ranks l2.
Proof. induction l1 as [|x r IH]; cbn [ranks app]; [lia|]. rewrite IH. lia. Qed.
Lemma ranks_resume w v l : ranks (map (resume w v) l) <= ranks l.
Proof.
  induction l as [|m r IH]; cbn [ranks map]; [lia|]. assert (rank (resume w v m) <= rank m); [|lia].
  destruct m; cbn; auto. destruct (w0 =? w); cbn; lia.
Qed.
Lemma answer_ranks s w o v : ranks (mvs (answer s w o v)) <= ranks (mvs s).
Proof. rewrite answer_mvs. destruct o; auto. apply ranks_resume. Qed.
Lemma answerAll_ranks ws : forall s v, ranks (mvs (answerAll s ws v)) <= ranks (mvs s).
Proof.
  induction ws as [|[w o] r IH]; intros s v; [cbn; lia|]. cbn. etransitivity; [apply IH|apply answer_ranks].
Qed.
Lemma wake_ranks visits s k v : ranks (mvs (wake visits s k v)) <= ranks (mvs s).
Proof. exact (answerAll_ranks (fst (erase visits s k (tbl s))) (w_tbl s (snd (erase visits s k (tbl s)))) v). Qed.
Lemma del_len {A} (l : list A) i x : nth_error l i = Some x -> length l = S (length (del l i)).
Proof. intros H. destruct (del_mid _ _ _ H) as (l1 & l2 & -> & ->). rewrite !app_length. cbn. lia. Qed.

Lemma all_done l : (forall m, In m l -> m = MDone) \/ exists m, In m l /\ m <> MDone.
Proof.
  induction l as [|m r IH]; [left; intros m []|].
  assert (D : m = MDone \/ m <> MDone) by (destruct m; auto; right; discriminate).
  destruct D as [->|D]; [|right; exists m; split; [left; reflexivity|exact D]].
  destruct IH as [IH|(x & I & D)].
  - left. intros x [<-|I]; auto.
  - right. exists x. split; [right; exact I|exact D].
Qed.

Definition background (x : action) : Prop := match x with ATry _ | AStep _ _ => True | _ => False end.

Section P.
  Variable visits : nat -> nat -> bool.
  Hypothesis visits_refl : forall k, visits k k = true.

  Lemma wake_upd s i m k v m' : nth_error (mvs s) i = Some m -> isWait m = false -> rank m' < rank m ->
    ranks (updl (mvs (wake visits s k v)) i m') < ranks (mvs s).
  Proof.
    intros N W R. pose proof (wake_nth visits s k v i m N W) as N1.
    destruct (split_nth _ _ _ N1) as (l1 & l2 & E & _ & ->). pose proof (wake_ranks visits s k v) as L. rewrite E in L.
    rewrite ranks_mid in *. lia.
  Qed.
  Lemma moverStep_measure s i m c s' : nth_error (mvs s) i = Some m -> moverStep visits s i m c = Some s' -> measure s' < measure s.
  Proof.
    intros N H. destruct (split_nth _ _ _ N) as (l1 & l2 & E & LEN & U).
    assert (GO : forall t m', trys t = trys s -> mvs t = mvs s -> rank m' < rank m -> measure (w_mvs t (updl (mvs t) i m')) < measure s).
    { intros t m' E1 E2 R. unfold measure. cbn. rewrite E1, E2, U, E, !ranks_mid. lia. }
    assert (WK : forall k v m', isWait m = false -> rank m' < rank m ->
      measure (w_mvs (wake visits s k v) (updl (mvs (wake visits s k v)) i m')) < measure s).
    { intros k v m' W R. unfold measure. cbn. destruct (wake_frame visits s k v) as (_ & -> & _).
      pose proof (wake_upd s i m k v m' N W R). lia. }
    assert (UR : forall t b, measure (unref t b) = measure t).
    { intros t b. unfold measure. destruct (unref_frame t b) as (-> & _ & _ & _ & X). f_equal. unfold unref. destruct (_ && _); reflexivity. }
    destruct m as [a|a n|a n|a|a|a|a|p|p|p k|p k w|p k v|]; cbn [moverStep] in H; unfold go in H.
    - destruct c as [n|].
      + destruct (clive (mem s n) || locked s (ckey (mem s a))); [discriminate|].
        destruct (indexed s a); apply some_inj in H; subst s'; apply GO; cbn; try lia; auto.
      + apply some_inj in H; subst s'; apply GO; cbn; try lia; auto.
    - apply some_inj in H; subst s'; apply GO; cbn; try lia; auto.
    - apply some_inj in H; subst s'. rewrite UR. apply WK; cbn; try lia; auto.
    - apply some_inj in H; subst s'; apply GO; cbn; try lia; auto.
    - apply some_inj in H; subst s'; apply GO; cbn; try lia; auto.
    - destruct (locked s (ckey (mem s a))); [discriminate|]. apply some_inj in H; subst s'.
      apply (GO (emit (w_mem (if indexed s a then w_idx s (ckey (mem s a)) None else s) a _) _)); try (destruct (indexed s a)); cbn; auto.
    - apply some_inj in H; subst s'. apply WK; cbn; try lia; auto.
    - destruct c; apply some_inj in H; subst s'; apply GO; cbn; try lia; auto.
    - apply some_inj in H; subst s'; apply GO; cbn; try lia; auto.
    - destruct (idx s k) as [a|]; [|apply some_inj in H; subst s'; apply GO; cbn; try lia; auto].
      destruct (cmov (mem s a)); apply some_inj in H; subst s'; apply GO; cbn; try lia; auto;
      destruct (enqueue_same visits (ask s k) a (nw s, WMover)) as (_ & _ & X & Y & _); auto.
    - discriminate.
    - apply some_inj in H; subst s'. assert (X : measure (match v with Some b => unref (w_mvs (wake visits s k v) (updl (mvs (wake visits s k v)) i MDone)) b
         | None => w_mvs (wake visits s k v) (updl (mvs (wake visits s k v)) i MDone) end) = measure (w_mvs (wake visits s k v) (updl (mvs (wake visits s k v)) i MDone))).
      { destruct v; auto. }
      rewrite X. apply WK; cbn; try lia; auto.
    - discriminate.
  Qed.
  Lemma background_measure pin s x s' : background x -> step visits pin s x = Some s' -> measure s' < measure s.
  Proof.
    intros G H. destruct x as [k a|k|i|i|i|a|a|a|i c]; try destruct G; cbn [step] in H.
    - destruct (nth_error (trys s) i) as [[w a]|] eqn:N; [|discriminate]. pose proof (del_len _ _ _ N) as L.
      destruct (cmov (mem s a)); apply some_inj in H; subst s'; unfold measure.
      + destruct (enqueue_same visits (w_trys s (del (trys s) i)) a (w, WUser)) as (_ & _ & -> & -> & _). cbn. lia.
      + destruct (answer_frame (w_trys s (del (trys s) i)) w WUser (acquired s a)) as (_ & _ & -> & _).
        pose proof (answer_ranks (w_trys s (del (trys s) i)) w WUser (acquired s a)). cbn [trys mvs w_trys] in *. lia.
    - destruct (nth_error (mvs s) i) as [m|] eqn:N; [|discriminate]. eapply moverStep_measure; eauto.
  Qed.

  Definition quiet (s : state) : Prop := trys s = [] /\ forall m, In m (mvs s) -> m = MDone.
  Lemma ready pin s i m : trys s = [] -> nth_error (mvs s) i = Some m -> isWait m = false -> m <> MDone -> step visits pin s (AStep i CFail) <> None.
  Proof.
    intros TR N W D. cbn [step]. rewrite N. unfold moverStep, go, locked. rewrite TR. cbn [existsb].
    destruct m as [a|a n|a n|a|a|a|a|p|p|p k|p k w|p k v|]; try discriminate; try congruence.
    destruct (idx s k) as [a|]; [|discriminate]. destruct (cmov (mem s a)); discriminate.
  Qed.
  Lemma enabled pin s : Inv s -> ~ quiet s -> exists x, background x /\ step visits pin s x <> None.
  Proof.
    intros (B & C & T) NQ. destruct (trys s) as [|[w a] r] eqn:TR.
    2: { exists (ATry 0). split; [exact Logic.I|]. cbn. rewrite TR. cbn. destruct (cmov (mem s a)); discriminate. }
    assert (A : forall m, In m (mvs s) -> isWait m = false -> m <> MDone -> exists x, background x /\ step visits pin s x <> None).
    { intros m I W D. destruct (In_nth_error _ _ I) as (i & N). exists (AStep i CFail). split; [exact Logic.I|]. eapply ready; eauto. }
    assert (WT : forall d p k w, nw s - w <= d -> In (MCWait p k w) (mvs s) -> exists x, background x /\ step visits pin s x <> None).
    { induction d as [|d IH]; intros p k w L I; destruct (t_wait s T p k w I) as (e & E1 & E2 & E3);
        (assert (w < nw s) by (pose proof (cntT_in w WMover e (tbl s) E1 E3); pose proof (c_one s C w) as Q;
           destruct (Nat.ltb_spec w (nw s)); [auto|cbn [b2n] in Q; lia])); [lia|].
      destruct (t_w s T e w WMover E1 E3) as (_ & g & G1 & G2).
      destruct (isWait g) eqn:W.
      - destruct g; try discriminate. cbn in G2. eapply (IH p0 k0 w0); [lia|exact G1].
      - apply (A g G1 W). intros ->. exact G2. }
    assert (EX : exists m, In m (mvs s) /\ m <> MDone).
    { pose proof (all_done (mvs s)) as X.
      destruct X as [X|X]; [|exact X]. destruct NQ. split; auto. }
    destruct EX as (m & I & D). destruct (isWait m) eqn:W; [|eauto]. destruct m; try discriminate. eapply WT; [apply le_n|exact I].
  Qed.

  Lemma quiet_answered s w k : Inv s -> quiet s -> In (EAsk w k) (tr s) -> ansn w (tr s) = 1.
  Proof.
    intros (B & C & T) (Q1 & Q2) I.
    assert (tbl s = []) as TB.
    { destruct (tbl s) as [|e r] eqn:TB; [auto|]. destruct (t_ent s T e) as (_ & _ & m & M1 & M2); [rewrite TB; left; reflexivity|].
      apply Q2 in M1. subst m. destruct M2. }
    assert (w < nw s) as L by (apply C; eauto). pose proof (c_one s C w) as X. rewrite Q1, TB in X.
    apply Nat.ltb_lt in L. rewrite L in X. cbn in X. exact X.
  Qed.
End P.
