(** The table of waiters when no parent is freed in the window. *)
From Coq Require Import List Arith Bool Lia.
Import ListNotations.
From Verif Require Import MoveWait_model MoveWait_proofs1 MoveWait_proofs2 MoveWait_proofs3 MoveWait_proofs4.

Definition cover (m : mpc) (a k : nat) : Prop :=
  match m with
  | MReg x | MUnm x _ | MWake x _ | MEv x | MEvU x | MEvW x | MChild x | MCUnm x => x = a
  | MCFind p j | MCWait p j _ | MCWake p j _ => p = a /\ j = k
  | MFree _ | MDone => False
  end.
Definition wakes (s : state) (m : mpc) (k w : nat) : Prop :=
  match m with
  | MReg x | MUnm x _ | MWake x _ | MEv x | MEvU x | MEvW x | MChild x | MCUnm x => ckey (mem s x) = k
  | MCFind _ j | MCWake _ j _ => j = k
  | MCWait _ j w' => j = k /\ w < w'
  | MFree _ | MDone => False
  end.
Definition keyok (s : state) (m : mpc) : Prop :=
  match m with
  | MUnm a n | MWake a n => ckey (mem s n) = ckey (mem s a)
  | MCWake p k (Some b) => ckey (mem s b) = k
  | _ => True
  end.

Record Tbl (s : state) : Prop := {
  t_ent : forall e, In e (tbl s) -> clive (mem s (eptr e)) = true /\ ckey (mem s (eptr e)) = ekey e /\
            exists m, In m (mvs s) /\ cover m (eptr e) (ekey e);
  t_nd : NoDup (map ekey (tbl s));
  t_w : forall e w o, In e (tbl s) -> In (w, o) (ews e) -> In (EAsk w (ekey e)) (tr s) /\
          exists m, In m (mvs s) /\ wakes s m (ekey e) w;
  t_try : forall w a, In (w, a) (trys s) -> In (EAsk w (ckey (mem s a))) (tr s);
  t_wait : forall p k w, In (MCWait p k w) (mvs s) -> exists e, In e (tbl s) /\ ekey e = k /\ In (w, WMover) (ews e);
  t_key : forall m, In m (mvs s) -> keyok s m;
  t_free : forall a e, In (MFree a) (mvs s) -> In e (tbl s) -> eptr e <> a;
  t_ans : forall w a j k, In (EAns w (Some (a, j))) (tr s) -> In (EAsk w k) (tr s) -> j = k
}.

Section Tbl.
  Variable visits : nat -> nat -> bool.
  Hypothesis visits_refl : forall k, visits k k = true.

  Definition valid (s : state) : Prop := forall e, In e (tbl s) -> ckey (mem s (eptr e)) = ekey e.
  Lemma hit_key s k e : ckey (mem s (eptr e)) = ekey e -> hit visits s k e = (ekey e =? k).
  Proof.
    intros E. unfold hit. rewrite E. destruct (Nat.eqb_spec (ekey e) k) as [->|N]; [now rewrite visits_refl|apply andb_false_r].
  Qed.

  Lemma erase_spec s k l : (forall e, In e l -> ckey (mem s (eptr e)) = ekey e) -> NoDup (map ekey l) ->
    (forall e, In e (snd (erase visits s k l)) <-> In e l /\ ekey e <> k) /\
    (forall x, In x (fst (erase visits s k l)) <-> exists e, In e l /\ ekey e = k /\ In x (ews e)) /\
    NoDup (map ekey (snd (erase visits s k l))).
  Proof.
    induction l as [|e r IH]; intros V N.
    - cbn. split; [tauto|]. split; [|constructor]. intros x. split; [tauto|]. intros (e & [] & _).
    - cbn [erase]. rewrite (hit_key s k e) by (apply V; left; reflexivity).
      inversion N as [|? ? N1 N2]; subst.
      destruct (Nat.eqb_spec (ekey e) k) as [E|E].
      + cbn. assert (X : forall e', In e' r -> ekey e' <> k).
        { intros e' I F. apply N1. rewrite E, <- F. now apply in_map. }
        split; [|split; [|auto]].
        * intros e'. split; [intros I; split; [auto|now apply X]|]. intros ([->|I] & F); [tauto|auto].
        * intros x. split; [intros I; exists e; auto|]. intros (e' & [<-|I] & F & J); [auto|]. destruct (X _ I F).
      + destruct IH as (A & B & C); [intros; apply V; right; auto|auto|].
        destruct (erase visits s k r) as [ws r'] eqn:ER. cbn in *. split; [|split].
        * intros e'. rewrite A. split; [intros [<-|(I & F)]; auto|]. intros ([->|I] & F); auto.
        * intros x. rewrite B. split; [intros (e' & I & F & J); exists e'; auto|]. intros (e' & [<-|I] & F & J); [tauto|eauto].
        * constructor; [|auto]. rewrite in_map_iff. intros (e' & F & I). apply N1. rewrite <- F. apply in_map. now apply A.
  Qed.

  Lemma addTo_spec s k w l : (forall e, In e l -> ckey (mem s (eptr e)) = ekey e) ->
    match addTo visits s k w l with
    | None => forall e, In e l -> ekey e <> k
    | Some l' => map ekey l' = map ekey l /\
      (forall e', In e' l' -> exists e, In e l /\ eptr e' = eptr e /\ ekey e' = ekey e /\
          forall x, In x (ews e') -> In x (ews e) \/ x = w /\ ekey e = k) /\
      (forall e, In e l -> exists e', In e' l' /\ ekey e' = ekey e /\ incl (ews e) (ews e')) /\
      exists e', In e' l' /\ ekey e' = k /\ In w (ews e')
    end.
  Proof.
    induction l as [|e r IH]; intros V.
    - cbn. tauto.
    - cbn [addTo]. rewrite (hit_key s k e) by (apply V; left; reflexivity).
      destruct (Nat.eqb_spec (ekey e) k) as [E|E].
      + cbn. split; [reflexivity|]. split; [|split].
        * intros e' [<-|I].
          -- exists e. cbn. split; [auto|]. split; [auto|]. split; [auto|]. intros x. rewrite in_app_iff. cbn. intuition auto.
          -- exists e'. repeat split; auto.
        * intros e' [<-|I].
          -- eexists. split; [left; reflexivity|]. cbn. split; [auto|]. intros x J. apply in_app_iff. auto.
          -- exists e'. split; [auto|]. split; [auto|]. apply incl_refl.
        * eexists. split; [left; reflexivity|]. cbn. split; [auto|]. apply in_app_iff. cbn. auto.
      + specialize (IH (fun e' I => V e' (or_intror I))).
        destruct (addTo visits s k w r) as [r'|].
        * destruct IH as (A & B & C & (e0 & D1 & D2 & D3)). cbn. split; [now rewrite A|]. split; [|split].
          -- intros e' [<-|I]; [exists e; repeat split; auto|]. destruct (B e' I) as (e1 & X & Y). exists e1. auto.
          -- intros e' [<-|I]; [exists e; split; [auto|]; split; [auto|apply incl_refl]|].
             destruct (C e' I) as (e1 & X & Y). exists e1. auto.
          -- exists e0. auto.
        * intros e' [<-|I]; [auto|]. now apply IH.
  Qed.

  (** [t] has the table of [s]; what has to be shown. *)
  Lemma keep s t : Tbl s -> tbl t = tbl s ->
    (forall e, In e (tbl s) -> clive (mem t (eptr e)) = true /\ ckey (mem t (eptr e)) = ckey (mem s (eptr e))) ->
    (forall e m, In e (tbl s) -> In m (mvs s) -> ckey (mem s (eptr e)) = ekey e -> cover m (eptr e) (ekey e) ->
       exists m', In m' (mvs t) /\ cover m' (eptr e) (ekey e)) ->
    (forall e m w o, In e (tbl s) -> In (w, o) (ews e) -> In m (mvs s) -> wakes s m (ekey e) w ->
       exists m', In m' (mvs t) /\ wakes t m' (ekey e) w) ->
    (forall w a, In (w, a) (trys t) -> In (EAsk w (ckey (mem t a))) (tr t)) ->
    (forall m, In m (mvs t) -> keyok t m /\
       (In m (mvs s) \/ match m with
          | MCWait p k w => exists e, In e (tbl s) /\ ekey e = k /\ In (w, WMover) (ews e)
          | MFree a => forall e, In e (tbl s) -> eptr e <> a | _ => True end)) ->
    incl (tr s) (tr t) ->
    (forall w a j k, In (EAns w (Some (a, j))) (tr t) -> In (EAsk w k) (tr t) -> j = k) -> Tbl t.
  Proof.
    intros [T1 T2 T3 T4 T5 T6 T7 T8] TB M CV WK TR MV TC TA. constructor; rewrite ?TB; auto.
    - intros e I. destruct (T1 e I) as (A & B & m & C & D). destruct (M e I) as (E & F). split; [auto|]. split; [congruence|]. eauto.
    - intros e w o I J. destruct (T3 e w o I J) as (A & m & B & C). split; [now apply TC|]. eauto.
    - intros p k w I. destruct (MV _ I) as (_ & [J|J]); [eauto|exact J].
    - intros m I. apply MV. auto.
    - intros a e I. destruct (MV _ I) as (_ & [J|J]); [eauto|apply J].
  Qed.

  (** Keys of live memory stay. *)
  Definition keys (s t : state) : Prop := forall a, clive (mem s a) = true -> ckey (mem t a) = ckey (mem s a).
  Lemma keyok_keys s t m : Base s -> keys s t -> In m (mvs s) -> keyok s m -> keyok t m.
  Proof.
    intros B K I H. destruct m as [a|a n|a n|a|a|a|a|p|p|p k|p k w|p k [b|]|]; cbn in *; auto.
    1,2: rewrite !K; auto; [eapply b_own; eauto; cbn; auto|eapply b_mh; eauto; cbn; apply Nat.eqb_refl].
    rewrite K; auto. eapply b_mh; eauto; cbn; apply Nat.eqb_refl.
  Qed.
  Lemma wakes_keys s t m k w : Base s -> keys s t -> In m (mvs s) -> wakes s m k w -> wakes t m k w.
  Proof.
    intros B K I H. destruct m; cbn in *; auto; rewrite K; auto; eapply b_own; eauto; cbn; auto.
  Qed.

  (** No mover moves. *)
  Lemma keep_mvs s t : Base s -> Tbl s -> tbl t = tbl s -> mvs t = mvs s -> keys s t ->
    (forall e, In e (tbl s) -> clive (mem t (eptr e)) = true) ->
    (forall w a, In (w, a) (trys t) -> In (EAsk w (ckey (mem t a))) (tr t)) ->
    incl (tr s) (tr t) ->
    (forall w a j k, In (EAns w (Some (a, j))) (tr t) -> In (EAsk w k) (tr t) -> j = k) -> Tbl t.
  Proof.
    intros B T E1 E2 K L TR TC TA. apply (keep s t); auto; rewrite ?E2.
    - intros e I. split; [auto|]. apply K. now apply T.
    - intros e m I J _ C. eauto.
    - intros e m w o I J H W. exists m. split; [auto|]. eapply wakes_keys; eauto.
    - intros m I. split; [|auto]. eapply keyok_keys; eauto. now apply T.
  Qed.

  (** One mover moves, without waking. *)
  Lemma keep_pc s t l1 m l2 m' : Base s -> Tbl s -> tbl t = tbl s -> mvs s = l1 ++ m :: l2 -> mvs t = l1 ++ m' :: l2 -> keys s t ->
    (forall e, In e (tbl s) -> clive (mem t (eptr e)) = true) ->
    (forall e, In e (tbl s) -> ckey (mem s (eptr e)) = ekey e -> cover m (eptr e) (ekey e) -> cover m' (eptr e) (ekey e)) ->
    (forall e w o, In e (tbl s) -> In (w, o) (ews e) -> wakes s m (ekey e) w -> exists x, In x (mvs t) /\ wakes t x (ekey e) w) ->
    keyok t m' ->
    match m' with
          | MCWait p k w => exists e, In e (tbl s) /\ ekey e = k /\ In (w, WMover) (ews e)
          | MFree a => forall e, In e (tbl s) -> eptr e <> a | _ => True end ->
    (forall w a, In (w, a) (trys t) -> In (EAsk w (ckey (mem t a))) (tr t)) ->
    incl (tr s) (tr t) ->
    (forall w a j k, In (EAns w (Some (a, j))) (tr t) -> In (EAsk w k) (tr t) -> j = k) -> Tbl t.
  Proof.
    intros B T E1 E2 E3 K L CV WK KO X TR TC TA. apply (keep s t); auto.
    - intros e I. split; [auto|]. apply K. now apply T.
    - intros e x I J C1 C2. rewrite E2 in J. apply in_mid in J. destruct J as [->|J].
      + exists m'. split; [rewrite E3; apply in_mid; auto|]. auto.
      + exists x. split; [rewrite E3; apply in_mid; auto|auto].
    - intros e x w o I J H W. rewrite E2 in H. apply in_mid in H. destruct H as [->|H]; [eauto|].
      exists x. split; [rewrite E3; apply in_mid; auto|]. eapply wakes_keys; eauto. rewrite E2. apply in_mid. auto.
    - intros x I. rewrite E3 in I. apply in_mid in I. destruct I as [->|I]; [auto|].
      assert (J : In x (mvs s)) by (rewrite E2; apply in_mid; auto). split; [|auto]. eapply keyok_keys; eauto. now apply T.
  Qed.

  (** Answers. *)
  Definition askOK (s : state) : Prop := forall w k j, In (EAsk w k) (tr s) -> In (EAsk w j) (tr s) -> k = j.

  Lemma enqueue_tbl s a w o : Base s -> Tbl s -> askOK s -> cmov (mem s a) = true -> In (EAsk w (ckey (mem s a))) (tr s) ->
    Tbl (enqueue visits s a (w, o)) /\
    exists e, In e (tbl (enqueue visits s a (w, o))) /\ ekey e = ckey (mem s a) /\ In (w, o) (ews e).
  Proof.
    intros B T AO M A. destruct (enqueue_same visits s a (w, o)) as (S1 & S2 & S3 & S4 & S5).
    destruct (enqueue_frame visits s a (w, o)) as (S6 & S7).
    destruct (b_mov s B a M) as (g & G1 & G2 & G3).
    assert (GC : cover g a (ckey (mem s a))) by (destruct g; cbn in *; try discriminate; destruct G2 as [->|[]]; auto).
    assert (GW : wakes s g (ckey (mem s a)) w) by (destruct g; cbn in *; try discriminate; destruct G2 as [->|[]]; auto).
    assert (LA : clive (mem s a) = true) by (eapply b_own; eauto).
    assert (WW : forall t m k x, mem t = mem s -> wakes s m k x -> wakes t m k x).
    { intros t m k x E. destruct m; cbn; rewrite ?E; auto. }
    pose proof (addTo_spec s (ckey (mem s a)) (w, o) (tbl s) (fun e I => proj1 (proj2 (t_ent s T e I)))) as AD.
    assert (SPEC : (forall e', In e' (tbl (enqueue visits s a (w, o))) ->
        (exists e, In e (tbl s) /\ eptr e' = eptr e /\ ekey e' = ekey e /\
           forall x, In x (ews e') -> In x (ews e) \/ x = (w, o) /\ ekey e = ckey (mem s a)) \/ e' = mkE a (ckey (mem s a)) [(w, o)]) /\
      NoDup (map ekey (tbl (enqueue visits s a (w, o)))) /\
      (forall e, In e (tbl s) -> exists e', In e' (tbl (enqueue visits s a (w, o))) /\ ekey e' = ekey e /\ incl (ews e) (ews e')) /\
      (exists e', In e' (tbl (enqueue visits s a (w, o))) /\ ekey e' = ckey (mem s a) /\ In (w, o) (ews e'))).
    { unfold enqueue. destruct (addTo visits s (ckey (mem s a)) (w, o) (tbl s)) as [t|]; cbn.
      - destruct AD as (A1 & A2 & A3 & A4). split; [auto|]. split; [rewrite A1; apply T|]. auto.
      - split; [|split; [|split]].
        + intros e' I. apply in_app_iff in I. destruct I as [I|[<-|[]]]; [left; exists e'; repeat split; auto|auto].
        + rewrite map_app. cbn. pose proof (t_nd s T) as N. clear - N AD.
          induction (tbl s) as [|e r IH]; cbn in *; [constructor; [tauto|constructor]|].
          inversion N; subst. constructor; [|apply IH; auto]. rewrite in_app_iff. cbn. intros [I|[I|[]]]; [auto|].
          apply (AD e); auto.
        + intros e I. exists e. split; [apply in_app_iff; auto|]. split; [auto|apply incl_refl].
        + eexists. split; [apply in_app_iff; right; left; reflexivity|]. cbn. auto. }
    destruct SPEC as (P1 & P2 & P3 & P4). split; [|exact P4].
    constructor; rewrite ?S1, ?S3, ?S4, ?S7; try apply T; auto.
    - intros e' I. destruct (P1 e' I) as [(e & J & E1 & E2 & _)| ->].
      + rewrite E1, E2. now apply T.
      + cbn. split; [auto|]. split; [auto|]. eauto.
    - intros e' x q I J. destruct (P1 e' I) as [(e & J1 & E1 & E2 & E3)| ->].
      + rewrite E2. destruct (E3 _ J) as [J2|([= -> ->] & E4)].
        * destruct (t_w s T e x q J1 J2) as (X & g' & Y & Z). split; [auto|]. exists g'. split; [auto|]. now apply WW.
        * rewrite E4. split; [auto|]. exists g. split; [auto|]. now apply WW.
      + cbn in J. destruct J as [[= -> ->]|[]]. cbn. split; [auto|]. exists g. split; [auto|]. now apply WW.
    - intros p k x I. destruct (t_wait s T p k x I) as (e & J1 & J2 & J3). destruct (P3 e J1) as (e' & K1 & K2 & K3).
      exists e'. split; [auto|]. split; [congruence|auto].
    - intros m I. specialize (t_key s T m I). unfold keyok. rewrite S1. auto.
    - intros b e' I J F. destruct (P1 e' J) as [(e & J1 & E1 & _)| ->].
      + apply (t_free s T b e I J1). congruence.
      + cbn in F. subst b. destruct (b_own s B (MFree a) a I (or_introl eq_refl)) as (_ & _ & (X & _)). congruence.
  Qed.

  (** An answer to a lookup that is not in the table. *)
  Lemma answer_tbl s w o v k : Base s -> Tbl s -> o <> WMover -> askOK s -> In (EAsk w k) (tr s) ->
    (forall a, v = Some a -> ckey (mem s a) = k) -> Tbl (answer s w o v).
  Proof.
    intros B T NO AO A KV. pose proof (answer_mem s w o v) as M. destruct (answer_frame s w o v) as (I & E1 & E2 & E3).
    apply (keep_mvs s); auto.
    - rewrite answer_mvs. destruct o; auto. congruence.
    - intros a _. apply M.
    - intros e J. destruct (M (eptr e)) as (_ & -> & _). now apply T.
    - rewrite E2. intros x a J. destruct (M a) as (-> & _). rewrite answer_tr. right. now apply T.
    - intros x J. rewrite answer_tr. right. auto.
    - intros x a j i. rewrite answer_tr. intros [J|J] [H|H]; try discriminate; [|eapply t_ans; eauto].
      injection J as -> F. destruct v as [b|]; [|discriminate]. cbn in F. injection F as -> <-.
      rewrite (KV a eq_refl). eapply AO; eauto.
  Qed.
End Tbl.
