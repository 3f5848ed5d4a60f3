(** stop, wakeUp and the one worker. *)
From Coq Require Import List Arith Bool Lia.
Import ListNotations.
From Verif Require Import PeriodicW_model PeriodicW_spec PeriodicW_proofs1 PeriodicW_proofs2.

Definition of (e : event) (c : nat) : Prop :=
  match e with
  | StartCall d _ | Launch d | StartOld d | StartRet d _ | StopCall d _ | StopDo d _ | StopAwake d _ | StopJoin d | StopRet d _
  | WakeCall d | WakeSet d | WakeNote d _ | WakeRet d => d = c
  | _ => False
  end.

Ltac stepcases H := unfold step, take in H; repeat match type of H with
  | context[match ?x with _ => _ end] => let E := fresh "E" in destruct x eqn:E; try discriminate H
  end; apply some_inj in H; subst.

Lemma upd_same : forall A (f : nat -> A) i v, upd f i v i = v. Proof. intros. unfold upd. now rewrite Nat.eqb_refl. Qed.
Lemma upd_other : forall A (f : nat -> A) i v j, j <> i -> upd f i v j = f j.
Proof. intros A f i v j N. unfold upd. destruct (Nat.eqb_spec j i); congruence. Qed.

Lemma notify_frame : forall s w s1, notify s w = Some s1 -> flag s1 = flag s /\ thr s1 = thr s /\ wake s1 = wake s /\ held s1 = held s /\
  (forall c, ctl s1 c = ctl s c \/ exists f, ctl s c = CWait f false /\ ctl s1 c = CWait f true) /\
  (forall t, ths s1 t = ths s t \/ (ths s t = TSleep false /\ ths s1 t = TSleep true)).
Proof.
  intros s w s1 N. apply notify_cases in N. destruct N as [(->&->&_)|[(t & -> & L & T & ->)|(d & f & -> & L & D & ->)]]; cbn; repeat (split; [auto|]); auto.
  - intros u. unfold upd. destruct (Nat.eqb_spec u t) as [->|]; auto.
  - intros u. unfold upd. destruct (Nat.eqb_spec u d) as [->|]; eauto.
Qed.

(** What a step of somebody else does to caller [c]. *)
Lemma frame : forall s e s' c, step s e = Some s' -> ~ of e c ->
  ctl s' c = ctl s c \/ exists f, ctl s c = CWait f false /\ ctl s' c = CWait f true.
Proof.
  intros s e s' c H N. destruct e as [d z|d|d|d b|d f|d w|d k|d|d b|d|d|d w|d|t|t k|t|t|t|t k|t w]; cbn in N;
  unfold step, take in H; repeat match type of H with
  | context[match notify ?x ?w with _ => _ end] => let E := fresh "NT" in destruct (notify x w) eqn:E; try discriminate H
  | context[match ?x with _ => _ end] => let E := fresh "E" in destruct x eqn:E; try discriminate H
  end; apply some_inj in H; subst; cbn; try (left; reflexivity); try (left; apply upd_other; congruence);
  match goal with NT : notify _ _ = Some _ |- _ => apply notify_frame in NT; destruct NT as (_ & _ & _ & _ & F & _); specialize (F c) end; cbn in F;
  try rewrite upd_other by congruence; exact F.
Qed.
Lemma thr_change : forall s e s', step s e = Some s' -> ~ launches e -> thr s' = thr s \/ thr s' = None.
Proof.
  intros s e s' H N. destruct e as [d z|d|d|d b|d f|d w|d k|d|d b|d|d|d w|d|t|t k|t|t|t|t k|t w]; cbn in N; try tauto;
  unfold step, take in H; repeat match type of H with
  | context[match notify ?x ?w with _ => _ end] => let E := fresh "NT" in destruct (notify x w) eqn:E; try discriminate H
  | context[match ?x with _ => _ end] => let E := fresh "E" in destruct x eqn:E; try discriminate H
  end; apply some_inj in H; subst; cbn; auto;
  match goal with NT : notify _ _ = Some _ |- _ => apply notify_frame in NT; destruct NT as (_ & F & _); cbn in F end; left; congruence.
Qed.

(** ** After stop() has returned true *)
Lemma no_thread_no_loop : forall s e s', Inv s -> thr s = None -> step s e = Some s' -> ~ launches e -> ~ looping e /\ thr s' = None.
Proof.
  intros s e s' I T H N. split; [|destruct (thr_change _ _ _ H N); congruence].
  assert (A : forall t, exited (ths s t) = true) by (intros t; apply (i_ex s I); congruence).
  destruct e; cbn; auto; intros _.
  - specialize (A t). stepcases H; try rewrite E in A; discriminate A.
  - apply begin_gen in H; [|assumption]. destruct H as (_ & X & _). rewrite A in X. discriminate.
  - specialize (A t). stepcases H; try rewrite E in A; discriminate A.
  - specialize (A t). stepcases H; try rewrite E in A; discriminate A.
  - specialize (A t). stepcases H; try rewrite E in A; discriminate A.
  - apply exit_gen in H; [|assumption]. destruct H as (_ & X & _). rewrite A in X. discriminate.
Qed.
Lemma no_thread_run : forall es s s', Inv s -> thr s = None -> run s es = Some s' -> none launches es -> none looping es.
Proof.
  induction es as [|e es IH]; intros s s' I T H N; [intros e []|]. cbn in H. destruct (step s e) as [s1|] eqn:E; [|discriminate].
  destruct (no_thread_no_loop s e s1 I T E) as [X T1]; [apply N; now left|].
  intros x [<-|Q]; [assumption|]. eapply (IH s1 s'); eauto; [eapply inv_step; eauto|]. intros y Y. apply N. now right.
Qed.
Definition stopInv (c : nat) (s : state) : Prop :=
  match ctl s c with CStop _ | CWait _ _ | CStopR false => True | CJoin _ | CStopR true => thr s = None | _ => False end.
Lemma stopInv_step : forall c s e s', Inv s -> stopInv c s -> step s e = Some s' -> ~ launches e -> (forall b, e <> StopRet c b) -> stopInv c s'.
Proof.
  intros c s e s' I P H N R. unfold stopInv in *.
  assert (D : of e c \/ ~ of e c) by (destruct e; cbn; try tauto; try (destruct (Nat.eq_dec c0 c); tauto)).
  destruct D as [D|D].
  - destruct e; cbn in D; try contradiction; subst c0; try (exfalso; now apply N); try (exfalso; eapply R; reflexivity).
    all: try (unfold step in H; destruct (ctl s c) eqn:C; try discriminate; contradiction).
    + unfold step in H. destruct (ctl s c) eqn:C; try discriminate. destruct (held s); [discriminate|]. destruct (flag s) eqn:F.
      * apply some_inj in H. subst s'. cbn. now rewrite upd_same.
      * destruct (thr s) eqn:T; [destruct (notify _ w); [|discriminate]|]; apply some_inj in H; subst s'; cbn; rewrite upd_same; auto.
    + unfold step in H. destruct (ctl s c) eqn:C; try discriminate. destruct (held s); [discriminate|].
      assert (Q : forall s', flag s = false -> take s c = Some s' -> match ctl s' c with CStop _ | CWait _ _ | CStopR false => True | CJoin _ | CStopR true => thr s' = None | _ => False end).
      { intros s2 F2 T2. destruct (inv_take _ _ _ _ _ I C F2 T2) as (_ & t & _ & _ & ->). cbn. now rewrite upd_same. }
      destruct k; [discriminate| | |].
      * destruct n; [|discriminate]. destruct (flag s) eqn:F; [|first [exact (Q _ F H)|exact (Q _ eq_refl H)]]. apply some_inj in H; subst s'; cbn; now rewrite upd_same.
      * destruct (flag s) eqn:F; [|first [exact (Q _ F H)|exact (Q _ eq_refl H)]]. apply some_inj in H; subst s'; cbn; now rewrite upd_same.
      * destruct f; [discriminate|]. destruct (flag s) eqn:F; [|first [exact (Q _ F H)|exact (Q _ eq_refl H)]]. apply some_inj in H; subst s'; cbn; now rewrite upd_same.
    + unfold step in H. destruct (ctl s c) eqn:C; try discriminate. destruct (ths s t); try discriminate. apply some_inj in H. subst s'. cbn. now rewrite upd_same.
  - pose proof (thr_change _ _ _ H N) as T. destruct (frame _ _ _ _ H D) as [->|(f & C & ->)]; [|exact Logic.I].
    destruct (ctl s c); auto; try (destruct b; auto); destruct T; congruence.
Qed.
Lemma stopInv_run : forall c es s s', Inv s -> stopInv c s -> run s es = Some s' -> none launches es -> (forall b, ~ In (StopRet c b) es) -> stopInv c s'.
Proof.
  intros c es. induction es as [|e es IH]; intros s s' I P H N R; cbn in H; [congruence|]. destruct (step s e) as [s1|] eqn:E; [|discriminate].
  apply (IH s1 s'); auto.
  - eapply inv_step; eauto.
  - eapply stopInv_step; eauto; [apply N; now left|]. intros b X. apply (R b). left. congruence.
  - intros y Y. apply N. now right.
  - intros b X. apply (R b). now right.
Qed.
Lemma stop_quiet : forall n c f pre mid post s, run (init n) (pre ++ StopCall c f :: mid ++ StopRet c true :: post) = Some s ->
  (forall b, ~ In (StopRet c b) mid) -> none launches (mid ++ post) -> none looping post.
Proof.
  intros n c f pre mid post s H R N. rewrite run_app in H. destruct (run (init n) pre) as [s1|] eqn:E1; [|discriminate].
  pose proof (inv_run _ _ _ (inv_init n) E1) as I1. cbn [run] in H. destruct (step s1 (StopCall c f)) as [s2|] eqn:E2; [|discriminate].
  pose proof (inv_step _ _ _ I1 E2) as I2. rewrite run_app in H. destruct (run s2 mid) as [s3|] eqn:E3; [|discriminate].
  pose proof (inv_run _ _ _ I2 E3) as I3. cbn [run] in H. destruct (step s3 (StopRet c true)) as [s4|] eqn:E4; [|discriminate].
  assert (P2 : stopInv c s2).
  { unfold step in E2. destruct (ctl s1 c); try discriminate. destruct (c <? nc s1); [|discriminate]. apply some_inj in E2. subst s2. unfold stopInv. cbn. now rewrite upd_same. }
  assert (P3 : stopInv c s3) by (apply (stopInv_run c mid s2 s3 I2 P2 E3); auto; intros y Y; apply N, in_or_app; now left).
  assert (T4 : thr s4 = None).
  { unfold step in E4. unfold stopInv in P3. destruct (ctl s3 c); try discriminate. destruct b; [|discriminate]. apply some_inj in E4. subst s4. exact P3. }
  eapply no_thread_run; [| |exact H|]; eauto; [eapply inv_step; eauto|]. intros y Y. apply N, in_or_app. now right.
Qed.

(** ** One work() at a time *)
Lemma ths_frame_work : forall s e s' t, Inv s -> step s e = Some s' -> ths s t = TWork -> e <> End t -> ths s' t = TWork.
Proof.
  intros s e s' t I H T N. pose proof (alive s t I ltac:(now rewrite T)) as Al.
  destruct e as [d z|d|d|d b|d f|d w|d k|d|d b|d|d|d w|d|u|u k|u|u|u|u k|u w];
  try (unfold step, take in H; repeat match type of H with
  | context[match notify ?x ?w with _ => _ end] => let E := fresh "NT" in destruct (notify x w) eqn:E; try discriminate H
  | context[match ?x with _ => _ end] => let E := fresh "E" in destruct x eqn:E; try discriminate H
  end; apply some_inj in H; subst; cbn; try exact T;
  try match goal with NT : notify _ _ = Some _ |- _ => apply notify_frame in NT; destruct NT as (_ & _ & _ & _ & _ & F); specialize (F t); cbn in F end;
  try (rewrite upd_other by congruence); first [exact T|destruct F as [F|[F _]]; congruence]).
Qed.
Lemma work_run : forall es s s' t, Inv s -> run s es = Some s' -> ths s t = TWork -> ~ In (End t) es -> ths s' t = TWork.
Proof.
  induction es as [|e es IH]; intros s s' t I H T N; cbn in H; [congruence|]. destruct (step s e) as [s1|] eqn:E; [|discriminate].
  apply (IH s1 s' t); auto; [eapply inv_step; eauto| |intros X; apply N; now right]. eapply ths_frame_work; eauto. intros X. apply N. left. congruence.
Qed.
Lemma event_dec_end : forall t es, In (End t) es \/ ~ In (End t) es.
Proof.
  intros t es. induction es as [|e es IH]; [right; intros []|]. destruct IH as [IH|IH]; [left; now right|].
  destruct e; try (right; intros [X|X]; [discriminate|contradiction]). destruct (Nat.eq_dec t0 t) as [->|Ne]; [left; now left|].
  right; intros [X|X]; [congruence|contradiction].
Qed.
Lemma one_work : forall n pre t k mid t' k' s, run (init n) (pre ++ Begin t k :: mid ++ [Begin t' k']) = Some s -> In (End t) mid.
Proof.
  intros n pre t k mid t' k' s H. destruct (event_dec_end t mid) as [|N]; [assumption|exfalso].
  rewrite run_app in H. destruct (run (init n) pre) as [s1|] eqn:E1; [|discriminate].
  pose proof (inv_run _ _ _ (inv_init n) E1) as I1. cbn [run] in H. destruct (step s1 (Begin t k)) as [s2|] eqn:E2; [|discriminate].
  pose proof (inv_step _ _ _ I1 E2) as I2. rewrite run_app in H. destruct (run s2 mid) as [s3|] eqn:E3; [|discriminate].
  pose proof (inv_run _ _ _ I2 E3) as I3. cbn [run] in H. destruct (step s3 (Begin t' k')) as [s4|] eqn:E4; [|discriminate].
  apply begin_gen in E2; [|assumption]. destruct E2 as (_ & _ & _ & _ & _ & T & _).
  assert (T3 : ths s3 t = TWork) by (apply (work_run mid s2 s3 t I2 E3); [rewrite T; apply upd_same|exact N]).
  pose proof (alive s3 t I3 ltac:(now rewrite T3)) as A1. pose proof E4 as E4'. apply begin_gen in E4; [|assumption]. destruct E4 as (_ & X & _).
  pose proof (alive s3 t' I3 X) as A2. assert (t' = t) by congruence. subst t'. unfold step in E4'. rewrite T3 in E4'. cbn in E4'. discriminate.
Qed.

(** ** A wake-up is not lost *)
Definition running (p : tpc) : bool := match p with TWork | TLock | TSleep _ => true | _ => false end.
Definition Q (s : state) : Prop := wake s = true \/ forall t, running (ths s t) = false.
Definition R (s : state) : Prop := forall t, ths s t <> TSleep false.
Lemma QR_step : forall s e s', Inv s -> step s e = Some s' -> ~ begins e -> Q s -> Q s' /\ (R s -> R s').
Proof.
  intros s e s' I H N Hq.
  destruct e as [d z|d|d|d b|d f|d w|d k|d|d b|d|d|d w|d|u|u k|u|u|u|u k|u w]; try (exfalso; now apply N).
  all: try (lazymatch goal with H0 : step _ (Exit _ _) = _ |- _ => fail | _ => idtac end; unfold step, take in H; repeat match type of H with
  | context[match notify ?x ?w with _ => _ end] => let E := fresh "NT" in destruct (notify x w) eqn:E; try discriminate H
  | context[match ?x with _ => _ end] => let E := fresh "E" in destruct x eqn:E; try discriminate H
  end; apply some_inj in H; subst; cbn; unfold Q, R; cbn; split; try exact Hq; try tauto).
  all: try (match goal with NT : notify _ _ = Some _ |- _ => apply notify_frame in NT; destruct NT as (_ & _ & W & _ & _ & F); cbn in W, F end;
    first [ destruct Hq as [Hq|Hq]; [left; congruence|right; intros t; specialize (F t); specialize (Hq t); try (unfold upd; destruct (t =? u); [reflexivity|]);
              destruct F as [->|[F1 F2]]; [exact Hq|rewrite F1 in Hq; discriminate]]
          | intros HR t; specialize (F t); specialize (HR t); try (unfold upd; destruct (t =? u); [discriminate|]); destruct F as [->|[F1 F2]]; congruence ]).
  - destruct Hq as [Hq|Hq]; [now left|right]. intros t. unfold upd. destruct (t =? next s); [reflexivity|auto].
  - intros HR t. unfold upd. destruct (t =? next s); [discriminate|auto].
  - destruct Hq as [Hq|Hq]; [now left|right]. intros t. unfold upd. destruct (t =? u); [reflexivity|auto].
  - intros HR t. unfold upd. destruct (t =? u); [discriminate|auto].
  - destruct Hq as [Hq|Hq]; [now left|]. specialize (Hq u). rewrite E in Hq. discriminate.
  - intros HR t. unfold upd. destruct (t =? u); [discriminate|auto].
  - apply orb_false_iff in E1. destruct Hq as [Hq|Hq]; [destruct E1; congruence|]. specialize (Hq u). rewrite E in Hq. discriminate.
  - apply orb_false_iff in E1. destruct Hq as [Hq|Hq]; [destruct E1; congruence|]. specialize (Hq u). rewrite E in Hq. discriminate.
  - apply orb_false_iff in E1. destruct Hq as [Hq|Hq]; [destruct E1; congruence|]. specialize (Hq u). rewrite E in Hq. discriminate.
  - apply orb_false_iff in E1. destruct Hq as [Hq|Hq]; [destruct E1; congruence|]. specialize (Hq u). rewrite E in Hq. discriminate.
  - apply exit_gen in H; [|assumption]. destruct H as (_ & X & I' & _ & T & Th & _). pose proof (alive s u I X) as Al. split.
    + right. intros t. destruct (running (ths s' t)) eqn:Rn; [|reflexivity]. exfalso.
      assert (exited (ths s' t) = false) by (destruct (ths s' t); try reflexivity; discriminate). pose proof (alive s' t I' H).
      assert (t = u) by congruence. subst t. rewrite Th, upd_same in Rn. discriminate.
    + intros HR t. rewrite Th. unfold upd. destruct (t =? u); [discriminate|auto].
Qed.
Lemma note_wakes : forall s w s1, Inv s -> notify s w = Some s1 -> R s1.
Proof.
  intros s w s1 I N t T. pose proof N as N'. apply notify_frame in N'. destruct N' as (_ & _ & _ & _ & _ & F).
  destruct (F t) as [F1|[F1 F2]]; [|congruence]. rewrite T in F1. symmetry in F1.
  pose proof (alive s t I ltac:(now rewrite F1)) as Al. pose proof (i_sleep s I t F1) as Fl.
  pose proof (i_ws s I) as W. unfold cnt in W. rewrite Fl, Al, F1 in W. cbn in W. destruct W as (ws & _ & W2 & W3).
  apply notify_cases in N. destruct N as [(->&->&N1&_)|[(v & -> & L & V & ->)|(d & g & -> & L & D & ->)]].
  - pose proof (in_next s t I ltac:(congruence)) as L. specialize (N1 t L). rewrite F1 in N1. discriminate.
  - pose proof (alive s v I ltac:(now rewrite V)). assert (v = t) by congruence. subst v. cbn in T. rewrite upd_same in T. discriminate.
  - assert (X : waiting (ctl s d) = true) by now rewrite D. apply W2 in X. destruct ws; [contradiction|discriminate].
Qed.
Lemma QR_run : forall es s s', Inv s -> run s es = Some s' -> none begins es -> Q s -> R s -> R s'.
Proof.
  induction es as [|e es IH]; intros s s' I H N Hq HR; cbn in H; [congruence|]. destruct (step s e) as [s1|] eqn:E; [|discriminate].
  destruct (QR_step s e s1 I E (N e ltac:(now left)) Hq) as [Hq1 HR1]. apply (IH s1 s'); auto; [eapply inv_step; eauto|]. intros y Y. apply N. now right.
Qed.
Definition wakeInv (c : nat) (s : state) : Prop := match ctl s c with CWake => True | CWakeN => Q s | CWakeR => Q s /\ R s | _ => False end.
Lemma wakeInv_step : forall c s e s', Inv s -> wakeInv c s -> step s e = Some s' -> ~ begins e -> e <> WakeRet c -> wakeInv c s'.
Proof.
  intros c s e s' I P H N Rt. unfold wakeInv in *.
  assert (D : of e c \/ ~ of e c) by (destruct e; cbn; try tauto; try (destruct (Nat.eq_dec c0 c); tauto)).
  destruct D as [D|D].
  - destruct e; cbn in D; try contradiction; subst c0; try congruence;
    try (unfold step in H; destruct (ctl s c) eqn:C; try discriminate; contradiction).
    + unfold step in H. destruct (ctl s c) eqn:C; try discriminate. destruct (held s); [discriminate|]. apply some_inj in H. subst s'. cbn. rewrite upd_same. now left.
    + assert (Hq : Q s) by (unfold step in H; destruct (ctl s c); try discriminate; exact P).
      destruct (QR_step s _ s' I H N Hq) as [Hq' _]. unfold step in H. destruct (ctl s c) eqn:C; try discriminate.
      destruct (notify s w) as [s1|] eqn:Nt; [|discriminate]. apply some_inj in H. subst s'. cbn. rewrite upd_same. split; [exact Hq'|].
      exact (note_wakes s w s1 I Nt).
  - destruct (frame _ _ _ _ H D) as [->|(f & C & ->)]; [|rewrite C in P; contradiction].
    destruct (ctl s c); auto; [eapply QR_step; eauto|]. destruct P as [P1 P2]. destruct (QR_step s e s' I H N P1) as [X1 X2]. auto.
Qed.
Lemma wake_not_lost : forall n c pre mid post s, run (init n) (pre ++ WakeCall c :: mid ++ WakeRet c :: post) = Some s ->
  ~ In (WakeRet c) mid -> none begins (mid ++ post) -> forall t, ths s t <> TSleep false.
Proof.
  intros n c pre mid post s H Rt N. rewrite run_app in H. destruct (run (init n) pre) as [s1|] eqn:E1; [|discriminate].
  pose proof (inv_run _ _ _ (inv_init n) E1) as I1. cbn [run] in H. destruct (step s1 (WakeCall c)) as [s2|] eqn:E2; [|discriminate].
  pose proof (inv_step _ _ _ I1 E2) as I2. rewrite run_app in H. destruct (run s2 mid) as [s3|] eqn:E3; [|discriminate].
  pose proof (inv_run _ _ _ I2 E3) as I3. cbn [run] in H. destruct (step s3 (WakeRet c)) as [s4|] eqn:E4; [|discriminate].
  assert (P2 : wakeInv c s2).
  { unfold step in E2. destruct (ctl s1 c); try discriminate. destruct (c <? nc s1); [|discriminate]. apply some_inj in E2. subst s2. unfold wakeInv. cbn. now rewrite upd_same. }
  assert (P3 : wakeInv c s3).
  { clear - I2 P2 E3 Rt N. assert (Nm : none begins mid) by (intros y Y; apply N, in_or_app; now left). clear N.
    revert s2 s3 I2 P2 E3 Rt Nm. induction mid as [|e mid IH]; intros s2 s3 I2 P2 E3 Rt Nm; cbn in E3; [congruence|]. destruct (step s2 e) as [s4|] eqn:E; [|discriminate].
    apply (IH s4 s3); auto; [eapply inv_step; eauto| |intros X; apply Rt; now right|intros y Y; apply Nm; now right].
    apply (wakeInv_step c s2 e s4); auto; [apply Nm; now left|intros X; apply Rt; now left]. }
  assert (QR : Q s4 /\ R s4).
  { unfold step in E4. unfold wakeInv in P3. destruct (ctl s3 c); try discriminate. apply some_inj in E4. subst s4. exact P3. }
  destruct QR as [Hq HR]. eapply QR_run; [| |  |exact Hq|exact HR]; [eapply inv_step; eauto|exact H|]. intros y Y. apply N, in_or_app. now right.
Qed.

(** ** From the moment stop() has raised the flag no work() begins *)
Definition NB (s : state) : Prop := flag s = true \/ forall t, exited (ths s t) = true.
Lemma NB_step : forall s e s', Inv s -> step s e = Some s' -> ~ launches e -> ~ stopTimesOut e -> NB s -> ~ begins e /\ NB s'.
Proof.
  intros s e s' I H N1 N2 P.
  destruct e as [d z|d|d|d b|d f|d w|d k|d|d b|d|d|d w|d|u|u k|u|u|u|u k|u w]; try (exfalso; now apply N1).
  all: try (lazymatch goal with H0 : step _ (Exit _ _) = _ |- _ => fail | H0 : step _ (Begin _ _) = _ |- _ => fail | _ => idtac end; split; [exact (fun x => x)|]; unfold step, take in H; repeat match type of H with
  | context[match notify ?x ?w with _ => _ end] => let E := fresh "NT" in destruct (notify x w) eqn:E; try discriminate H
  | context[match ?x with _ => _ end] => let E := fresh "E" in destruct x eqn:E; try discriminate H
  end; apply some_inj in H; subst; unfold NB in *; cbn in *; try exact P; try tauto).
  all: try (match goal with NT : notify _ _ = Some _ |- _ => apply notify_frame in NT; destruct NT as (W & _ & _ & _ & _ & F); cbn in W, F end;
    first [ left; congruence | destruct P as [P|P]; [left; congruence|right; intros t; specialize (F t); specialize (P t); try (unfold upd; destruct (t =? u); [reflexivity|]);
              destruct F as [->|[F1 F2]]; [exact P|rewrite F1 in P; discriminate]] ]).
  all: try (destruct P as [P|P]; [now left|exfalso; specialize (P u); rewrite E in P; discriminate]).
  - apply begin_gen in H; [|assumption]. destruct H as (X1 & X2 & _). destruct P as [P|P]; [congruence|]. rewrite P in X2. discriminate.
  - split; [exact (fun x => x)|]. apply exit_gen in H; [|assumption]. destruct H as (_ & X & I' & _ & T & Th & _). pose proof (alive s u I X) as Al.
    right. intros t. rewrite Th. unfold upd. destruct (Nat.eqb_spec t u) as [->|Ne]; [reflexivity|]. apply (i_ex s I). congruence.
Qed.
Lemma stop_no_more_work : forall n pre c w mid s, run (init n) (pre ++ StopDo c w :: mid) = Some s ->
  none launches mid -> none stopTimesOut mid -> none begins mid.
Proof.
  intros n pre c w mid s H N1 N2. rewrite run_app in H. destruct (run (init n) pre) as [s1|] eqn:E1; [|discriminate].
  pose proof (inv_run _ _ _ (inv_init n) E1) as I1. cbn [run] in H. destruct (step s1 (StopDo c w)) as [s2|] eqn:E2; [|discriminate].
  pose proof (inv_step _ _ _ I1 E2) as I2.
  assert (P2 : NB s2).
  { unfold step in E2. destruct (ctl s1 c); try discriminate. destruct (held s1); [discriminate|]. destruct (flag s1) eqn:F.
    - apply some_inj in E2. subst s2. now left.
    - destruct (thr s1) eqn:T.
      + destruct (notify _ w) as [s3|] eqn:Nt; [|discriminate]. apply some_inj in E2. subst s2. apply notify_frame in Nt. left. cbn. now destruct Nt as (-> & _).
      + apply some_inj in E2. subst s2. right. intros t. cbn. apply (i_ex s1 I1). congruence. }
  clear - I2 P2 H N1 N2. revert s2 I2 P2 H. induction mid as [|e mid IH]; intros s2 I2 P2 H; [intros y []|]. cbn in H.
  destruct (step s2 e) as [s4|] eqn:E; [|discriminate].
  destruct (NB_step s2 e s4 I2 E) as [X Y]; auto; [apply N1; now left|apply N2; now left|].
  intros y [<-|Z]; [assumption|]. revert y Z. apply (IH (fun y Z => N1 y (or_intror Z)) (fun y Z => N2 y (or_intror Z)) s4); auto. eapply inv_step; eauto.
Qed.
