(** C50: the periodic worker. *)
From Coq Require Import List Arith Bool.
Import ListNotations.
From Verif Require Import PeriodicW_model PeriodicW_spec PeriodicW_proofs1 PeriodicW_proofs2 PeriodicW_proofs3 PeriodicW_proofs4.

(** When stop() has returned true, no work is under way and none begins, until a start() makes a new thread; whatever the other threads call. *)
Theorem C50_stop_quiet : forall n c f pre mid post s, run (init n) (pre ++ StopCall c f :: mid ++ StopRet c true :: post) = Some s ->
  (forall b, ~ In (StopRet c b) mid) -> none launches (mid ++ post) -> none looping post.
Proof. exact stop_quiet. Qed.
Print Assumptions C50_stop_quiet.

(** There is one work() at a time: the one before has ended when the next begins, also after any number of stops and starts. *)
Theorem C50_one_work : forall n pre t k mid t' k' s, run (init n) (pre ++ Begin t k :: mid ++ [Begin t' k']) = Some s -> In (End t) mid.
Proof. exact one_work. Qed.
Print Assumptions C50_one_work.

(** A wakeUp() is not lost: while no work has begun since it was called, no worker sleeps on. *)
Theorem C50_wake_not_lost : forall n c pre mid post s, run (init n) (pre ++ WakeCall c :: mid ++ WakeRet c :: post) = Some s ->
  ~ In (WakeRet c) mid -> none begins (mid ++ post) -> forall t, ths s t <> TSleep false.
Proof. exact wake_not_lost. Qed.
Print Assumptions C50_wake_not_lost.

(** From the moment a stop() has got the lock, no further work() begins, until a stop times out or a start makes a thread. *)
Theorem C50_stop_no_more_work : forall n pre c w mid s, run (init n) (pre ++ StopDo c w :: mid) = Some s ->
  none launches mid -> none stopTimesOut mid -> none begins mid.
Proof. exact stop_no_more_work. Qed.
Print Assumptions C50_stop_no_more_work.

(** If stops do not overlap, a stop that has not timed out returns true as soon as the worker is let run: it needs no timeout, no spurious wake-up and no other caller. *)
Theorem C50_stop_returns : forall n s c, reach1 n s -> stopping s c -> ctl s c <> CStopR false ->
  exists es s', Forall (unaided c) es /\ run s (es ++ [StopRet c true]) = Some s'.
Proof. exact stop_returns. Qed.
Print Assumptions C50_stop_returns.

(** A stop with no time limit returns false only if another stop was under way during it. *)
Theorem C50_stop_forever_true : forall n c pre mid s, run (init n) (pre ++ StopCall c true :: mid ++ [StopRet c false]) = Some s -> (forall b, ~ In (StopRet c b) mid) ->
  exists m1 m2 s1 d, mid = m1 ++ m2 /\ run (init n) (pre ++ StopCall c true :: m1) = Some s1 /\ d <> c /\ stopping s1 d.
Proof. exact forever_false. Qed.
Print Assumptions C50_stop_forever_true.

(** If stops do not overlap, after one that timed out the worker goes on: its next work() begins without anybody's help. *)
Theorem C50_timeout_goes_on : forall n s c s', reach1 n s -> step s (StopAwake c TimedOut) = Some s' -> ctl s' c = CStopR false ->
  exists t es k s'', Forall workersOwn es /\ k <> Spurious /\ run s' (es ++ [Begin t k]) = Some s''.
Proof. exact timed_out_goes_on. Qed.
Print Assumptions C50_timeout_goes_on.

(** A start() that makes a thread, in any history, gets work() going. *)
Theorem C50_start_works : forall n pre c s, run (init n) (pre ++ [Launch c]) = Some s ->
  exists t es k s', Forall workersOwn es /\ k <> Spurious /\ run s (es ++ [Begin t k]) = Some s'.
Proof. exact launched_works. Qed.
Print Assumptions C50_start_works.

(** ** Two stops at once *)
Definition startWork : list event := [StartCall 0 false; Launch 0; StartRet 0 true; Enter 0; Begin 0 Straight].
(** The worker has left its loop for the first stop; before that one gets the lock again the second raises the flag. *)
Definition crossed (f : bool) : list event :=
  startWork ++ [StopCall 0 f; StopDo 0 Nobody; End 0; Exit 0 Straight; StopCall 1 true; StopDo 1 (Caller 0); Note 0 (Caller 1)].

Lemma crossed_stuck : exists s, run (init 3) (crossed true) = Some s /\ stuck s.
Proof.
  eexists. split; [vm_compute; reflexivity|]. repeat (split; [reflexivity|]). split; [|split; [eexists; reflexivity|split; [eexists; reflexivity|]]].
  - intros t. destruct t; reflexivity.
  - intros d A B. destruct d as [|[|d]]; [congruence|congruence|reflexivity].
Qed.
(** Both stops, called with no time limit, never return, although the worker has ended: no continuation whatsoever lets them. *)
Theorem C50_two_stops_refuted : exists pre s, run (init 3) pre = Some s /\ stopping s 0 /\ stopping s 1 /\
  forall es s', run s es = Some s' -> forall b, ~ In (StopRet 0 b) es /\ ~ In (StopRet 1 b) es.
Proof.
  destruct crossed_stuck as (s & H & K). exists (crossed true), s. split; [exact H|]. destruct K as (K1 & K2 & K3 & K4 & K5 & (n0 & K6) & (n1 & K7) & K8).
  split; [unfold stopping; now rewrite K6|]. split; [unfold stopping; now rewrite K7|].
  intros es s' R. refine (proj2 (stuck_run es s s' _ R)). repeat (split; [assumption|]). eauto.
Qed.
Print Assumptions C50_two_stops_refuted.

(** Then start() returns true and no work ever begins. *)
Theorem C50_start_runs_refuted : exists pre s, run (init 3) (pre ++ [StartRet 2 true]) = Some s /\ (forall c, ~ In (StopRet c true) pre) /\
  forall es s', run s es = Some s' -> none begins es.
Proof.
  destruct crossed_stuck as (s & H & K).
  assert (R : run s ([StartCall 2 false; StartOld 2] ++ [StartRet 2 true]) <> None) by (vm_compute in H; apply some_inj in H; subst s; vm_compute; discriminate).
  destruct (run s ([StartCall 2 false; StartOld 2] ++ [StartRet 2 true])) as [s1|] eqn:R1; [|congruence].
  exists (crossed true ++ [StartCall 2 false; StartOld 2]), s1. split; [rewrite <- app_assoc, run_app, H; exact R1|]. split.
  - intros c X. vm_compute in X. repeat destruct X as [X|X]; try discriminate X; contradiction.
  - intros es s' R2. assert (R3 : run s (([StartCall 2 false; StartOld 2] ++ [StartRet 2 true]) ++ es) = Some s') by (rewrite run_app, R1; exact R2).
    destruct (stuck_run _ _ _ K R3) as [B _]. intros y Y. apply B. apply in_or_app. now right.
Qed.
Print Assumptions C50_start_runs_refuted.

(** A stop with a time limit that meets another stop can return false, meaning the work goes on, when the worker has ended for good. *)
Theorem C50_timeout_goes_on_refuted : exists pre s, run (init 2) (pre ++ [StopRet 0 false]) = Some s /\ (forall c, ~ In (StopRet c true) pre) /\
  forall es s', run s es = Some s' -> none launches es -> none looping es.
Proof.
  destruct (run (init 2) ((crossed false ++ [StopAwake 0 TimedOut]) ++ [StopRet 0 false])) as [s|] eqn:H; [|exfalso; vm_compute in H; discriminate].
  exists (crossed false ++ [StopAwake 0 TimedOut]), s. split; [exact H|]. split.
  - intros c X. vm_compute in X. repeat destruct X as [X|X]; try discriminate X; contradiction.
  - assert (D : forall t, exited (ths s t) = true) by (vm_compute in H; apply some_inj in H; subst s; intros [|t]; reflexivity).
    intros es s'. pose proof (inv_run _ _ _ (inv_init 2) H) as I. clear H. revert s D I. induction es as [|e es IH]; intros s D I R N; [intros y []|].
    cbn in R. destruct (step s e) as [s1|] eqn:E; [|discriminate]. destruct (dead_step s e s1 I D E (N e (or_introl eq_refl))) as [A B].
    intros y [<-|Y]; [exact A|]. revert y Y. apply (IH s1); auto. eapply inv_step; eauto. intros z Z. apply N. now right.
Qed.
Print Assumptions C50_timeout_goes_on_refuted.

(** ** The hypotheses are met *)
(** Start, work, sleep, a wake-up, work again, stop, start again. *)
Definition life : list event :=
  startWork ++ [End 0; Sleep 0; WakeCall 1; WakeSet 1; WakeNote 1 (Thread 0); WakeRet 1; Begin 0 Notified;
                StopCall 1 true; StopDo 1 Nobody; End 0; Exit 0 Straight; Note 0 (Caller 1); StopAwake 1 Notified; StopJoin 1; StopRet 1 true].
Example ex_life : exists s, run (init 2) life = Some s /\ thr s = None.
Proof. eexists. split; vm_compute; reflexivity. Qed.
Example ex_restart : exists s, run (init 2) (life ++ [StartCall 0 false; Launch 0; StartRet 0 true; Enter 1; Begin 1 Straight]) = Some s /\ ths s 1 = TWork.
Proof. eexists. split; vm_compute; reflexivity. Qed.
(** a worker that sleeps, and is chosen by the notify_one of the stop *)
Example ex_sleeping_stop : exists s, run (init 1) (startWork ++ [End 0; Sleep 0; StopCall 0 true; StopDo 0 (Thread 0); Exit 0 Notified; Note 0 (Caller 0); StopAwake 0 Notified; StopJoin 0; StopRet 0 true]) = Some s.
Proof. eexists. vm_compute. reflexivity. Qed.
(** notify_one cannot choose nobody when the worker sleeps *)
Example ex_must_choose : run (init 1) (startWork ++ [End 0; Sleep 0; StopCall 0 true; StopDo 0 Nobody]) = None.
Proof. vm_compute. reflexivity. Qed.
(** a stop that times out while the work runs, and the next work *)
Example ex_timeout : exists s s', reach1 1 s /\ step s (StopAwake 0 TimedOut) = Some s' /\ ctl s' 0 = CStopR false /\ ths s' 0 = TWork.
Proof.
  assert (R : forall es s, (forall e, In e es -> match e with StopCall _ _ => False | _ => True end) -> reach1 1 s -> forall s', run s es = Some s' -> reach1 1 s').
  { induction es as [|e es IH]; intros s A R s' H; cbn in H; [congruence|]. destruct (step s e) as [s1|] eqn:E; [|discriminate].
    apply (IH s1); auto; [intros; apply A; now right|]. eapply reach1_step; [exact R|exact E|]. specialize (A e (or_introl eq_refl)). now destruct e. }
  destruct (run (init 1) startWork) as [s1|] eqn:E1; [|vm_compute in E1; discriminate].
  assert (R1 : reach1 1 s1) by (eapply (R startWork (init 1)); [|apply reach1_init|exact E1]; intros e X; vm_compute in X; repeat destruct X as [<-|X]; try exact I; contradiction).
  vm_compute in E1. apply some_inj in E1.
  destruct (step s1 (StopCall 0 false)) as [s2|] eqn:E2; [|subst s1; vm_compute in E2; discriminate].
  assert (R2 : reach1 1 s2) by (eapply reach1_step; [exact R1|exact E2|]; intros d X; subst s1; unfold stopping in X; cbn in X; destruct d; cbn in X; contradiction).
  destruct (step s2 (StopDo 0 Nobody)) as [s3|] eqn:E3; [|subst s1; vm_compute in E2; apply some_inj in E2; subst s2; vm_compute in E3; discriminate].
  assert (R3 : reach1 1 s3) by (eapply reach1_step; [exact R2|exact E3|exact I]).
  exists s3. subst s1. vm_compute in E2. apply some_inj in E2. subst s2. vm_compute in E3. apply some_inj in E3. subst s3. eexists. split; [exact R3|]. vm_compute. auto.
Qed.
