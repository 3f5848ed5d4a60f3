(** C33: flash requests of one key run one at a time, in order, and none is lost. *)
From Verif Require Import Scheduler_model Scheduler_spec Scheduler_proofs Scheduler_proofs2 Scheduler_proofs3.

(** Safety, for every schedule and every number of shards, threads and limits:
    the events of each key are those of a one-at-a-time FIFO server. *)
Theorem C33_one_at_a_time_in_order :
  forall power nread nwrite maxReads maxWrites ls s,
  0 < nread -> 0 < nwrite ->
  run (init power nread nwrite maxReads maxWrites) ls = Some s ->
  forall k, exists q, fifoRun idle (filter (ofKey k) (s_log s)) = Some q.
Proof.
  intros p nr nw mr mw ls s Hr Hw H k.
  assert (HI : Inv s) by (eapply run_inv; [|exact H]; now apply init_inv).
  destruct (key_of_shard s k HI) as (sh & q & _ & _ & R). eauto.
Qed.
Print Assumptions C33_one_at_a_time_in_order.

(** No job is lost.  As long as the scheduler is not being destroyed: submission
    always succeeds; the scheduler's own work is bounded when no job asks to be
    rescheduled; and when it has nothing left to do, every submitted job of every
    key has run to completion. *)
Theorem C33_none_lost :
  forall power nread nwrite maxReads maxWrites ls s,
  0 < nread -> 0 < nwrite ->
  run (init power nread nwrite maxReads maxWrites) ls = Some s -> s_stopped s = false ->
  (forall k rd, exists s', step s (LEnq k rd) = Some s') /\
  (exists n, forall ls' s', Forall internalDone ls' -> run s ls' = Some s' -> length ls' <= n) /\
  ((forall l, internalDone l -> step s l = None) ->
     forall k, fifoRun idle (filter (ofKey k) (s_log s)) = Some idle).
Proof.
  intros p nr nw mr mw ls s Hr Hw H HS.
  assert (HI : Inv s) by (eapply run_inv; [|exact H]; now apply init_inv).
  split; [|split].
  - intros k rd. destruct (enqueue_inv s k rd HI) as (s' & E & _). exists s'. exact E.
  - exists (sm s). intros ls' s' HF HR. pose proof (internal_bound ls' s s' HI HF HR). lia.
  - intros HN k. apply quiet_idle; try assumption. intros i d E HB.
    destruct (busy_enabled s i d HI E HB) as (l & s' & Hl & E'). rewrite HN in E' by assumption. discriminate.
Qed.
Print Assumptions C33_none_lost.

(** If all dispatchers are drained at the same moment, every submitted job is done. *)
Theorem C33_all_drained_means_done :
  forall power nread nwrite maxReads maxWrites ls s,
  0 < nread -> 0 < nwrite ->
  run (init power nread nwrite maxReads maxWrites) ls = Some s -> s_stopped s = false ->
  Forall drained (s_disps s) ->
  forall k, fifoRun idle (filter (ofKey k) (s_log s)) = Some idle.
Proof.
  intros p nr nw mr mw ls s Hr Hw H HS HD k.
  assert (HI : Inv s) by (eapply run_inv; [|exact H]; now apply init_inv).
  apply quiet_idle; try assumption. intros i d E.
  pose proof (nth_error_In _ _ E) as HIn.
  destruct (proj1 (Forall_forall _ _) HD d HIn) as [D1 D2].
  destruct HI as [_ _ _ _ HF _]. destruct (proj1 (Forall_forall _ _) HF d HIn) as [HL _ _ _].
  intros [X|[X|X]]; try congruence.
  unfold loopInv in HL. rewrite D1 in HL. destruct (d_claimed d).
  - destruct HL as (l & El & _). discriminate.
  - destruct HL as [[Y _]|[_ Y]]; congruence.
Qed.
Print Assumptions C33_all_drained_means_done.

(** The number of requests a dispatcher runs at once never exceeds its limit. *)
Theorem C33_outstanding_bounded :
  forall power nread nwrite maxReads maxWrites ls s,
  0 < nread -> 0 < nwrite ->
  run (init power nread nwrite maxReads maxWrites) ls = Some s ->
  Forall (fun d => length (d_tasks d) <= d_max d) (s_disps s).
Proof.
  intros p nr nw mr mw ls s Hr Hw H.
  assert (HI : Inv s) by (eapply run_inv; [|exact H]; now apply init_inv).
  destruct HI as [_ _ _ _ HF _]. eapply Forall_impl; [|exact HF].
  intros d [_ HO _ HE]. lia.
Qed.
Print Assumptions C33_outstanding_bounded.

(** ** Non-vacuity: two jobs of one key and one of another, on two threads; the
    second job of the key starts only after the first one's second attempt. *)
Definition ex_labels : list label :=
  [LEnq 5 false; LEnq 5 true; LEnq 6 true; LLoop 1 0; LLoop 1 0; LTask 1 0 true; LLoop 0 0; LLoop 0 0;
   LTask 0 0 true; LTask 1 0 false; LTask 0 0 true; LTask 1 0 true; LTask 1 0 true; LTask 1 0 true;
   LLoop 0 0; LLoop 0 0; LLoop 0 0; LTask 0 0 true; LTask 0 0 true; LLoop 0 0; LTask 0 0 true; LTask 0 0 true].
Definition R i k rd := {| r_id := i; r_key := k; r_read := rd |}.
Example C33_example :
  exists s, run (init 3 1 1 1 1) ex_labels = Some s /\
    filter (ofKey 5) (s_log s) =
      [ESubmit (R 0 5 false); ESubmit (R 1 5 true); EStart (R 0 5 false); EYield (R 0 5 false);
       EStart (R 0 5 false); EDone (R 0 5 false); EStart (R 1 5 true); EDone (R 1 5 true)].
Proof. eexists. split; vm_compute; reflexivity. Qed.

(** finish() (NavyRequestScheduler.cpp:143-150) drains the readers, then the
    writers, once each.  "finish() waits till all queued and currently running
    jobs are finished" is false: with a read spooled behind a write, the readers
    are drained at the start, the writer is drained later, and the read has not
    even begun. *)
Theorem C33_finish_waits_for_all_refuted :
  exists ls1 ls2 s1 s2 k r,
    run (init 3 1 1 1 1) ls1 = Some s1 /\
    (* the job is in the queue before finish() is called *)
    In (ESubmit r) (filter (ofKey k) (s_log s1)) /\
    (* the reader is drained when finish() looks at it *)
    (exists d, nth_error (s_disps s1) 0 = Some d /\ drained d) /\
    run s1 ls2 = Some s2 /\ Forall internal ls2 /\
    (* the writer is drained when finish() looks at it *)
    (exists d, nth_error (s_disps s2) 1 = Some d /\ drained d) /\
    (* and the job has not started *)
    ~ In (EStart r) (s_log s2).
Proof.
  exists [LEnq 5 false; LEnq 5 true],
    [LLoop 1 0; LLoop 1 0; LLoop 1 0; LTask 1 0 true; LTask 1 0 true; LTask 1 0 true; LTask 1 0 true].
  eexists. eexists. exists 5%N, (R 1 5 true).
  split; [vm_compute; reflexivity|]. split; [vm_compute; auto|].
  split; [eexists; split; [reflexivity|split; reflexivity]|].
  split; [vm_compute; reflexivity|]. split; [repeat constructor|].
  split; [eexists; split; [reflexivity|split; reflexivity]|].
  vm_compute. intros [X|[X|[X|[X|X]]]]; try discriminate; contradiction.
Qed.
Print Assumptions C33_finish_waits_for_all_refuted.
