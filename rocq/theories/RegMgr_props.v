(** * C29 and C30: flash regions under all interleavings.

    [run c (init n nr nb) acts = Some (s, tr)]: the schedule [acts] - writers, flushes, readers,
    reclaims, device failures, in any order - takes a fresh cache of [n] regions, [nr] allocators
    and [nb] buffers to [s], with history [tr].  Region sizes up to 1 GB. *)
From Coq Require Import List Arith Bool NArith ZArith Lia.
Import ListNotations.
From Verif Require Import RegMgr_model RegMgr_spec RegMgr_proofs RegMgr_proofs2 RegMgr_proofs3 RegMgr_proofs4 RegMgr_proofs5.

Definition reached (c : cfg) (n nr nb : nat) (s : state) (tr : list event) : Prop :=
  (regionSize c <= 2 ^ 30)%N /\ exists acts, run c (init n nr nb) acts = Some (s, tr).
(** no check of the code has failed so far / no region had to be given up for unreadable *)
Definition sound (tr : list event) : Prop := ~ In EBad tr.
Definition readable (tr : list event) : Prop := forall r, ~ In (EReadFail r) tr.
Lemma reached_reach c n nr nb s tr : reached c n nr nb s tr -> (regionSize c <= 2 ^ 30)%N /\ reach c n nr nb s tr.
Proof. intros [RS [acts H]]. split; [exact RS|]. exact (run_reach c n nr nb _ [] acts s tr (reach_init c n nr nb) H). Qed.

(** ** Checks *)
(** As long as no flush is given up, no check of the code fails: no counter underflows, no buffer
    is attached twice or missing, nothing is allocated in a region being flushed or reclaimed. *)
Theorem C29_no_check_fails c n nr nb s tr : reached c n nr nb s tr -> (forall r, ~ In (EGiveUp r) tr) -> sound tr.
Proof. intros H. destruct (reached_reach _ _ _ _ _ _ H) as [RS R]. exact (reach_no_bad c n nr nb s tr RS R). Qed.
Print Assumptions C29_no_check_fails.
(** The first failing check can only be the one of [reset] on a region whose flush was given up. *)
Theorem C29_only_given_up_reset_fails c n nr nb s tr a s' e : reached c n nr nb s tr -> sound tr -> step c s a = Some (s', e) -> In EBad e ->
  exists r, e = [EBad; EReset r] /\ In (EGiveUp r) tr.
Proof. intros H. destruct (reached_reach _ _ _ _ _ _ H) as [RS R]. exact (first_bad c n nr nb s tr a s' e RS R). Qed.
Print Assumptions C29_only_given_up_reset_fails.

(** ** Exclusion *)
(** One more step from a reached state, with no check failed. *)
Definition stepped c n nr nb (s : state) (a : action) (s' : state) (tr e : list event) : Prop :=
  reached c n nr nb s tr /\ step c s a = Some (s', e) /\ sound (tr ++ e).
Lemma stepped_SV c n nr nb s a s' tr e : stepped c n nr nb s a s' tr e ->
  (regionSize c <= 2 ^ 30)%N /\ reach c n nr nb s tr /\ sound tr /\ sound e /\ SV c n nb s /\ step c s a = Some (s', e).
Proof.
  intros (H & X & B). destruct (reached_reach _ _ _ _ _ _ H) as [RS R].
  assert (B1 : sound tr) by (intros I; apply B, in_app_iff; auto). assert (B2 : sound e) by (intros I; apply B, in_app_iff; auto).
  repeat (split; [assumption|]). split; [|exact X]. exact (reach_SV c n nr nb s tr RS R B1).
Qed.
Lemma reg_of c n nb s r t : SV c n nb s -> In t (thr s) -> writer r t \/ (exists p, reader r p t) -> exists R, nth_error (regs s) r = Some R.
Proof.
  intros V I W. apply In_nth_error in I. destruct I as [j J].
  destruct (w_D c s (proj2 V) j t r J) as (R & N1 & _); [|eauto].
  destruct W as [(b & g & ->)|(p & [(g & q & ->)|[(g & ->)| ->]])]; reflexivity.
Qed.
Lemma wr_zero c n nb s r R t : SV c n nb s -> nth_error (regs s) r = Some R -> wr R = 0%Z -> In t (thr s) -> ~ writer r t.
Proof. intros V N1 Z I (b & g & ->). apply In_nth_error in I. destruct I as [j J]. pose proof (cnt_W c s j r b g R (proj2 V) J N1). lia. Qed.
Lemma rd_zero c n nb s r R t (p : bool) : SV c n nb s -> nth_error (regs s) r = Some R -> (if p then ph R else im R) = 0%Z -> In t (thr s) -> ~ reader r p t.
Proof.
  intros V N1 Z I W. apply In_nth_error in I. destruct I as [j J].
  assert (D : rdr t = Some (r, p)) by (destruct W as [(g & q & ->)|[(g & ->)| ->]]; reflexivity).
  pose proof (cnt_R c s j t r p R (proj2 V) J D N1). lia.
Qed.
(** A region is reset only when nobody has it open for writing or reading. *)
Theorem C29_reset_exclusive c n nr nb s a s' tr e r t : stepped c n nr nb s a s' tr e -> In (EReset r) e -> In t (thr s) -> ~ writer r t /\ forall p, ~ reader r p t.
Proof.
  intros ST I J. destruct (stepped_SV _ _ _ _ _ _ _ _ _ ST) as (RS & RE & B & B' & V & X). destruct (ev_state c n nb s a s' e RS V X B') as (P & _). split; [intros W|intros p W].
  - destruct (reg_of c n nb s r t V J) as [R N1]; [auto|]. destruct (P r R I N1) as (Z1 & _). exact (wr_zero c n nb s r R t V N1 Z1 J W).
  - destruct (reg_of c n nb s r t V J) as [R N1]; [eauto|]. destruct (P r R I N1) as (_ & Z2 & Z3).
    apply (rd_zero c n nb s r R t p V N1); [destruct p; assumption|exact J|exact W].
Qed.
(** A buffer is flushed only with no open writer. *)
Theorem C29_flush_no_writer c n nr nb s a s' tr e r t : stepped c n nr nb s a s' tr e -> In (EFlushWrite r) e -> In t (thr s) -> ~ writer r t.
Proof.
  intros ST I J W. destruct (stepped_SV _ _ _ _ _ _ _ _ _ ST) as (RS & RE & B & B' & V & X). destruct (ev_state c n nb s a s' e RS V X B') as (_ & P & _).
  destruct (reg_of c n nb s r t V J) as [R N1]; [auto|]. exact (wr_zero c n nb s r R t V N1 (P r R I N1) J W).
Qed.
(** A buffer is detached only with no open writer and no open in-memory reader. *)
Theorem C29_detach_no_user c n nr nb s a s' tr e r t : stepped c n nr nb s a s' tr e -> In (EDetach r) e -> In t (thr s) -> ~ writer r t /\ ~ reader r false t.
Proof.
  intros ST I J. destruct (stepped_SV _ _ _ _ _ _ _ _ _ ST) as (RS & RE & B & B' & V & X). destruct (ev_state c n nb s a s' e RS V X B') as (_ & _ & P & _). split; intros W.
  - destruct (reg_of c n nb s r t V J) as [R N1]; [auto|]. destruct (P r R I N1) as (Z1 & _). exact (wr_zero c n nb s r R t V N1 Z1 J W).
  - destruct (reg_of c n nb s r t V J) as [R N1]; [eauto|]. destruct (P r R I N1) as (_ & Z2). exact (rd_zero c n nb s r R t false V N1 Z2 J W).
Qed.
(** No reader is admitted to a region on its way from being blocked for reclaim to its reset. *)
Theorem C29_blocked_admits_no_reader c n nr nb s a s' tr e r : stepped c n nr nb s a s' tr e -> In (JWaitR r) (thr s) \/ In (JReset r) (thr s) -> ~ In (EOpen r) e.
Proof.
  intros ST Y I. destruct (stepped_SV _ _ _ _ _ _ _ _ _ ST) as (RS & RE & B & B' & V & X). destruct (ev_state c n nb s a s' e RS V X B') as (_ & _ & _ & P & _).
  assert (exists R, nth_error (regs s) r = Some R /\ block R = true) as (R & N1 & BL).
  { destruct Y as [Y|Y]; apply In_nth_error in Y; destruct Y as [j J]; destruct (w_D c s (proj2 V) j _ r J eq_refl) as (R & N1 & Q1);
      cbn in Q1; exists R; tauto. }
  rewrite (P r R I N1) in BL. discriminate.
Qed.
(** A reader reads the contents it looked up: the region has not been reset since the index was consulted. *)
Theorem C29_reader_generation c n nr nb s a s' tr e r g R : stepped c n nr nb s a s' tr e -> readable tr -> In (ERead r g) e -> nth_error (regs s) r = Some R -> gen R = g.
Proof.
  intros ST RD I N1. destruct (stepped_SV _ _ _ _ _ _ _ _ _ ST) as (RS & RE & B & B' & V & X). destruct (ev_state c n nb s a s' e RS V X B') as (_ & _ & _ & _ & P).
  destruct (P r g R I N1) as (i & p & J). exact (g_hold s (reach_G c n nr nb s tr RS RE B RD) i r p g R J N1).
Qed.
(** The buffer a writer has a view into is that of its region, which has not been reset. *)
Theorem C29_writer_buffer c n nr nb s tr r b g : reached c n nr nb s tr -> sound tr -> In (WHold r b g) (thr s) -> exists R, nth_error (regs s) r = Some R /\ buf R = Some b /\ gen R = g.
Proof. intros HR B. destruct (reached_reach _ _ _ _ _ _ HR) as [RS RE]. pose proof (reach_SV _ _ _ _ _ _ RS RE B) as V. intros I. apply In_nth_error in I. destruct I as [j J]. destruct (w_D c s (proj2 V) j _ r J eq_refl) as (R & N1 & Q1). cbn in Q1. exists R. tauto. Qed.
(** While a buffer is being written to the device nobody can write into it. *)
Theorem C29_no_writer_during_write c n nr nb s tr r k q t : reached c n nr nb s tr -> sound tr -> In (FWrite r k q) (thr s) -> In t (thr s) -> ~ writer r t.
Proof.
  intros HR B. destruct (reached_reach _ _ _ _ _ _ HR) as [RS RE]. pose proof (reach_SV _ _ _ _ _ _ RS RE B) as V. intros I J. apply In_nth_error in I. destruct I as [j I]. destruct (w_D c s (proj2 V) j _ r I eq_refl) as (R & N1 & Q1). cbn in Q1.
  exact (wr_zero c n nb s r R t V N1 Q1 J).
Qed.
(** Something can always move, unless there is nothing to do: no deadlock. *)
Theorem C29_progress c n nr nb s tr : reached c n nr nb s tr -> sound tr -> (exists i, canMove c s i) \/ (forall t, In t (thr s) -> idleT s t).
Proof. intros HR B. destruct (reached_reach _ _ _ _ _ _ HR) as [RS RE]. pose proof (reach_SV _ _ _ _ _ _ RS RE B) as V. exact (progress c n nb s V). Qed.
Print Assumptions C29_reset_exclusive.
Print Assumptions C29_flush_no_writer.
Print Assumptions C29_detach_no_user.
Print Assumptions C29_blocked_admits_no_reader.
Print Assumptions C29_reader_generation.
Print Assumptions C29_writer_buffer.
Print Assumptions C29_no_writer_during_write.
Print Assumptions C29_progress.

(** ** Allocation *)
(** Space is handed out at the end of what was handed out since the last reset, and inside the region. *)
Theorem C29_alloc_at_cursor c n nr nb s t1 r o z t2 : reached c n nr nb s (t1 ++ EAlloc r o z :: t2) ->
  o = cursor r t1 /\ (0 < z)%N /\ (o + z <= regionSize c)%N.
Proof.
  intros H. destruct (reached_reach _ _ _ _ _ _ H) as [RS R].
  destruct (proj2 (reach_end c n nr nb s _ RS R) t1 t2 r o z eq_refl) as (A & B & C). auto.
Qed.
Print Assumptions C29_alloc_at_cursor.
(** ... so two ranges handed out between the same two resets are disjoint. *)
Theorem C29_alloc_disjoint c n nr nb s t1 r o z t2 o' z' t3 :
  reached c n nr nb s (t1 ++ EAlloc r o z :: t2 ++ EAlloc r o' z' :: t3) -> ~ In (EReset r) t2 -> (o + z <= o')%N.
Proof.
  intros H NR. destruct (reached_reach _ _ _ _ _ _ H) as [RS R].
  destruct (proj2 (reach_end c n nr nb s _ RS R) t1 _ r o z eq_refl) as (A & B & C).
  destruct (proj2 (reach_end c n nr nb s _ RS R) (t1 ++ EAlloc r o z :: t2) t3 r o' z') as (A' & _).
  { rewrite <- app_assoc. reflexivity. }
  rewrite A', cursor_app. cbn [fold_left cur1]. rewrite Nat.eqb_refl, A. apply cursor_mono. intros y I ->. exact (NR I).
Qed.
Print Assumptions C29_alloc_disjoint.

(** ** C30 *)
(** Every region is in exactly one place, whatever fails. *)
Theorem C30_one_place c n nr nb s tr r : reached c n nr nb s tr -> places s r = if r <? n then 1 else 0.
Proof. intros H. destruct (reached_reach _ _ _ _ _ _ H) as [RS R]. exact (reach_places c n nr nb s tr r RS R). Qed.
Print Assumptions C30_one_place.
(** ... and so is every buffer. *)
Theorem C30_buffers_conserved c n nr nb s tr b : reached c n nr nb s tr -> bufPlaces s b = if b <? nb then 1 else 0.
Proof. intros H. destruct (reached_reach _ _ _ _ _ _ H) as [RS R]. exact (reach_bufs c n nr nb s tr b RS R). Qed.
Print Assumptions C30_buffers_conserved.
(** A clean region is empty: no buffer, nothing allocated, no flag set. *)
Theorem C30_clean_is_empty c n nr nb s tr r R : reached c n nr nb s tr -> In r (clean s) -> nth_error (regs s) r = Some R ->
  buf R = None /\ lastEnd R = 0%N /\ items R = 0 /\ block R = false /\ recl R = false /\ pend R = false /\ flushed R = false /\ cleaned R = false.
Proof.
  intros H I N1. destruct (reached_reach _ _ _ _ _ _ H) as [RS RE]. pose proof (reach_struct _ _ _ _ _ _ RS RE) as ST.
  pose proof (o_ok _ _ _ (s_own _ _ _ _ ST) r KCl R) as K. cbn [okR] in K. unfold tot in K.
  pose proof (cnt_pos (fun x => Nat.eqb x r) (clean s) r I (Nat.eqb_refl r)). specialize (K ltac:(lia) N1). tauto.
Qed.
Print Assumptions C30_clean_is_empty.
(** The number of reclaims under way is what the manager thinks it is ... *)
Theorem C30_reclaims_counted c n nr nb s tr : reached c n nr nb s tr -> outst s = count reclaiming (thr s).
Proof. intros H. destruct (reached_reach _ _ _ _ _ _ H) as [RS RE]. rewrite (s_out _ _ _ _ (reach_struct _ _ _ _ _ _ RS RE)). rewrite count_cnt. reflexivity. Qed.
Print Assumptions C30_reclaims_counted.
(** ... and writers that wait for a clean region are right to do so: there is none, and a reclaim is under way. *)
Theorem C30_waiters_have_reason c n nr nb s tr : reached c n nr nb s tr -> cleanEmpty s = true -> clean s = [] /\ 0 < count reclaiming (thr s).
Proof.
  intros H E. destruct (reached_reach _ _ _ _ _ _ H) as [RS RE]. destruct (s_ce _ _ _ _ (reach_struct _ _ _ _ _ _ RS RE) E) as [A B].
  split; [exact A|]. rewrite <- (C30_reclaims_counted c n nr nb s tr H). exact B.
Qed.
Print Assumptions C30_waiters_have_reason.

(** ** What the conditions are for *)
Definition th (i k : nat) : list action := repeat (AThread i true 0) k.
Definition cfg0 : cfg := {| regionSize := 100; numClean := 1; retryLimit := 1; allowRead := true |}.
(** a region is reclaimed, a writer gets 60 bytes of it, puts an entry in the index and closes (threads 0 - 3);
    a reader looks it up *)
Definition prefix : list action :=
  AWrite 0 60 :: th 0 4 ++ th 1 9 ++ AWrite 0 60 :: th 2 6 ++ AThread 2 false 0 :: th 2 1 ++ ALookup :: th 4 2.
(** The flush fails and is given up; the reader opens the region between the detaching of the buffer
    and the reset: the region is reset under it (its check fails, reader counts underflow later) ... *)
Definition giveUpRun : list action :=
  prefix ++ AFlush 0 :: th 5 3 ++ AThread 5 false 0 :: th 5 4 ++ th 4 2 ++ th 5 3.
Theorem C29_reset_after_giving_up_refuted : exists s tr r t, reached cfg0 2 1 2 s tr /\ readable tr /\ In (EReset r) tr /\
  (exists tr0, tr = tr0 ++ [EBad; EReset r]) /\ In t (thr s) /\ reader r true t.
Proof.
  eexists _, _, 1, (RHold 1 true 1). unfold reached. split; [split; [vm_compute; discriminate|exists giveUpRun; vm_compute; reflexivity]|].
  split; [intros r I; cbn in I; intuition discriminate|]. split; [cbn; tauto|].
  split; [match goal with |- exists tr0, ?l = _ => exists (firstn (length l - 2) l) end; reflexivity|]. split; [cbn; tauto|].
  right. left. exists 1. reflexivity.
Qed.
Print Assumptions C29_reset_after_giving_up_refuted.
(** ... and so it reads contents of another generation. *)
Theorem C29_generation_after_giving_up_refuted : exists s tr r g R, reached cfg0 2 1 2 s tr /\ readable tr /\
  (exists tr0, tr = tr0 ++ [ERead r g]) /\ nth_error (regs s) r = Some R /\ gen R <> g.
Proof.
  eexists _, _, 1, 1, _. unfold reached. split; [split; [vm_compute; discriminate|exists (giveUpRun ++ th 4 1); vm_compute; reflexivity]|].
  split; [intros r I; cbn in I; intuition discriminate|].
  split; [match goal with |- exists tr0, ?l = _ => exists (firstn (length l - 1) l) end; reflexivity|]. split; [reflexivity|]. discriminate.
Qed.
Print Assumptions C29_generation_after_giving_up_refuted.
(** A region that cannot be read for reclaim keeps its index entries; a later lookup reads what was written there since. *)
Definition unreadableRun : list action :=
  prefix ++ th 4 4 ++ AFlush 0 :: th 5 8 ++ th 3 3 ++ AThread 3 false 0 :: th 3 5 ++ ALookup :: th 6 5.
Theorem C29_generation_after_read_failure_refuted : exists s tr r g R, reached cfg0 2 1 2 s tr /\ sound tr /\
  (exists tr0, tr = tr0 ++ [ERead r g]) /\ nth_error (regs s) r = Some R /\ gen R <> g.
Proof.
  eexists _, _, 1, 1, _. unfold reached. split; [split; [vm_compute; discriminate|exists unreadableRun; vm_compute; reflexivity]|].
  split; [intros I; cbn in I; intuition discriminate|].
  split; [match goal with |- exists tr0, ?l = _ => exists (firstn (length l - 1) l) end; reflexivity|]. split; [reflexivity|]. discriminate.
Qed.
Print Assumptions C29_generation_after_read_failure_refuted.

(** ** The conditions are met by a run with everything in it: two writers in one region, a third that
    finds it full and flushes it, a reader from the buffer, one from the device across a reclaim of the
    region, a fourth writer that gets the region again. *)
Definition busyRun : list action :=
  prefix ++ th 4 2 ++ AWrite 0 40 :: th 5 2 ++ AWrite 0 10 :: th 6 2 ++ th 4 2 ++ th 5 1 ++ th 6 7 ++
  ALookup :: th 7 4 ++ th 3 6 ++ th 7 2 ++ th 3 3 ++ AWrite 0 10 :: th 8 6.
Example C29_C30_conditions_met : exists s tr t1 t2 t3, reached cfg0 2 1 2 s tr /\ sound tr /\ readable tr /\ (forall r, ~ In (EGiveUp r) tr) /\
  tr = t1 ++ EAlloc 1 0 60 :: t2 ++ EAlloc 1 60 40 :: t3 /\ ~ In (EReset 1) t2 /\
  In (EFlushWrite 1) t3 /\ In (EDetach 1) t3 /\ In (ERead 1 1) t3 /\ In (EReset 1) t3 /\ In (EAlloc 1 0 10) t3 /\ In (WHold 1 0 2) (thr s).
Proof.
  eexists _, _, [_], [_], _. unfold reached, sound, readable.
  split; [split; [vm_compute; discriminate|exists busyRun; vm_compute; reflexivity]|].
  split; [intros I; cbn in I; intuition discriminate|].
  split; [intros r I; cbn in I; intuition discriminate|].
  split; [intros r I; cbn in I; intuition discriminate|].
  split; [reflexivity|].
  split; [cbn; intuition discriminate|]. cbn. intuition.
Qed.
