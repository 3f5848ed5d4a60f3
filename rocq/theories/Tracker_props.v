(** C52: the access tracker and the reuse-time reinsertion policy. *)
From Coq Require Import List Arith Bool Sorted Lia.
Import ListNotations.
From Verif Require Import Tracker_model Tracker_spec Tracker_proofs1 Tracker_proofs2.

(** An access is not forgotten before the tracked time is over: the accesses of a key in a span of time less than numBuckets
    spans ago are all counted in one of the features; up to numBuckets - 2 spans ago in one at most one place off.
    Whatever the gaps between the calls. *)
Theorem C52_kept : forall N T, 0 < N -> forall est ops t h b, 0 < T -> noless est -> ordered ops t -> b <= t / T -> t / T < b + N ->
  exists i, i < N /\ count (accesses T ops b) h <= nth i (answer N T est ops t h) 0 /\ (t / T + 2 <= b + N -> (t / T - b) - 1 <= i <= (t / T - b) + 1).
Proof. exact kept. Qed.
Print Assumptions C52_kept.

(** In steady use (no span without a call, at least three buckets, and not first used in a span before one whose number divides by
    numBuckets) feature i is exactly what a sketch of the accesses i spans ago says. *)
Theorem C52_exact : forall N T, 3 <= N -> 0 < T -> forall est ops t h, steady T (map at_ ops ++ [t]) -> (hd 0 (map at_ ops ++ [t]) / T + 1) mod N <> 0 ->
  answer N T est ops t h = map (fun i => if i <=? t / T then est (accesses T ops (t / T - i)) h else est [] h) (seq 0 N).
Proof. exact exactly. Qed.
Print Assumptions C52_exact.

(** With an exact sketch no feature is more than the number of times the key was recorded. *)
Theorem C52_not_invented : forall N T ops t h i, nth i (answer N T count ops t h) 0 <= length (filter (fun o => match o with Rec _ k => k =? h | _ => false end) ops).
Proof. exact invented. Qed.
Print Assumptions C52_not_invented.

(** An item is reinserted if and only if it is in the index, has not expired, was accessed in the tracked time, the time to the end of the
    span of its last access is at most the threshold, and so is the time between that span and the one of the access before. *)
Theorem C52_policy : forall B thr fd ex l, 0 < B ->
  (shouldReinsert B thr fd ex l = true <-> fd = true /\ ex = false /\
   exists a, 0 < nth a l 0 /\ (forall k, k < a -> nth k l 0 = 0) /\ B * (a + 1) <= thr /\ forall b, second l a b -> (b - a) * B <= thr).
Proof. exact policy. Qed.
Print Assumptions C52_policy.

(** With a threshold of the whole tracked time, every live item looked up less than numBuckets spans ago is reinserted. *)
Theorem C52_reinserted : forall N T est ops t h b B thr, 0 < N -> 0 < T -> 0 < B -> sees est -> ordered ops t -> b <= t / T -> t / T < b + N -> In h (accesses T ops b) -> N * B <= thr ->
  shouldReinsert B thr true false (answer N T est ops t h) = true.
Proof. exact reinserted. Qed.
Print Assumptions C52_reinserted.

(** ** What does not hold *)
(** "Each filter is written to for a bucket, then stored for numBuckets-1 bucket spans, then removed": not with gaps; an access any
    number of whole windows ago is reported as of now if there was no call since. *)
Theorem C52_removed_refuted : forall N T k t h, 0 < N -> 0 < T -> nth 0 (answer N T count [Rec t h] (t + k * N * T) h) 0 = 1.
Proof.
  intros N T k t h NP TP. unfold answer, get, run. cbn [fold_left exec snd].
  assert (F : forall i, bks (update N T fresh t) i = []).
  { intros i. destruct (update_cases N T NP fresh t) as [(E & _)|(E & _)]; rewrite E; [reflexivity|]. cbn. unfold put. now destruct (i =? (t / T) mod N). }
  assert (R : exists r, (r = t / T \/ r = t / T + 1) /\ recent (update N T fresh t) = r mod N) by (destruct (i_rec _ _ _ _ _ (inv_first N T NP t)) as (r & R1 & R2 & _); eauto).
  destruct R as (r & R1 & R2). unfold record. set (u := update N T fresh t) in *.
  assert (D : (t + k * N * T) / T = t / T + k * N) by (now rewrite Nat.div_add by lia).
  rewrite (same_noop N T NP (add u (recent u) h) (t + k * N * T) (r + k * N)); [|rewrite D; lia|cbn; rewrite Nat.mod_add by lia; exact R2].
  unfold features. destruct N as [|N]; [lia|]. cbn [seq map nth add recent bks]. rewrite Nat.sub_0_r, R2.
  replace (r mod S N + S N) with (r mod S N + 1 * S N) by lia. rewrite Nat.mod_add, Nat.mod_mod by lia. rewrite put_same, F. unfold count. cbn. destruct (Nat.eq_dec h h); [reflexivity|congruence].
Qed.
Print Assumptions C52_removed_refuted.

(** Two buckets never rotate: an access is reported as of now for ever, also in steady use. *)
Theorem C52_two_buckets_refuted : forall n, steady 1 (seq 0 n ++ [n]) /\ nth 0 (answer 2 1 count (Rec 0 7 :: map (fun t => Get t 0) (seq 0 n)) n 7) 0 = 1.
Proof.
  assert (U : forall s t, recent s = 0 -> update 2 1 s t = s).
  { intros s t R. unfold update, moves, idx. rewrite R, Nat.div_1_r. pose proof (Nat.mod_upper_bound t 2 ltac:(lia)). destruct (t mod 2) as [|[|]]; [reflexivity|reflexivity|lia]. }
  assert (G : forall l s, recent s = 0 -> fold_left (exec 2 1 count) (map (fun t => Get t 0) l) s = s).
  { induction l as [|x l IH]; intros s R; [reflexivity|]. cbn [map fold_left exec]. unfold get. cbn [fst]. rewrite U by assumption. now apply IH. }
  intros n. split.
  - assert (S : forall m k, steady 1 (seq k m ++ [k + m])).
    { induction m as [|m IH]; intros k; [exact I|]. cbn [seq app]. specialize (IH (S k)). replace (S k + m) with (k + S m) in IH by lia.
      destruct m as [|m]; cbn [seq app] in *; (split; [rewrite !Nat.div_1_r; lia|exact IH]). }
    exact (S n 0).
  - unfold answer, run, get. cbn [fold_left]. rewrite G by reflexivity. cbn [snd]. rewrite U by reflexivity. reflexivity.
Qed.
Print Assumptions C52_two_buckets_refuted.

(** After a gap the buckets that were skipped still hold what they held a window before: an access six spans ago is reported as one span old by five buckets. *)
Theorem C52_skipped_refuted : ordered [Rec 2 7; Get 3 0; Get 4 0; Get 5 0; Get 6 0] 8 /\
  answer 5 1 count [Rec 2 7; Get 3 0; Get 4 0; Get 5 0; Get 6 0] 8 7 = [0; 1; 0; 0; 0].
Proof. split; [repeat constructor|reflexivity]. Qed.
Print Assumptions C52_skipped_refuted.

(** First used in a span before one whose number divides by numBuckets, the tracker reports the accesses of that span as of the next. *)
Theorem C52_first_refuted : steady 1 (map at_ [Rec 3 7] ++ [4]) /\ answer 4 1 count [Rec 3 7] 4 7 = [1; 0; 0; 0].
Proof. split; [cbn; auto|reflexivity]. Qed.
Print Assumptions C52_first_refuted.

(** Two threads at the beginning of a span: the one that has moved the tracker on clears the bucket after the other has recorded: its access is lost. *)
Theorem C52_race_refuted : exists w s, conc 4 1 fresh (PCas 1 7) (PCas 1 8) w = (s, PDone, PDone) /\ forall i, count (bks s i) 8 = 0.
Proof.
  exists [true; false; false; false; true; true; true]. eexists. split; [reflexivity|]. intros i. cbn. unfold put. destruct (i =? 1); reflexivity.
Qed.
Print Assumptions C52_race_refuted.

(** ** Non-vacuity *)
Example C52_example_exact : steady 10 (map at_ [Rec 11 7; Rec 12 7; Rec 25 8; Get 31 7] ++ [45]) /\ (hd 0 (map at_ [Rec 11 7; Rec 12 7; Rec 25 8; Get 31 7] ++ [45]) / 10 + 1) mod 4 <> 0 /\
  answer 4 10 count [Rec 11 7; Rec 12 7; Rec 25 8; Get 31 7] 45 7 = [0; 0; 0; 2].
Proof. split; [cbn; intuition lia|]. split; [discriminate|reflexivity]. Qed.
Example C52_example_kept : ordered [Rec 11 7; Rec 25 8; Rec 57 7] 78 /\ accesses 10 [Rec 11 7; Rec 25 8; Rec 57 7] 5 = [7] /\ answer 4 10 count [Rec 11 7; Rec 25 8; Rec 57 7] 78 7 = [0; 1; 1; 0].
Proof. split; [unfold ordered; cbn; repeat (apply SSorted_cons || apply Forall_cons || apply Forall_nil || apply SSorted_nil); lia|split; reflexivity]. Qed.
Example C52_example_sketch : noless count /\ sees count.
Proof. split; [intros l h; apply le_n|]. intros l h I. apply (count_occ_In Nat.eq_dec) in I. exact I. Qed.
Example C52_example_policy : shouldReinsert 60 200 true false [0; 1; 0; 2; 1] = true /\ shouldReinsert 60 100 true false [0; 1; 0; 2; 1] = false.
Proof. split; reflexivity. Qed.
