(** C31: theorems on the region eviction policies. *)
From Coq Require Import List Arith Bool Lia NArith Permutation Sorting.Sorted.
Import ListNotations.
From Verif Require Import DList_model RegionPolicy_model RegionPolicy_spec RegionPolicy_proofs RegionPolicy_proofs2.

(** FIFO: for every history of track/evict/reset/restart (persist + recover) the policy behaves as
    a first-in first-out queue of region ids. *)
Theorem C31_fifo : forall cs : list fcall, Forall flegal cs ->
  (map rid (fst (fifoCalls [] cs)), snd (fifoCalls [] cs)) = fifoSpec [] cs.
Proof. intros cs L. exact (fifo_refines cs [] (Forall_nil _) L). Qed.
Print Assumptions C31_fifo.

(** Persist and recover give back the same queue, times included. *)
Theorem C31_fifo_persist : forall q : fifo, Forall fits q -> fifoRecover [] (fifoPersist q) = q.
Proof. exact fifo_restart. Qed.
Print Assumptions C31_fifo_persist.

(** LRU: for every history of touch/track/evict/reset no array access is out of range and every
    evict returns the tracked region whose last use (tracking or touch) is oldest, or nothing if
    none is tracked; a region is returned once per tracking. *)
Theorem C31_lru : forall cs : list lcall,
  exists s' os u', lruCalls lruNew cs = Some (s', os) /\ lruSpec 0 [] cs os u'.
Proof.
  intros cs. destruct (lru_refines cs 0 [] lruNew (Inv_new 0)) as (s' & os & u' & E & L & _).
  exists s', os, u'. split; assumption.
Qed.
Print Assumptions C31_lru.

(** Segmented FIFO.  Calls are labelled with strictly increasing track times. *)
Inductive sreach (r : list nat) : sfifo -> Prop :=
| sr s cs s0 os : sfifoNew r = Some s0 -> Forall (slegal (length r)) cs -> labelled 0 cs ->
    sfifoCalls s0 cs = Some (s, os) -> sreach r s.
Lemma sreach_inv r s : sreach r s -> exists t', sinv r t' s.
Proof.
  intros [s1 cs s0 os N L LB E]. destruct (sfifo_run r cs 0 s0 (new_inv r s0 0 N) L LB) as (s' & os' & t' & E' & I & _).
  rewrite E in E'. injection E' as <- <-. exists t'. exact I.
Qed.

(** Every legal history runs; and (without reset) the regions handed to track are exactly those
    evicted plus those still held: each is returned exactly once. *)
Theorem C31_sfifo_exactly_once : forall (r : list nat) (s0 : sfifo) (cs : list scall),
  sfifoNew r = Some s0 -> Forall (slegal (length r)) cs -> labelled 0 cs ->
  exists s' os, sfifoCalls s0 cs = Some (s', os) /\
    (Forall noReset cs -> Permutation (trackedOf cs) (evictedOf os ++ concat (segs s'))).
Proof.
  intros r s0 cs N L LB. destruct (sfifo_run r cs 0 s0 (new_inv r s0 0 N) L LB) as (s' & os & t' & E & I & P).
  exists s', os. split; [exact E|]. intros NR. specialize (P NR).
  replace (concat (segs s0)) with (@nil snode) in P; [exact P|].
  unfold sfifoNew in N. destruct (existsb _ r); [discriminate|]. destruct r; [discriminate|]. injection N as <-.
  cbn. symmetry. apply concat_nils.
Qed.
Print Assumptions C31_sfifo_exactly_once.

(** Eviction finds a region whenever one is held (the lowest segment is never starved). *)
Theorem C31_sfifo_evict_finds : forall (r : list nat) (s : sfifo), sreach r s ->
  (snd (sfifoEvict s) = None <-> concat (segs s) = []).
Proof.
  intros r s R. apply sreach_inv in R as (t' & I). destruct (evict_inv r t' s I) as [[C E]|(s1 & x & E & C & _)]; rewrite E; cbn.
  - split; auto.
  - split; [discriminate|]. rewrite C. discriminate.
Qed.
Print Assumptions C31_sfifo_evict_finds.

(** Order: a region is never evicted while another one, tracked before it with the same or a lower
    priority, is still held. *)
Theorem C31_sfifo_order : forall (r : list nat) (s s' : sfifo) (y : snode), sreach r s ->
  sfifoEvict s = (s', Some y) ->
  In y (concat (segs s)) /\
  forall x, In x (concat (segs s')) -> ~ (strackTime x < strackTime y /\ gprio x <= gprio y).
Proof.
  intros r s s' y R E. apply sreach_inv in R as (t' & I). destruct (evict_inv r t' s I) as [[_ E']|(s1 & z & E' & C & I1)]; rewrite E in E'; [discriminate|].
  injection E' as <- <-. rewrite C. split; [left; reflexivity|].
  destruct I as [_ _ _ _ _ O _]. rewrite C in O. inversion O as [|? ? _ F]; subst. rewrite Forall_forall in F. exact F.
Qed.
Print Assumptions C31_sfifo_order.

(** Shares: no segment above the lowest holds more than its ratio of all tracked regions. *)
Theorem C31_sfifo_shares : forall (r : list nat) (s : sfifo) (i : nat) (g : list snode) (ra : nat),
  sreach r s -> 0 < i -> nth_error (segs s) i = Some g -> nth_error r i = Some ra ->
  length g <= length (concat (segs s)) * ra / list_sum r.
Proof. intros r s i g ra R P G A. apply sreach_inv in R as (t' & I). exact (si_within _ _ _ I i g ra P G A). Qed.
Print Assumptions C31_sfifo_shares.

(** Non-vacuity. *)
Example C31_example_fifo : fifoCalls [] [FTrack 3 0; FTrack 1 1; FRestart; FEvict; FEvict; FEvict] =
  ([], [None; None; None; Some 3; Some 1; None]).
Proof. reflexivity. Qed.
Example C31_example_lru : option_map snd (lruCalls lruNew [Track 3; Track 1; Track 7; Touch 3; Evict; Evict; Track 1; Evict; Evict; Evict]) =
  Some [None; None; None; None; Some 1; Some 7; None; Some 3; Some 1; None].
Proof. reflexivity. Qed.
Example C31_example_sfifo : forall s0, sfifoNew [1; 1; 1] = Some s0 ->
  option_map (fun p => map (option_map srid) (snd p))
    (sfifoCalls s0 [STrack 5 2 0; STrack 6 2 1; STrack 7 0 2; STrack 8 2 3; SEvict; SEvict; SEvict; SEvict; SEvict]) =
  Some [None; None; None; None; Some 5; Some 6; Some 7; Some 8; None].
Proof. intros s0 [= <-]. reflexivity. Qed.
Example C31_example_reach : exists s, sreach [2; 1] s /\ length (concat (segs s)) = 2.
Proof.
  eexists. split; [eapply (sr _ _ [STrack 5 1 0; STrack 6 1 1]); [reflexivity| |cbn; lia|reflexivity]|reflexivity].
  repeat constructor.
Qed.
