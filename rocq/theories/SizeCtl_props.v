(** C46: the object cache keeps to its limits. *)
From Coq Require Import List ZArith Bool Lia.
Import ListNotations.
From Verif Require Import SizeCtl_model SizeCtl_spec SizeCtl_proofs1 SizeCtl_proofs2 SizeCtl_proofs3.
Open Scope Z_scope.

(** ** Layout and capacity *)

(** The record of an entry is aligned, does not overlap the key and lies within the slot, for every key up to the
    configured length.  (Slots are multiples of 8 and so is sizeof(Item): 32.) *)
Theorem C46_record_fits_slot : forall hdr maxKey base k,
  0 < hdr -> hdr mod 8 = 0 -> 0 < k <= maxKey -> maxKey + hdr + 64 < 2 ^ 32 -> 0 <= base -> base mod 8 = 0 ->
  recordAt hdr base k mod 8 = 0 /\ valueAt hdr base k <= recordAt hdr base k /\
  recordAt hdr base k + recSize <= base + allocSize hdr maxKey.
Proof. exact record_in_slot. Qed.
(** For keys up to 255 bytes it lies within the memory the item was allocated with, and the padding
    counted when the entry is destroyed is the padding counted when it was made. *)
Theorem C46_small_key_record_fits_value : forall hdr base k,
  0 < hdr -> hdr mod 8 = 0 -> 0 < k <= 255 -> 0 <= base -> base mod 8 = 0 ->
  recordAt hdr base k + recSize <= valueAt hdr base k + valueSize k /\ padTaken hdr base k = padAdded k.
Proof. exact record_in_value. Qed.
(** Not for longer keys: the length stored before the key moves the value by 4, the padding does not follow.
    The record ends after the end of the item's memory, and the counter of padding bytes falls below 0. *)
Theorem C46_large_key_record_fits_value_refuted :
  valueAt 32 0 256 + valueSize 256 < recordAt 32 0 256 + recSize /\ padAdded 256 - padTaken 32 0 256 = -4.
Proof. split; vm_compute; reflexivity. Qed.

(** The slots left by the placeholders that are made at the start are as many as entries are
    allowed; the shards are not a slab larger than needed. *)
Theorem C46_capacity_exact : forall limit n size,
  1 <= n <= 64 -> n <= limit < 2 ^ 40 -> 64 <= size <= slabSize ->
  let c := calcCapacity limit n size in
  initPlaceholders limit n size = n * (cSlabs c * cPerSlab c) - limit /\
  limit <= n * (cSlabs c * cPerSlab c) /\ 1 <= cPerSlab c /\ 1 <= cSlabs c /\
  (cSlabs c - 1) * cPerSlab c < cPerShard c <= cSlabs c * cPerSlab c /\
  cPool c = cSlabs c * slabSize /\ cTotal c = n * cPool c + slabSize /\
  cPerSlab c * size <= slabSize.
Proof. exact capacity_exact. Qed.

(** ** Every history of users and controller *)

(** Entries, and items users still refer to, are never more than the current limit, which is never
    more than the configured one; every other slot is held by a placeholder. *)
Theorem C46_within_limit : forall c sl l s, wfConf c -> run c (init c sl) l = Some s ->
  0 <= numEntries c s <= items c s /\ items c s <= lim s <= entLimit c /\
  lim s + Z.of_nat (length (ph s)) = shards c * slots c.
Proof.
  intros c sl l s W R. pose proof (inv_run c sl l s W R) as I. pose proof (numEntries_le c s W I). pose proof (items_lim c s W I).
  pose proof (iLim c s I). pose proof (iSum c s I). lia.
Qed.
(** The limit is spread evenly over the shards: none has less than limit / shards, or more than
    that rounded up. *)
Theorem C46_shards_even : forall c sl l s, wfConf c -> run c (init c sl) l = Some s ->
  sumTo (usable c s) (Z.to_nat (shards c)) = lim s /\
  forall p, 0 <= p < shards c -> lim s / shards c <= usable c s p <= (lim s + shards c - 1) / shards c.
Proof.
  intros c sl l s W R. pose proof (inv_run c sl l s W R) as I.
  split; [exact (usable_sum c s W I)|intros p Hp; exact (usable_bounds c s p W I Hp)].
Qed.
(** The controller never takes a placeholder that is not there: when it is at work its next step is defined. *)
Theorem C46_controller_safe : forall c sl l s ev fm, wfConf c -> run c (init c sl) l = Some s -> ctl s <> CIdle ->
  step c s (CStep ev fm) <> None.
Proof. intros c sl l s ev fm W R N. exact (ctl_defined c s ev fm (inv_run c sl l s W R) N). Qed.
(** The limit it aims at, times the average size, is at most the size limit, and it is at most the
    configured number of entries.  It grows only a full cache. *)
Theorem C46_aim_respects_limits : forall c lm sl num total fm rss, mode c <> FreeMemoryOnly -> 0 <= num -> 0 <= total ->
  match work c lm sl num total fm rss with
  | PShrink n => 0 < n /\ (lm - n) * (total / num) <= sl /\ lm - n <= entLimit c /\ lm - n <= num
  | PExpand n => 0 < n /\ (lm + n) * (total / num) <= sl /\ lm + n <= entLimit c /\ num = lm
  | PIdle => True
  | PEnsure => False
  end.
Proof. exact aim. Qed.
(** If all objects have one size and together exceed the limit, the controller, when it runs and no item is in use outside
    the index, brings the cache within the limit. *)
Theorem C46_shrinks_within_size_limit : forall c sl l s sz fm rss, wfConf c -> mode c <> FreeMemoryOnly ->
  run c (init c sl) l = Some s -> ctl s = CIdle -> (forall p, 0 <= p < shards c -> held s p = 0) ->
  0 < sz -> 0 < sizeLim s < numEntries c s * sz ->
  exists n s', run c s (CStart (numEntries c s * sz) fm rss :: repeat (CStep true fm) n ++ [CStep true fm]) = Some s' /\
    ctl s' = CIdle /\ sizeLim s' = sizeLim s /\ lim s' * sz <= sizeLim s' /\ numEntries c s' * sz <= sizeLim s'.
Proof.
  intros c sl l s sz fm rss W M R C H Hz Hs. pose proof (inv_run c sl l s W R) as I.
  pose proof (numEntries_le c s W I) as NE. pose proof (items_lim c s W I) as IL.
  destruct (over_shrinks c (lim s) (sizeLim s) (numEntries c s) sz fm rss M ltac:(nia) (iLim c s I) Hz ltac:(lia)) as (n & Hw & Hn).
  assert (0 <= sizeLim s / sz) by (apply Z.div_pos; lia).
  assert (D : sizeLim s / sz < numEntries c s) by (apply Z.div_lt_upper_bound; lia).
  destruct (shrink_whole c s _ fm rss n W I C H Hw ltac:(lia)) as (s' & R' & I' & L' & C' & _ & S' & _).
  exists (Z.to_nat n), s'. pose proof (numEntries_le c s' W I'). pose proof (items_lim c s' W I').
  pose proof (mul_div_le (sizeLim s) sz Hz). rewrite S'.
  split; [exact R'|]. split; [exact C'|]. split; [reflexivity|]. split; nia.
Qed.
(** An expansion gives exactly the room decided on. *)
Theorem C46_expands_as_decided : forall c sl l s total fm rss n, wfConf c -> mode c <> FreeMemoryOnly -> 0 <= total ->
  run c (init c sl) l = Some s -> ctl s = CIdle ->
  work c (lim s) (sizeLim s) (numEntries c s) total fm rss = PExpand n ->
  exists s', run c s (CStart total fm rss :: repeat (CStep true fm) (Z.to_nat n) ++ [CStep true fm]) = Some s' /\
    lim s' = lim s + n /\ ctl s' = CIdle.
Proof.
  intros c sl l s total fm rss n W M T R C Hw. pose proof (inv_run c sl l s W R) as I.
  pose proof (aim c (lim s) (sizeLim s) (numEntries c s) total fm rss M (proj1 (proj1 (C46_within_limit c sl l s W R))) T) as A. rewrite Hw in A.
  destruct (expand_whole c s total fm rss n W I C Hw ltac:(lia) ltac:(lia)) as (s' & R' & _ & L & C'). eauto.
Qed.
(** FreeMemory mode: when free memory is short by at least one and at most all objects, it shrinks
    by as many objects as are worth the shortage. *)
Theorem C46_low_memory_shrinks : forall c lm sl num total fm rss, mode c = FreeMemory -> 0 < num <= lm -> lm <= entLimit c ->
  0 < total / num -> warming c lm sl num total = false ->
  0 <= fm -> lower c < 2 ^ 64 -> num < 2 ^ 64 -> 0 <= sl ->
  total / num <= lower c - fm -> (lower c - fm) / (total / num) <= num ->
  exists n, work c lm sl num total fm rss = PShrink n /\ lm - n <= num - (lower c - fm) / (total / num) /\ n <= lm.
Proof. exact low_memory. Qed.

(** ** What does not hold *)

(** One object bigger than the size limit, as the only entry when the controller runs, ends the cache: the
    average exceeds the limit, the limit becomes 0 entries, every slot a placeholder; without entries
    the controller does nothing any more, not even after setTotalObjectSizeLimit. In every configuration. *)
Theorem C46_cache_recovers_refuted : forall c sl z fm rss, wfConf c -> mode c <> FreeMemoryOnly -> shards c <= entLimit c -> 0 < sl < z ->
  exists s, run c (init c sl) ([UAlloc 0 true; UPublish 0] ++ CStart z fm rss :: repeat (CStep true fm) (Z.to_nat (entLimit c)) ++ [CStep true fm]) = Some s /\
    answers s = [(0, true)] /\ deadForever c s.
Proof. exact killed. Qed.

(** FreeMemory mode: the less memory is free the more it should shrink.  When the shortage exceeds all objects, the
    subtraction wraps and the controller expands. *)
Definition fill4 := [UAlloc 0 true; UPublish 0; UAlloc 0 true; UPublish 0; UAlloc 0 true; UPublish 0; UAlloc 0 true; UPublish 0].
Definition cF := mkConf 1 4 4 FreeMemory 1000 2000 8 2.
Definition hist := fill4 ++ [CStart 400 1500 1500; CStep true 1500; CStep true 1500; CStep true 1500].
Theorem C46_low_memory_shrinks_refuted : exists c l s, wfConf c /\ run c (init c 200) l = Some s /\ ctl s = CIdle /\
  work c (lim s) (sizeLim s) (numEntries c s) 100 950 0 = PShrink 1 /\
  work c (lim s) (sizeLim s) (numEntries c s) 100 0 0 = PExpand 2 /\ 0 < 950 < lower c.
Proof.
  exists cF, hist. eexists. split; [unfold wfConf; cbn; lia|]. split; [vm_compute; reflexivity|].
  split; [reflexivity|]. split; [vm_compute; reflexivity|]. split; [vm_compute; reflexivity|]. cbn; lia.
Qed.
(** ResidentMemory mode: the same when resident memory is above the upper limit. *)
Definition cR := mkConf 1 4 4 ResidentMemory 1000 2000 8 2.
Theorem C46_high_resident_memory_shrinks_refuted : exists c l s, wfConf c /\ run c (init c 200) l = Some s /\ ctl s = CIdle /\
  work c (lim s) (sizeLim s) (numEntries c s) 100 0 2050 = PShrink 1 /\
  work c (lim s) (sizeLim s) (numEntries c s) 100 0 3000 = PExpand 2 /\ upper c < 2050.
Proof.
  exists cR, hist. eexists. split; [unfold wfConf; cbn; lia|]. split; [vm_compute; reflexivity|].
  split; [reflexivity|]. split; [vm_compute; reflexivity|]. split; [vm_compute; reflexivity|]. cbn; lia.
Qed.
(** FreeMemory mode: "expanding less based on system stats".  10 bytes are free above the upper
    limit; the cache expands by two objects of 50 bytes. *)
Theorem C46_expands_less_refuted : exists c l s, wfConf c /\ run c (init c 200) l = Some s /\ ctl s = CIdle /\
  work c (lim s) (sizeLim s) (numEntries c s) 100 (upper c + 10) 0 = PExpand 2 /\ 10 < 2 * (100 / numEntries c s).
Proof.
  exists cF, hist. eexists. split; [unfold wfConf; cbn; lia|]. split; [vm_compute; reflexivity|].
  split; [reflexivity|]. split; [vm_compute; reflexivity|]. vm_compute; reflexivity.
Qed.
(** FreeMemoryOnly mode: while free memory stays low the controller's call never returns, after however
    many iterations (so neither does stopping it), also when the cache is empty. *)
Theorem C46_controller_returns_refuted : forall c fm, wfConf c -> mode c = FreeMemoryOnly -> fm < lower c -> forall sl k, exists s,
  run c (init c sl) (CStart 0 fm 0 :: repeat (CStep true fm) k) = Some s /\ ctl s <> CIdle.
Proof. exact loops. Qed.
(** Fewer entries than shards (only checked in debug builds): keys of shard 0 can never be inserted. *)
Theorem C46_every_shard_has_room_refuted : forall c sl ev, wfConf c -> entLimit c < shards c ->
  exists s, step c (init c sl) (UAlloc 0 ev) = Some s /\ answers s = [(0, false)].
Proof. exact starved. Qed.

(** ** The hypotheses are met *)
Definition cO := mkConf 2 3 5 ObjectSize 0 0 8 2.
Example ex_shrink : exists s, run cO (init cO 100) [UAlloc 0 true; UPublish 0; UAlloc 1 true; UPublish 1; UAlloc 1 true; UPublish 1; UAlloc 0 true; UPublish 0] = Some s /\
  wfConf cO /\ ctl s = CIdle /\ numEntries cO s = 4 /\ held s 0 = 0 /\ held s 1 = 0 /\ 0 < sizeLim s < numEntries cO s * 40.
Proof.
  eexists. split; [vm_compute; reflexivity|]. split; [unfold wfConf; cbn; lia|]. vm_compute. repeat split.
Qed.
(* the capacity of a cache with a million entries in 4 shards: 10 slabs each, 103 760 placeholders *)
Example ex_capacity : allocSize 32 255 = 304 /\ calcCapacity 1000000 4 (allocSize 32 100) = mkCap 10 27594 250000 41943040 171966464 /\
  initPlaceholders 1000000 4 (allocSize 32 100) = 103760.
Proof. vm_compute. repeat split. Qed.
Example ex_killed : wfConf cO /\ mode cO <> FreeMemoryOnly /\ shards cO <= entLimit cO /\ 0 < 100 < 101.
Proof. unfold wfConf; cbn. repeat split; try lia; discriminate. Qed.
Example ex_low : warming cF 2 200 2 100 = false /\ exists n, work cF 2 200 2 100 950 0 = PShrink n.
Proof. split; [reflexivity|eexists; vm_compute; reflexivity]. Qed.
Example ex_loop : wfConf (mkConf 1 3 3 FreeMemoryOnly 10 20 8 2) /\ 5 < lower (mkConf 1 3 3 FreeMemoryOnly 10 20 8 2).
Proof. unfold wfConf; cbn; lia. Qed.
Example ex_starved : wfConf (mkConf 3 4 2 ObjectSize 0 0 8 2) /\ 2 < 3.
Proof. unfold wfConf; cbn; lia. Qed.
