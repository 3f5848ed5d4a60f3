(** C08: theorems on compressed pointers. *)
From Verif Require Import Bytes Compress_model Compress_spec Compress_proofs.
Local Open Scope N_scope.

(** For every cache no larger than the advertised limit (256 GiB) and every allocation in it:
    compressing succeeds, never yields the null value, fits 32 bits, and uncompressing gives back
    the very same address; saving and restoring the compressed value changes nothing. *)
Theorem C08_roundtrip_4byte : forall (m : slabs) (mem ptr : N),
  wf_slabs m mem -> mem <= maxAddressable4 -> is_alloc m ptr ->
  exists c, compressPtr4 m ptr false = Some c /\ isNull4 c = false /\ c < two32 /\
    unCompress4 m c false = ptr /\ restore4 (getRaw4 c) = c.
Proof. exact roundtrip4. Qed.

(** The same for the 5-byte pointer, up to 32 TiB. *)
Theorem C08_roundtrip_5byte : forall (m : slabs) (mem ptr : N),
  wf_slabs m mem -> mem <= maxAddressable5 -> is_alloc m ptr ->
  exists c, compressPtr5 m ptr false = Some c /\ isNull5 c = false /\
    unCompress5 m c false = ptr /\ restore5 (getRaw5 c) = c.
Proof. exact roundtrip5. Qed.

(** Null to null. *)
Theorem C08_null : forall m multi,
  compressPtr4 m 0 multi = Some kNull32 /\ unCompress4 m kNull32 multi = 0 /\
  compressPtr5 m 0 multi = Some null5 /\ unCompress5 m null5 multi = 0 /\ restore5 (getRaw5 null5) = null5.
Proof. intros. repeat split. Qed.

(** Two distinct allocations never share a compressed value. *)
Theorem C08_distinct : forall (m : slabs) (mem p q : N), wf_slabs m mem -> is_alloc m p -> is_alloc m q ->
  (mem <= maxAddressable4 -> compressPtr4 m p false = compressPtr4 m q false -> p = q) /\
  (mem <= maxAddressable5 -> compressPtr5 m p false = compressPtr5 m q false -> p = q).
Proof.
  intros m mem p q W P Q. split; intros M E.
  - destruct (roundtrip4 m mem p W M P) as (c & C1 & _ & _ & C2 & _).
    destruct (roundtrip4 m mem q W M Q) as (d & D1 & _ & _ & D2 & _). congruence.
  - destruct (roundtrip5 m mem p W M P) as (c & C1 & _ & C2 & _).
    destruct (roundtrip5 m mem q W M Q) as (d & D1 & _ & D2 & _). congruence.
Qed.

(** With memory tiers (tier id 0 or 1 added afterwards): the tier, slab and allocation index are
    all recovered, for slab indexes below 2^15 (4-byte) and 2^22 (5-byte). *)
Theorem C08_tiers : forall s i t, i < 65536 -> t < 2 ->
  (s < 32768 -> let p := setTierId4 (compress4 s i true 0) t in
     p = compress4 s i true t /\ getSlabIdx4 p true = s /\ getAllocIdx4 p = i /\ getTierId4 p true = t /\
     (s < 32767 -> isNull4 p = false)) /\
  (s < 4194304 -> let p := setTierId5 (mk5 s i true 0) t in
     p = mk5 s i true t /\ getSlabIdx5 p true = s /\ getAllocIdx5 p = i /\ getTierId5 p true = t /\ isNull5 p = false).
Proof.
  intros s i t I T. split; intros S0 p.
  - destruct (enc4_multi s i t S0 I T) as (E1 & E2 & E3 & E4 & E5). unfold p. rewrite E2, E1.
    repeat split; auto. intros S1. apply N.eqb_neq. unfold kNull32. lia.
  - destruct (enc5_multi s i t S0 I T) as (E1 & E2 & E3 & E4 & E5 & E6). unfold p. rewrite E1.
    repeat split; auto. unfold isNull5. destruct (N.eqb_spec (r5 (mk5 s i true t)) kRegionNull) as [E|E]; [|apply andb_false_r].
    unfold kRegionNull in E. lia.
Qed.

(** The advertised limit does not hold with tiers: getMaxAddressableSize() is computed for the
    single-tier layout, and in a 256 GiB tier slab 32768 of tier 0 and slab 0 of tier 1 get the
    same compressed pointer. *)
Theorem C08_tiered_limit_refuted :
  32768 * kSlabSize < maxAddressable4 /\
  setTierId4 (compress4 32768 5 true 0) 0 = setTierId4 (compress4 0 5 true 0) 1.
Proof. split; vm_compute; reflexivity. Qed.

(** Above the limit the single-tier claim is false: the last allocation of slab 65535 in a
    64-byte class would be the null pointer. *)
Theorem C08_above_limit_refuted : compress4 65535 65535 false 0 = kNull32.
Proof. vm_compute; reflexivity. Qed.

(** Non-vacuity: 10 slabs of memory, alloc size 100, allocation 41942 (the last) of slab 8. *)
Example C08_demo :
  let m := {| slabMemoryStart := 4194304 * 7; nextSlab := 4194304 * 16; allocSizeOf := fun _ => 100 |} in
  let ptr := 4194304 * 15 + 41942 * 100 in
  wf_slabs m (4194304 * 10) /\ is_alloc m ptr /\
  compressPtr4 m ptr false = Some (8 * 65536 + 41942) /\ unCompress4 m (8 * 65536 + 41942) false = ptr.
Proof.
  cbv zeta. split; [|split; [|split; vm_compute; reflexivity]].
  - unfold wf_slabs. cbn [slabMemoryStart nextSlab]. repeat split; vm_compute; discriminate || reflexivity.
  - exists 8, 41942. repeat split; vm_compute; discriminate || reflexivity.
Qed.

Print Assumptions C08_roundtrip_4byte.
Print Assumptions C08_roundtrip_5byte.
Print Assumptions C08_null.
Print Assumptions C08_distinct.
Print Assumptions C08_tiers.
Print Assumptions C08_tiered_limit_refuted.
Print Assumptions C08_above_limit_refuted.
