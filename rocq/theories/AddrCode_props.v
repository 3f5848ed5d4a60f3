(** * C28: flash addresses and size hints. *)
From Coq Require Import NArith List Lia Bool.
From Verif Require Import AddrCode_model AddrCode_spec AddrCode_proofs.
Local Open Scope N_scope.

(** In every accepted configuration a slot end encodes to a non-zero 32-bit code that decodes back
    to it, provided its position is below alignment * 2^32 (the only position accepted
    configurations can have beyond that is the very end of a maximal cache, see below). *)
Theorem C28_address_roundtrip dev cache region n r :
  valid_config dev cache region = true -> cache = n * region -> dev < 2 ^ 63 ->
  slot_end (calcAllocAlignSize dev) region n r ->
  position region r < calcAllocAlignSize dev * 2 ^ 32 ->
  decodeRelAddress (calcAllocAlignSize dev) region (encodeRelAddress (calcAllocAlignSize dev) region r) = r /\
  encodeRelAddress (calcAllocAlignSize dev) region r <> 0 /\
  encodeRelAddress (calcAllocAlignSize dev) region r < 2 ^ 32.
Proof.
  intros V C D S P. destruct (valid_inv _ _ _ V) as (A & R & AR & R30 & _ & _).
  destruct (align_pow2 dev D) as (k & K & Hk).
  assert (Q : calcAllocAlignSize dev < U32).
  { rewrite K. apply N.pow_lt_mono_r; lia. }
  destruct (roundtrip _ region n A R AR ltac:(eapply N.le_lt_trans; [exact R30|now vm_compute]) Q r S P) as [E Z].
  repeat split; auto. apply N.mod_upper_bound. discriminate.
Qed.

(** Different slot ends have different codes. *)
Theorem C28_address_injective dev cache region n r1 r2 :
  valid_config dev cache region = true -> cache = n * region -> dev < 2 ^ 63 ->
  slot_end (calcAllocAlignSize dev) region n r1 -> slot_end (calcAllocAlignSize dev) region n r2 ->
  position region r1 < calcAllocAlignSize dev * 2 ^ 32 -> position region r2 < calcAllocAlignSize dev * 2 ^ 32 ->
  encodeRelAddress (calcAllocAlignSize dev) region r1 = encodeRelAddress (calcAllocAlignSize dev) region r2 -> r1 = r2.
Proof.
  intros V C D S1 S2 P1 P2 E.
  destruct (C28_address_roundtrip _ _ _ _ _ V C D S1 P1) as [<- _].
  destruct (C28_address_roundtrip _ _ _ _ _ V C D S2 P2) as [<- _]. now rewrite E.
Qed.

(** The guard on the position only excludes the end of the last region of a cache whose size is
    exactly alignment * 2^32. *)
Theorem C28_address_guard dev cache region n r :
  valid_config dev cache region = true -> cache = n * region ->
  slot_end (calcAllocAlignSize dev) region n r ->
  position region r < calcAllocAlignSize dev * 2 ^ 32 \/
  (cache = calcAllocAlignSize dev * 2 ^ 32 /\ fst r = n - 1 /\ snd r = region).
Proof.
  intros V C (S1 & S2 & S3 & _). destruct (valid_inv _ _ _ V) as (A & R & AR & R30 & _ & CM).
  unfold position. change (2 ^ 32) with U32. set (a := calcAllocAlignSize dev) in *. clearbody a. subst cache.
  destruct (N.lt_ge_cases (fst r * region + snd r) (a * U32)) as [|G]; [auto|right].
  assert (fst r * region + region <= n * region) by nia.
  assert (n * region = a * U32) by lia. repeat split; auto; nia.
Qed.

(** Such a cache is accepted, and the end of its last slot encodes to 0, the invalid address. *)
Theorem C28_address_last_slot_refuted :
  let dev := 2 ^ 41 in let region := 2 ^ 24 in let n := 2 ^ 17 in
  valid_config dev dev region = true /\ dev = n * region /\
  slot_end (calcAllocAlignSize dev) region n (n - 1, region) /\
  encodeRelAddress (calcAllocAlignSize dev) region (n - 1, region) = 0 /\
  decodeRelAddress (calcAllocAlignSize dev) region 0 <> (n - 1, region).
Proof.
  repeat split; try (vm_compute; reflexivity); try (vm_compute; discriminate).
  exists 32768. reflexivity.
Qed.

(** The alignment is a power of two, at least 512. *)
Theorem C28_alignment dev : dev < 2 ^ 63 -> exists k, calcAllocAlignSize dev = 2 ^ k /\ 9 <= k <= 31.
Proof. exact (align_pow2 dev). Qed.

(** The slot size is header + key + value rounded up to the alignment. *)
Theorem C28_slot_size dev ks vs : dev < 2 ^ 63 -> 32 + ks + vs + calcAllocAlignSize dev <= 2 ^ 32 ->
  is_round_up (32 + ks + vs) (calcAllocAlignSize dev) (serializedSize (calcAllocAlignSize dev) ks vs).
Proof. intros D. destruct (align_pow2 dev D) as (k & -> & Hk). intro H. apply serialized_round; [lia|exact H]. Qed.

(** Without the guard the 32-bit sum wraps: a 4 GiB value gets a 512-byte slot and passes the
    maximum-size check of the insert. *)
Theorem C28_slot_size_wrap_refuted :
  serializedSize 512 16 (2 ^ 32 - 40) = 512 /\ 512 <= kMaxItemSize.
Proof. split; vm_compute; [reflexivity|discriminate]. Qed.

(** The 16-bit hint of every storable size decodes to the size rounded up to 512 bytes; for slot
    sizes (multiples of 512) it is exact. *)
Theorem C28_size_hint size : size <= kMaxItemSize ->
  is_round_up size 512 (decodeSizeHint (encodeSizeHint size)) /\
  ((512 | size) -> decodeSizeHint (encodeSizeHint size) = size).
Proof.
  intro H. pose proof (hint_round size H) as Hr. split; [exact Hr|]. intros [q ->].
  destruct Hr as ([p Hp] & L & U). change kMinAllocAlignSize with 512 in *. rewrite Hp in *. nia.
Qed.

(** The 5-byte record of the fixed-size index stores the hint as a 6-bit exponent: it decodes to
    at least the hint and at most 1.196 times it, for hints up to 55157 (28.2 MB). *)
Theorem C28_packed_hint h : 1 <= h -> h <= 55157 ->
  exists h', packedSizeHint h = Some h' /\ h <= h' /\ 1000 * h' <= 1196 * h.
Proof. exact (packed_ok h). Qed.

(** For every larger 16-bit hint reading it back converts an out-of-range double (undefined). *)
Theorem C28_packed_hint_large_refuted h : 55157 < h -> h < 2 ^ 16 -> packedSizeHint h = None.
Proof. exact (packed_ub h). Qed.

Example C28_ex : valid_config (2 ^ 40) (2 ^ 34) (2 ^ 24) = true /\
  slot_end (calcAllocAlignSize (2 ^ 40)) (2 ^ 24) (2 ^ 10) (3, 2 ^ 24) /\
  encodeRelAddress (calcAllocAlignSize (2 ^ 40)) (2 ^ 24) (3, 2 ^ 24) = 131072 /\
  packedSizeHint 1000 = Some 1075.
Proof. repeat split; try (vm_compute; reflexivity); try (vm_compute; discriminate). exists 32768. reflexivity. Qed.

Print Assumptions C28_address_roundtrip.
Print Assumptions C28_address_injective.
Print Assumptions C28_address_guard.
Print Assumptions C28_address_last_slot_refuted.
Print Assumptions C28_alignment.
Print Assumptions C28_slot_size.
Print Assumptions C28_slot_size_wrap_refuted.
Print Assumptions C28_size_hint.
Print Assumptions C28_packed_hint.
Print Assumptions C28_packed_hint_large_refuted.
