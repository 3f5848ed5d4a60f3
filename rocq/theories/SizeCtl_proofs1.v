(** Layout and capacity. *)
From Coq Require Import List ZArith Bool Lia.
Import ListNotations.
From Verif Require Import SizeCtl_model SizeCtl_spec.
Open Scope Z_scope.

Lemma align8_spec x : 0 <= x -> align8 x mod 8 = 0 /\ x <= align8 x < x + 8.
Proof.
  intro H. unfold align8. pose proof (Z.mod_pos_bound x 8 ltac:(lia)) as B. pose proof (Z.div_mod x 8 ltac:(lia)) as D.
  destruct (Z.eqb_spec (x mod 8) 0) as [E|E].
  - split; [exact E|lia].
  - split; [|lia]. replace (x + 8 - x mod 8) with ((x / 8 + 1) * 8) by lia. apply Z.mod_mul. lia.
Qed.
Lemma pad_spec k : 0 <= pad k < 8 /\ (k + pad k) mod 8 = 0.
Proof.
  unfold pad. split; [apply Z.mod_pos_bound; lia|].
  rewrite Z.add_mod_idemp_r by lia. replace (k + - k) with 0 by lia. reflexivity.
Qed.
Ltac m8 := repeat match goal with
  | H : ?x mod 8 = _ |- _ => let q := fresh "q" in let E := fresh in
      pose proof (Z.div_mod x 8 ltac:(lia)) as E; rewrite H in E; set (q := x / 8) in *; clearbody q; clear H end.
Lemma wr_id x : 0 <= x < 2 ^ 64 -> wr x = x.
Proof. apply Z.mod_small. Qed.
Lemma extra_spec k : extra k = 0 /\ k <= 255 \/ extra k = 4 /\ 255 < k.
Proof. unfold extra. destruct (Z.leb_spec k 255); lia. Qed.

Lemma record_spec hdr base k : 0 <= hdr -> 0 <= base -> 0 <= k ->
  recordAt hdr base k mod 8 = 0 /\ valueAt hdr base k <= recordAt hdr base k < valueAt hdr base k + 8.
Proof.
  intros Hh Hb Hk. unfold recordAt.
  assert (0 <= valueAt hdr base k) as V by (unfold valueAt; destruct (extra_spec k); lia).
  destruct (align8_spec _ V) as [M B].
  rewrite wr_id by lia. replace (valueAt hdr base k + (align8 (valueAt hdr base k) - valueAt hdr base k)) with (align8 (valueAt hdr base k)) by lia.
  split; [exact M|lia].
Qed.

(* The record of an entry lies in its slot, after the key, aligned. *)
Lemma record_in_slot hdr maxKey base k :
  0 < hdr -> hdr mod 8 = 0 -> 0 < k <= maxKey -> maxKey + hdr + 64 < 2 ^ 32 ->
  0 <= base -> base mod 8 = 0 ->
  recordAt hdr base k mod 8 = 0 /\ valueAt hdr base k <= recordAt hdr base k /\
  recordAt hdr base k + recSize <= base + allocSize hdr maxKey.
Proof.
  intros Hh H8 Hk Hm Hb B8.
  destruct (record_spec hdr base k ltac:(lia) Hb ltac:(lia)) as [M B].
  split; [exact M|]. split; [lia|].
  unfold allocSize, required, recSize in *.
  destruct (pad_spec maxKey) as [P1 P2].
  assert (E : (16 + pad maxKey + maxKey + hdr + extra maxKey >? 2 ^ 32 - 1) = false).
  { rewrite Z.gtb_ltb. apply Z.ltb_ge. destruct (extra_spec maxKey); lia. }
  rewrite E. cbv zeta.
  assert (L : recordAt hdr base k + 16 <= base + align8 (16 + pad maxKey + maxKey + hdr + extra maxKey)).
  { assert (0 <= 16 + pad maxKey + maxKey + hdr + extra maxKey) as N by (destruct (extra_spec maxKey); lia).
    destruct (align8_spec _ N) as [A1 A2].
    unfold valueAt in B. m8. destruct (extra_spec k) as [[Y ?]|[Y ?]]; destruct (extra_spec maxKey) as [[X ?]|[X ?]]; rewrite ?X, ?Y in *; lia. }
  destruct (Z.leb_spec (16 + pad maxKey + maxKey + hdr + extra maxKey) 64) as [S|S].
  - assert (0 <= 16 + pad maxKey + maxKey + hdr + extra maxKey) as N by (destruct (extra_spec maxKey); lia).
    destruct (align8_spec _ N) as [A1 A2]. assert (align8 (16 + pad maxKey + maxKey + hdr + extra maxKey) <= 64) by (m8; lia). lia.
  - assert (0 <= 16 + pad maxKey + maxKey + hdr + extra maxKey) as N by (destruct (extra_spec maxKey); lia).
    destruct (align8_spec _ N) as [A1 A2]. unfold w32. rewrite Z.mod_small; [exact L|].
    destruct (extra_spec maxKey); lia.
Qed.

(* For keys up to 255 bytes it lies in the value the item was allocated with, and the padding is what was counted. *)
Lemma record_in_value hdr base k : 0 < hdr -> hdr mod 8 = 0 -> 0 < k <= 255 -> 0 <= base -> base mod 8 = 0 ->
  recordAt hdr base k + recSize <= valueAt hdr base k + valueSize k /\ padTaken hdr base k = padAdded k.
Proof.
  intros Hh H8 Hk Hb B8.
  destruct (record_spec hdr base k ltac:(lia) Hb ltac:(lia)) as [M B].
  destruct (pad_spec k) as [P1 P2].
  unfold padTaken, padAdded, valueSize, recSize.
  assert (X : valueAt hdr base k = base + hdr + k) by (unfold valueAt, extra; destruct (Z.leb_spec k 255); lia).
  rewrite X in *. m8. split; lia.
Qed.

(** Capacity *)
Lemma divCeil_spec a b : 0 <= a -> 1 <= b < 2 ^ 32 -> a + b < 2 ^ 64 ->
  let q := divCeil a b in q * b < a + b /\ a <= q * b /\ 0 <= q.
Proof.
  intros Ha Hb Hs q. unfold q, divCeil, w32. rewrite (Z.mod_small b) by lia. rewrite (wr_id (a + b)) by lia. rewrite wr_id by lia.
  pose proof (Z.div_mod (a + b - 1) b ltac:(lia)). pose proof (Z.mod_pos_bound (a + b - 1) b ltac:(lia)).
  pose proof (Z.div_pos (a + b - 1) b ltac:(lia) ltac:(lia)). nia.
Qed.

Lemma capacity_exact limit shards size :
  1 <= shards <= 64 -> shards <= limit < 2 ^ 40 -> 64 <= size <= slabSize ->
  let c := calcCapacity limit shards size in
  initPlaceholders limit shards size = shards * (cSlabs c * cPerSlab c) - limit /\
  limit <= shards * (cSlabs c * cPerSlab c) /\ 1 <= cPerSlab c /\ 1 <= cSlabs c /\
  (cSlabs c - 1) * cPerSlab c < cPerShard c <= cSlabs c * cPerSlab c /\
  cPool c = cSlabs c * slabSize /\ cTotal c = shards * cPool c + slabSize /\
  cPerSlab c * size <= slabSize.
Proof.
  intros Hs Hl Hz c. unfold slabSize in *.
  assert (PS : 1 <= slabSize / size <= 2 ^ 16).
  { unfold slabSize. split; [apply Z.div_le_lower_bound; lia|]. apply Z.div_le_upper_bound; lia. }
  destruct (divCeil_spec limit shards ltac:(lia) ltac:(lia) ltac:(lia)) as (A1 & A2 & A3).
  set (ps := slabSize / size) in *. set (sh := divCeil limit shards) in *.
  assert (SH : 1 <= sh < 2 ^ 41) by nia.
  destruct (divCeil_spec sh ps ltac:(lia) ltac:(lia) ltac:(lia)) as (B1 & B2 & B3).
  set (sl := divCeil sh ps) in *.
  assert (SL : 1 <= sl < 2 ^ 41 + 1) by nia.
  assert (SL2 : shards * sl < 2 ^ 41) by nia.
  assert (P1 : wr (sl * slabSize) = sl * slabSize) by (apply wr_id; unfold slabSize; lia).
  assert (P2 : wr (wr (sl * slabSize) * shards) = sl * slabSize * shards) by (rewrite P1; apply wr_id; unfold slabSize; nia).
  assert (P3 : wr (wr (wr (sl * slabSize) * shards) + slabSize) = sl * slabSize * shards + slabSize) by (rewrite P2; apply wr_id; unfold slabSize; nia).
  assert (Q0 : sl * ps < 2 ^ 58) by nia.
  assert (Q1 : wr (sl * ps) = sl * ps) by (apply wr_id; nia).
  assert (Q2 : wr (sl * ps - sh) = sl * ps - sh) by (apply wr_id; nia).
  assert (Q3 : wr (sh * shards) = sh * shards) by (apply wr_id; nia).
  assert (Q4 : wr (sh * shards - limit) = sh * shards - limit) by (apply wr_id; nia).
  assert (Q5 : wr ((sl * ps - sh) * shards) = (sl * ps - sh) * shards) by (apply wr_id; nia).
  assert (Q6 : wr ((sl * ps - sh) * shards + (sh * shards - limit)) = (sl * ps - sh) * shards + (sh * shards - limit)) by (apply wr_id; nia).
  unfold initPlaceholders, c, calcCapacity. cbn [cSlabs cPerSlab cPerShard cPool cTotal]. fold ps. fold sh. fold sl.
  rewrite Q1, Q2, Q3, Q4, Q5, Q6, P3, P1.
  assert (D : size * ps <= slabSize) by (apply Z.mul_div_le; lia).
  clear P1 P2 P3 Q1 Q2 Q3 Q4 Q5 Q6 Q0.
  split; [ring|]. split; [clear -A2 B2 Hs; nia|]. split; [lia|]. split; [lia|]. split; [clear -B1 B2; lia|].
  split; [reflexivity|].
  split; [unfold slabSize; ring|]. rewrite Z.mul_comm. exact D.
Qed.
