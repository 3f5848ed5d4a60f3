(** C27, fixed-size flash index: theorems. *)
From Verif Require Import Bytes SparseIndex_model SparseIndex_spec FixedIndex_model FixedIndex_spec
  FixedIndex_proofs FixedIndex_proofs2 FixedIndex_proofs3 FixedIndex_proofs4.
Open Scope N_scope.

(** What BlockCacheIndexConfig::validate accepts (NavyConfig.h:245-262). *)
Definition validate_ok (c : fcfg) : Prop :=
  0 < fcChunks c /\ 0 < fcShard c /\ 0 < fcPow c < 64 /\ fcShard c <= fTotal c.
(** Among those, the configurations with at least 98 buckets per shard, shards that divide
    the table, and a table below 2^63 buckets: [cfg_ok].  [fop_ok]: addresses are not 0 and
    size hints are 1..55157. *)

(** For these, whatever the history of calls, the index answers as the map of
    FixedIndex_spec.v from (bucket, partial key bits) to records, displacing another entry
    only when the shard is crowded, and never accesses memory outside its tables. *)
Theorem C27_fixed_is_map : forall c calls, cfg_ok c -> Forall fop_ok calls ->
  exists s results m0 m, f_run c f_zero calls = Some (s, results) /\
    (forall t, m0 t = None) /\
    fspecs (fun h => bucketId c h * 256 + partialKeyBits h) (fun t => t / 256 / fcShard c)
           quantN m0 calls results m.
Proof.
  intros c calls OK F. destruct (zero_ok c) as [A B].
  destruct (frun_ok OK A B F) as (s & rs & m & R & SP).
  exists s, rs, (fun _ => None), m. split; [exact R|]. split; [reflexivity|exact SP].
Qed.
Print Assumptions C27_fixed_is_map.

Definition ex_cfg : fcfg := mkFC 2 9 128.
Definition ex_key (low p : N) : N := low + p * 2 ^ 40.
Definition ex_calls : list iop :=
  [OReset; OInsert (ex_key 14 0) 100 7; OInsert (ex_key 14 1) 101 8; OInsert (ex_key 14 2) 102 9;
   OInsert (ex_key 14 3) 103 100; OPeek (ex_key 14 3); OInsert (ex_key 14 4) 104 1; OPeek (ex_key 14 0);
   OLookup (ex_key 14 1); OLookup (ex_key 14 1); OReplace (ex_key 14 1) 201 999; OReplace (ex_key 14 1) 201 101;
   OPeek (ex_key 14 1); OInsertNew (ex_key 14 5) 105 1; OSize; ORemoveIf (ex_key 14 2) 7; ORemove (ex_key 14 2);
   ORemove (ex_key 14 2); OSize].
Example C27_fixed_example : cfg_ok ex_cfg /\ Forall fop_ok ex_calls /\
  option_map snd (f_run ex_cfg f_zero ex_calls) = Some
   [RUnit; RLook None; RLook None; RLook None; RLook None; RLook (Some (mkIR 103 104 0 0));
    RLook (Some (mkIR 100 7 0 0)); RLook None;
    RLook (Some (mkIR 101 8 0 1)); RLook (Some (mkIR 101 8 0 2)); RBool false; RBool true;
    RLook (Some (mkIR 201 8 0 0)); RLook (Some (mkIR 104 1 0 0)); RSize 4; RBool false;
    RLook (Some (mkIR 102 10 0 0)); RLook None; RSize 3].
Proof.
  split; [|split].
  - split; [reflexivity|]. split; [reflexivity|]. split; [vm_compute; discriminate|].
    exists 8. reflexivity.
  - repeat constructor; vm_compute; auto; discriminate.
  - vm_compute. reflexivity.
Qed.

(** Locking is adequate: calls on keys of different shards, which take different mutexes,
    touch disjoint data, so they commute (results and tables). *)
Theorem C27_fixed_shards_independent : forall c s o1 o2 h1 h2 s1 s12 r1 r2, cfg_ok c ->
  op_key o1 = Some h1 -> op_key o2 = Some h2 ->
  shardId c (bucketId c h1) <> shardId c (bucketId c h2) ->
  f_step c s o1 = Some (s1, r1) -> f_step c s1 o2 = Some (s12, r2) ->
  exists s2 s21, f_step c s o2 = Some (s2, r2) /\ f_step c s2 o1 = Some (s21, r1) /\
    (forall j, fSlot s12 j = fSlot s21 j) /\ (forall i, fCnt s12 i = fCnt s21 i).
Proof. exact commute_ok. Qed.
Print Assumptions C27_fixed_shards_independent.
Example C27_fixed_shards_example : shardId ex_cfg (bucketId ex_cfg (ex_key 14 0)) <>
  shardId ex_cfg (bucketId ex_cfg (ex_key 300 0)).
Proof. vm_compute. discriminate. Qed.

(** Size hints survive rounding: never too small, at most 19.6% too large. *)
Theorem C27_fixed_size_hint : forall h, 1 <= h <= 55157 ->
  exists v, quant h = Some v /\ h <= v /\ 1000 * v <= 1196 * h.
Proof. exact quant_bounds. Qed.
Print Assumptions C27_fixed_size_hint.
Example kSizeExpBase_nearest : 1000 * kSizeExpBase - 1196 * 2 ^ 52 <= 500 /\ 1196 * 2 ^ 52 - 1000 * kSizeExpBase <= 500.
Proof. vm_compute. split; discriminate. Qed.
(** ... but every larger hint that a 16-bit hint can hold (objects of 28 MB and more with
    512-byte units) is read back through an out-of-range floating conversion, although the
    comment in Index.h:236-241 says 65535 can be represented. *)
Theorem C27_fixed_size_hint_large_refuted : ~ (forall h, 1 <= h <= 65535 -> quant h <> None).
Proof. intros H. apply (H 60000); [lia|]. apply quant_overflow. lia. Qed.
Theorem C27_fixed_size_hint_large_always : forall h, 55157 < h <= 65535 -> quant h = None.
Proof. exact quant_overflow. Qed.
Print Assumptions C27_fixed_size_hint_large_refuted.
Print Assumptions C27_fixed_size_hint_large_always.

(** Two bits per bucket, four buckets per byte: writing one leaves the others alone ... *)
Theorem C27_fixed_fill_bits : forall m b b' o, o < 4 -> (forall i, m i < 256) ->
  fm_get (fm_set m b o) b' = (if b' =? b then o else fm_get m b').
Proof. exact fm_get_set. Qed.
Print Assumptions C27_fixed_fill_bits.
(** ... and no byte is shared by two shards if the shard size is a multiple of 4 ... *)
Theorem C27_fixed_fill_bytes_disjoint : forall w n b b', w = 4 * n -> 0 < n -> b / 4 = b' / 4 -> b / w = b' / w.
Proof.
  intros w n b b' -> P E. rewrite <- !N.div_div by lia. rewrite E. reflexivity.
Qed.
Print Assumptions C27_fixed_fill_bytes_disjoint.
(** ... which validate() does not require: then two locks guard one byte. *)
Theorem C27_fixed_fill_bytes_shared_refuted : ~ (forall c b b', validate_ok c -> cfg_ok c ->
  b < fTotal c -> b' < fTotal c -> b / 4 = b' / 4 -> shardId c b = shardId c b').
Proof.
  intros H. specialize (H (mkFC 99 2 99) 98 99).
  assert (V : validate_ok (mkFC 99 2 99)) by (vm_compute; intuition discriminate).
  assert (K : cfg_ok (mkFC 99 2 99)).
  { split; [reflexivity|]. split; [reflexivity|]. split; [vm_compute; discriminate|]. exists 4. reflexivity. }
  specialize (H V K). vm_compute in H. discriminate H; reflexivity.
Qed.
Print Assumptions C27_fixed_fill_bytes_shared_refuted.

(** The default of 64 buckets per mutex (NavyConfig.h:192) is accepted and breaks the table.
    An insert that reports nothing replaced can make another key disappear ... *)
Theorem C27_fixed_default_shard_loses_refuted : ~ (forall c calls s rs h h' a z s', validate_ok c ->
  fcShard c = 64 -> Forall fop_ok calls -> f_run c f_zero calls = Some (s, rs) ->
  f_step c s (OInsert h a z) = Some (s', RLook None) -> ftok c h <> ftok c h' ->
  option_map snd (f_step c s (OPeek h')) = option_map snd (f_step c s' (OPeek h'))).
Proof.
  intros H.
  set (c := mkFC 1 8 64). set (k := fun b p => ex_key (b + 256 - 154) p).
  set (calls := [OReset; OInsert (k 104 0) 100 7; OInsert (k 104 1) 101 7; OInsert (k 104 2) 102 7;
                 OInsert (k 104 3) 103 7]).
  assert (V : validate_ok c) by (vm_compute; intuition discriminate).
  assert (F : Forall fop_ok calls) by (repeat constructor; vm_compute; auto; discriminate).
  destruct (f_run c f_zero calls) as [[s rs]|] eqn:R; [|vm_compute in R; discriminate].
  destruct (f_step c s (OInsert (k 73 0) 104 7)) as [[s' r]|] eqn:S.
  - specialize (H c calls s rs (k 73 0) (k 104 3) 104 7 s' V eq_refl F R).
    vm_compute in R. injection R as <- <-. vm_compute in S. injection S as <- <-.
    specialize (H eq_refl). vm_compute in H. discriminate H. discriminate.
  - vm_compute in R. injection R as <- <-. vm_compute in S. discriminate.
Qed.
Print Assumptions C27_fixed_default_shard_loses_refuted.
(** ... or access memory outside the table; so does reset() when the shard size does not
    divide the number of buckets. *)
Theorem C27_fixed_validated_in_bounds_refuted : ~ (forall c calls, validate_ok c -> Forall fop_ok calls ->
  f_run c f_zero calls <> None).
Proof.
  intros H.
  set (k := fun b p => ex_key (b + 256 - 154) p).
  apply (H (mkFC 1 8 64) [OReset; OInsert (k 40 0) 100 7; OInsert (k 40 1) 101 7; OInsert (k 40 2) 102 7;
                 OInsert (k 40 3) 103 7; OInsert (k 9 0) 104 7]).
  - vm_compute; intuition discriminate.
  - repeat constructor; vm_compute; auto; discriminate.
  - vm_compute. reflexivity.
Qed.
Theorem C27_fixed_uneven_shards_refuted : ~ (forall c, validate_ok c -> 98 <= fcShard c ->
  f_run c f_zero [OReset] <> None).
Proof.
  intros H. apply (H (mkFC 1 7 100)); vm_compute; intuition discriminate.
Qed.
Print Assumptions C27_fixed_validated_in_bounds_refuted.
Print Assumptions C27_fixed_uneven_shards_refuted.
