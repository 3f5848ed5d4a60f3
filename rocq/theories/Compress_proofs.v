(** Proofs for C08. *)
From Verif Require Import Bytes Compress_model Compress_spec.
Local Open Scope N_scope.

Lemma kSlab_val : kSlabSize = 4194304. Proof. reflexivity. Qed.
Lemma kMin_val : kMinAllocSize = 64. Proof. reflexivity. Qed.

Lemma ldiff_pow2 a n : a < 2 ^ (n + 1) -> N.ldiff a (N.shiftl 1 n) = a mod 2 ^ n.
Proof.
  intros H. apply N.bits_inj. intros m. rewrite N.ldiff_spec, N.shiftl_1_l.
  rewrite N.pow2_bits_eqb.
  destruct (N.lt_ge_cases m n) as [L|L].
  - rewrite N.mod_pow2_bits_low by exact L. destruct (N.eqb_spec n m); [lia|]. cbn. apply andb_true_r.
  - rewrite N.mod_pow2_bits_high by exact L. destruct (N.eqb_spec n m) as [->|NE]; [apply andb_false_r|].
    cbn. rewrite andb_true_r.
    destruct (N.eq_dec a 0) as [->|A0]; [apply N.bits_0|].
    apply N.bits_above_log2.
    assert (N.log2 a < n + 1) by (apply N.log2_lt_pow2; lia). lia.
Qed.

Lemma shl16 x : N.shiftl x kNumAllocIdxBits = x * 65536.
Proof. rewrite N.shiftl_mul_pow2. reflexivity. Qed.
Lemma shr16 x : N.shiftr x kNumAllocIdxBits = x / 65536.
Proof. rewrite N.shiftr_div_pow2. reflexivity. Qed.
Lemma land16 x : N.land x kAllocIdxMask = x mod 65536.
Proof. change kAllocIdxMask with (N.ones 16). rewrite N.land_ones. reflexivity. Qed.

(** The pair encodings. *)
Lemma enc4_single s i : s < 65536 -> i < 65536 ->
  compress4 s i false 0 = s * 65536 + i /\ getSlabIdx4 (s * 65536 + i) false = s /\ getAllocIdx4 (s * 65536 + i) = i.
Proof.
  intros S0 I. unfold compress4, getSlabIdx4, getAllocIdx4. cbn [negb]. rewrite shl16, shr16, land16.
  unfold wrap32. rewrite (N.mod_small (s * 65536)) by (unfold two32; lia). rewrite N.mod_small by (unfold two32; lia).
  split; [reflexivity|]. lia.
Qed.
Lemma enc4_multi s i t : s < 32768 -> i < 65536 -> t < 2 ->
  let p := t * 2147483648 + s * 65536 + i in
  compress4 s i true t = p /\ setTierId4 (compress4 s i true 0) t = p /\
  getSlabIdx4 p true = s /\ getAllocIdx4 p = i /\ getTierId4 p true = t.
Proof.
  intros S0 I T p. unfold compress4, setTierId4, getSlabIdx4, getAllocIdx4, getTierId4. cbn [negb].
  assert (TS : forall x, N.shiftl x kTierOff4 = x * 2147483648) by (intros; rewrite N.shiftl_mul_pow2; reflexivity).
  rewrite !shl16, shr16, land16, !TS.
  assert (P : p < 4294967296) by (unfold p; lia).
  unfold wrap32.
  rewrite (N.mod_small (t * 2147483648)) by (unfold two32; lia).
  rewrite (N.mod_small (s * 65536)) by (unfold two32; lia).
  rewrite (N.mod_small (t * 2147483648 + s * 65536)) by (unfold two32; lia).
  fold p. rewrite (N.mod_small p) by (unfold two32; lia).
  change (0 * 2147483648) with 0. change (0 mod two32) with 0.
  rewrite (N.mod_small (0 + s * 65536)) by (unfold two32; lia).
  rewrite (N.mod_small (0 + s * 65536 + i)) by (unfold two32; lia).
  split; [reflexivity|].
  split; [rewrite N.mod_small by (unfold two32; lia); unfold p; lia|].
  change kTierMask4 with (N.shiftl 1 31). rewrite ldiff_pow2 by (change (2 ^ (31 + 1)) with 4294967296; lia).
  change (2 ^ 31) with 2147483648. change (N.shiftr p kTierOff4) with (N.shiftr p 31). rewrite N.shiftr_div_pow2. change (2 ^ 31) with 2147483648.
  unfold p. lia.
Qed.
Lemma enc5_single s i : s < 8388608 -> i < 65536 ->
  getSlabIdx5 (mk5 s i false 0) false = s /\ getAllocIdx5 (mk5 s i false 0) = i /\
  r5 (mk5 s i false 0) < 128 /\ p5 (mk5 s i false 0) < two32.
Proof.
  intros S0 I. unfold getSlabIdx5, getAllocIdx5, mk5, compress5, getRegionIdx5. cbn [negb p5 r5].
  rewrite shl16, shr16, land16. change (32 - kNumAllocIdxBits) with 16.
  rewrite N.shiftl_mul_pow2, N.shiftr_div_pow2. change (2 ^ 16) with 65536.
  change (2 ^ kNumAllocIdxBits) with 65536. unfold wrap32, wrap8, two32.
  pose proof (N.div_mod s 65536 ltac:(lia)) as DM. pose proof (N.mod_lt s 65536 ltac:(lia)) as ML.
  set (a := s / 65536) in *. set (b := s mod 65536) in *. clearbody a b. subst s.
  rewrite (N.mod_small a 256) by lia.
  assert (E : (65536 * a + b) * 65536 mod 4294967296 = b * 65536).
  { replace ((65536 * a + b) * 65536) with (b * 65536 + a * 4294967296) by ring. rewrite N.mod_add by lia. apply N.mod_small. lia. }
  rewrite E. rewrite (N.mod_small (b * 65536 + i)) by lia.
  rewrite (N.mod_small (a * 65536)) by lia.
  rewrite N.div_add_l by lia. rewrite (N.div_small i) by lia. rewrite N.mod_small by lia.
  rewrite (N.add_comm (b * 65536)), N.mod_add by lia. rewrite N.mod_small by lia. lia.
Qed.
Lemma enc5_multi s i t : s < 4194304 -> i < 65536 -> t < 2 ->
  setTierId5 (mk5 s i true 0) t = mk5 s i true t /\
  getSlabIdx5 (mk5 s i true t) true = s /\ getAllocIdx5 (mk5 s i true t) = i /\ getTierId5 (mk5 s i true t) true = t /\
  r5 (mk5 s i true t) < 128 /\ p5 (mk5 s i true t) < two32.
Proof.
  intros S0 I T.
  assert (C : forall u, u < 2 -> mk5 s i true u = {| p5 := (s mod 65536) * 65536 + i; r5 := u * 64 + s / 65536 |}).
  { intros u U. unfold mk5, compress5, getRegionIdx5. cbn [negb]. rewrite shl16. change (32 - kNumAllocIdxBits) with 16.
    rewrite N.shiftr_div_pow2, !N.shiftl_mul_pow2. change (2 ^ 16) with 65536. change (2 ^ (kTierOff5 + 32)) with 274877906944.
    change (2 ^ kTierOff5) with 64. change kTierMask5 with (N.shiftl 1 6).
    rewrite ldiff_pow2 by (change (2 ^ (6 + 1)) with 128; lia). change (2 ^ 6) with 64.
    change (2 ^ kNumAllocIdxBits) with 65536. unfold wrap32, wrap8, two32.
    pose proof (N.div_mod s 65536 ltac:(lia)) as DM. pose proof (N.mod_lt s 65536 ltac:(lia)) as ML.
    set (a := s / 65536) in *. set (b := s mod 65536) in *. clearbody a b. subst s. f_equal.
    - assert (E : (65536 * a + b) * 65536 mod 4294967296 = b * 65536).
      { replace ((65536 * a + b) * 65536) with (b * 65536 + a * 4294967296) by ring. rewrite N.mod_add by lia. apply N.mod_small. lia. }
      rewrite E. replace (u * 274877906944 + b * 65536 + i) with (b * 65536 + i + (u * 64) * 4294967296) by ring.
      rewrite N.mod_add by lia. apply N.mod_small. lia.
    - rewrite (N.mod_small a 64) by lia. rewrite (N.mod_small a) by lia. rewrite (N.mod_small (u * 64)) by lia.
      apply N.mod_small. lia. }
  rewrite !C by lia. unfold setTierId5, getSlabIdx5, getAllocIdx5, getTierId5. cbn [p5 r5].
  rewrite shr16, land16. change (32 - kNumAllocIdxBits) with 16.
  rewrite N.shiftl_mul_pow2, N.shiftr_div_pow2. change (2 ^ kTierOff5) with 64.
  rewrite N.shiftl_mul_pow2. change (2 ^ 16) with 65536.
  change kTierMask5 with (N.shiftl 1 6).
  rewrite ldiff_pow2 by (change (2 ^ (6 + 1)) with 128; lia). change (2 ^ 6) with 64.
  change (2 ^ kNumAllocIdxBits) with 65536. unfold wrap32, wrap8, two32.
  pose proof (N.div_mod s 65536 ltac:(lia)) as DM. pose proof (N.mod_lt s 65536 ltac:(lia)) as ML.
  set (a := s / 65536) in *. set (b := s mod 65536) in *. clearbody a b. subst s.
  assert (E0 : (t * 64 + a) mod 64 = a) by (rewrite N.add_comm, N.mod_add by lia; apply N.mod_small; lia).
  rewrite E0. rewrite (N.mod_small (a * 65536)) by lia.
  rewrite N.div_add_l by lia. rewrite (N.div_small i) by lia.
  rewrite (N.add_comm (b * 65536)), N.mod_add by lia. rewrite (N.mod_small i) by lia.
  rewrite (N.mod_small (a * 65536 + _)) by lia.
  rewrite N.div_add_l by lia. rewrite (N.div_small a) by lia.
  repeat split; try lia. f_equal; rewrite N.mod_small by lia; lia.
Qed.

(** Locating an allocation. *)
Lemma alloc_idx_bound sz i : 64 <= sz -> sz <= 4194304 -> i < 4194304 / sz -> i < 65536 /\ i * sz < 4194304.
Proof.
  intros A B C. assert (D : (4194304 / sz) * sz <= 4194304) by (rewrite N.mul_comm; apply N.mul_div_le; lia).
  assert (E : (i + 1) * sz <= 4194304) by nia. nia.
Qed.

Lemma locate_ok m mem s i ptr : wf_slabs m mem -> alloc_at m s i ptr -> numSlabsOf mem - numSlabsForHeaders mem < two32 ->
  locate m ptr = Some (s, i) /\ ptr <> 0 /\ s < numSlabsOf mem - numSlabsForHeaders mem /\ i < 65536 /\ address m s i = ptr.
Proof.
  intros (W1 & W2 & W3) (A1 & A2 & A3 & A4 & ->) B. rewrite kSlab_val in *. rewrite kMin_val in *.
  destruct (alloc_idx_bound (allocSizeOf m s) i A2 A3 A4) as [I1 I2].
  set (n := numSlabsOf mem - numSlabsForHeaders mem) in *. clearbody n.
  set (st := slabMemoryStart m) in *.
  assert (SN : s < n) by nia.
  assert (GS : getSlabForMemory (st + s * 4194304 + i * allocSizeOf m s) = st + s * 4194304).
  { unfold getSlabForMemory. rewrite kSlab_val.
    assert (M : (st + s * 4194304 + i * allocSizeOf m s) mod 4194304 = i * allocSizeOf m s).
    { rewrite (N.div_mod st 4194304) at 1 by lia. rewrite W2, N.add_0_r.
      replace (4194304 * (st / 4194304) + s * 4194304 + i * allocSizeOf m s)
        with (i * allocSizeOf m s + (st / 4194304 + s) * 4194304) by ring.
      rewrite N.mod_add by lia. apply N.mod_small. exact I2. }
    rewrite M. lia. }
  assert (GS2 : getSlabForMemory (st + s * 4194304) = st + s * 4194304).
  { unfold getSlabForMemory. rewrite kSlab_val. rewrite N.mod_add by lia. rewrite W2. lia. }
  unfold locate. rewrite GS. unfold isValidSlab. rewrite GS2, N.eqb_refl. fold st.
  destruct (N.leb_spec st (st + s * 4194304)); [|lia]. destruct (N.ltb_spec (st + s * 4194304) (nextSlab m)); [|lia].
  cbn [andb]. rewrite kSlab_val.
  replace (st + s * 4194304 - st) with (s * 4194304) by lia. rewrite N.div_mul by lia.
  unfold wrap32. rewrite (N.mod_small s) by lia.
  destruct (N.eqb_spec (allocSizeOf m s) 0); [lia|].
  replace (st + s * 4194304 + i * allocSizeOf m s - (st + s * 4194304)) with (i * allocSizeOf m s) by lia.
  rewrite (N.mod_small (i * _)) by (unfold two32; lia). rewrite N.div_mul by lia.
  split; [reflexivity|]. split; [lia|]. split; [exact SN|]. split; [exact I1|].
  unfold address, wrap32. rewrite kSlab_val. rewrite N.mod_small by (unfold two32; lia). fold st. lia.
Qed.

Lemma header_slabs mem b : mem <= b * 4194304 -> 0 < b -> numSlabsOf mem - numSlabsForHeaders mem <= b - 1.
Proof.
  intros H B. unfold numSlabsForHeaders, numSlabsOf, sizeofSlabHeader. rewrite kSlab_val.
  set (n := mem / 4194304). assert (n <= b) by (unfold n; apply N.div_le_upper_bound; lia).
  destruct (N.eq_dec n 0) as [->|NZ]; [lia|].
  assert (1 <= (7 * n + 4194304 - 1) / 4194304) by (apply N.div_le_lower_bound; lia). lia.
Qed.

Lemma roundtrip4 m mem ptr : wf_slabs m mem -> mem <= maxAddressable4 -> is_alloc m ptr ->
  exists c, compressPtr4 m ptr false = Some c /\ isNull4 c = false /\ c < two32 /\ unCompress4 m c false = ptr /\ restore4 (getRaw4 c) = c.
Proof.
  intros W M (s & i & A). change maxAddressable4 with (65536 * 4194304) in M.
  pose proof (header_slabs mem 65536 M) as HS.
  destruct (locate_ok m mem s i ptr W A) as (L & P & S0 & I & AD); [unfold two32; lia|].
  destruct (enc4_single s i) as (E1 & E2 & E3); [lia|lia|].
  unfold compressPtr4. destruct (N.eqb_spec ptr 0); [contradiction|]. rewrite L. cbn [fst snd]. rewrite E1.
  eexists. split; [reflexivity|].
  assert (NN : isNull4 (s * 65536 + i) = false) by (apply N.eqb_neq; unfold kNull32; lia).
  split; [exact NN|]. split; [unfold two32; lia|].
  unfold unCompress4. rewrite NN, E2, E3. split; [exact AD|]. unfold restore4, getRaw4, wrap32. apply N.mod_small. unfold two32; lia.
Qed.
Lemma roundtrip5 m mem ptr : wf_slabs m mem -> mem <= maxAddressable5 -> is_alloc m ptr ->
  exists c, compressPtr5 m ptr false = Some c /\ isNull5 c = false /\ unCompress5 m c false = ptr /\ restore5 (getRaw5 c) = c.
Proof.
  intros W M (s & i & A). change maxAddressable5 with (8388608 * 4194304) in M.
  pose proof (header_slabs mem 8388608 M) as HS.
  destruct (locate_ok m mem s i ptr W A) as (L & P & S0 & I & AD); [unfold two32; lia|].
  destruct (enc5_single s i) as (E2 & E3 & E4 & E5); [lia|lia|].
  unfold compressPtr5. destruct (N.eqb_spec ptr 0); [contradiction|]. rewrite L. cbn [fst snd].
  eexists. split; [reflexivity|].
  assert (NN : isNull5 (mk5 s i false 0) = false).
  { unfold isNull5. destruct (N.eqb_spec (r5 (mk5 s i false 0)) kRegionNull) as [E|E]; [|apply andb_false_r].
    unfold kRegionNull in E. lia. }
  split; [exact NN|].
  unfold unCompress5. rewrite NN, E2, E3. split; [exact AD|].
  destruct (mk5 s i false 0) as [p r]. cbn [p5 r5] in *. unfold restore5, getRaw5. cbn [p5 r5].
  rewrite N.shiftr_div_pow2, N.shiftl_mul_pow2. change (2 ^ 32) with two32. unfold wrap64, wrap32, wrap8, two64, two32 in *.
  f_equal; lia.
Qed.
