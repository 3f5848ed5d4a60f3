(** C13: item key/value layout. *)
From Verif Require Import Bytes Item_model Item_spec Item_proofs.
Local Open Scope N_scope.

(** An accepted allocation gives an item that shows the requested key, size and
    times, and keeps doing so under every sequence of in-bounds value writes and
    expiry updates; no access leaves the allocation. *)
Theorem C13_item_is_its_fields :
  forall isz classes allowLarge garbage key size ct ex m0 os,
  (12 <= isz)%nat -> Forall (fun c => c < 2 ^ 32) classes ->
  (forall c, In c classes -> N.of_nat (length (garbage c)) = c) ->
  ct < 2 ^ 32 -> ex < 2 ^ 32 ->
  allocateItem isz classes allowLarge garbage key size ct ex = Some (Ok m0) ->
  Forall (uop_legal (N.to_nat size)) os ->
  exists v0 m,
    N.of_nat (length v0) = size /\
    irun isz m0 os = Some m /\
    shows isz m (urun {| u_key := key; u_value := v0; u_creation := ct; u_expiry := ex |} os).
Proof.
  intros isz classes al garbage key size ct ex m0 os Hi HC HG Hct Hex HA HF.
  destruct (allocate_cases isz classes al garbage key size ct ex Hi HC HG Hct Hex)
    as [(_ & c & pre & val & rest & _ & _ & A & WF & L & _)|[_ A]];
    rewrite A in HA; [|discriminate].
  inversion HA; subst m0.
  destruct (irun_spec isz pre key rest os ct ex val WF) as (ex' & val' & R & W & L' & U).
  { now replace (length val) with (N.to_nat size) by lia. }
  exists val, (lay pre ct ex' key val' rest). split; [assumption|]. split; [exact R|].
  rewrite U. now apply shows_lay.
Qed.

(** Requests are accepted exactly when they are acceptable, and never run into
    undefined behaviour. *)
Theorem C13_accepted_iff :
  forall isz classes allowLarge garbage key size ct ex,
  (12 <= isz)%nat -> Forall (fun c => c < 2 ^ 32) classes ->
  (forall c, In c classes -> N.of_nat (length (garbage c)) = c) ->
  ct < 2 ^ 32 -> ex < 2 ^ 32 ->
  (acceptable isz classes allowLarge key size ->
     exists m, allocateItem isz classes allowLarge garbage key size ct ex = Some (Ok m)) /\
  (~ acceptable isz classes allowLarge key size ->
     allocateItem isz classes allowLarge garbage key size ct ex = Some Threw).
Proof.
  intros isz classes al garbage key size ct ex Hi HC HG Hct Hex.
  destruct (allocate_cases isz classes al garbage key size ct ex Hi HC HG Hct Hex)
    as [(Ac & c & pre & val & rest & _ & _ & A & _)|[NA A]].
  - split; [intros _; eauto|intros C; contradiction].
  - split; [intros C; contradiction|intros _; assumption].
Qed.

(** Construction writes only the header fields, the key and nothing else: the
    first [isz - 12] bytes (hooks, reference count) and everything behind the
    item's bytes keep their content; the key and the value are disjoint, inside
    the allocation, and getTotalSize/getUsableSize are right. *)
Theorem C13_disjoint_and_in_bounds :
  forall isz classes allowLarge garbage key size ct ex m0,
  (12 <= isz)%nat -> Forall (fun c => c < 2 ^ 32) classes ->
  (forall c, In c classes -> N.of_nat (length (garbage c)) = c) ->
  ct < 2 ^ 32 -> ex < 2 ^ 32 ->
  allocateItem isz classes allowLarge garbage key size ct ex = Some (Ok m0) ->
  exists c ko vo,
    In c classes /\ length m0 = length (garbage c) /\
    getDataOff m0 (offAlloc isz) = Some ko /\ itemMemoryOff isz m0 = Some vo /\
    (isz <= ko)%nat /\ (ko + length key <= vo)%nat /\ N.of_nat vo + size <= c /\
    N.of_nat vo + size = bytesNeeded isz (length key) size /\
    itemTotalSize isz m0 = Some (bytesNeeded isz (length key) size) /\
    usableSize isz c m0 = Some (c - (bytesNeeded isz (length key) size - size)) /\
    firstn (isz - 12) m0 = firstn (isz - 12) (garbage c) /\
    skipn (vo + N.to_nat size) m0 = skipn (vo + N.to_nat size) (garbage c).
Proof.
  intros isz classes al garbage key size ct ex m0 Hi HC HG Hct Hex HA.
  destruct (allocate_cases isz classes al garbage key size ct ex Hi HC HG Hct Hex)
    as [(_ & c & pre & val & rest & Hin & Hfit & A & WF & L & Hpre & Hrest & Lm)|[_ A]];
    rewrite A in HA; [|discriminate].
  inversion HA; subst m0. clear HA.
  pose proof (proj1 (Forall_forall _ _) HC _ Hin) as Hc32. cbn beta in Hc32.
  exists c, (isz + length (lkey key))%nat, (isz + length (lkey key) + length key)%nat.
  assert (Hx2 : N.of_nat (length (lkey key)) = if 255 <? N.of_nat (length key) then 4 else 0).
  { rewrite len_lkey. rewrite N.leb_antisym. now destruct (255 <? _). }
  assert (Hb : N.of_nat (isz + length (lkey key) + length key) + size = bytesNeeded isz (length key) size).
  { unfold bytesNeeded. rewrite <- Hx2. lia. }
  split; [assumption|]. split; [rewrite <- (HG c Hin) in Lm; lia|].
  split; [now apply dataOff_spec|]. split; [now apply memOff_spec|].
  split; [lia|]. split; [lia|]. split; [lia|]. split; [assumption|].
  split; [|split; [|split]].
  - unfold itemTotalSize. rewrite memOff_spec, size_spec by assumption.
    rewrite L, Hb. f_equal. unfold wrap32, two32. rewrite pow32 in Hc32. apply N.mod_small. lia.
  - unfold usableSize. rewrite key_spec by assumption. f_equal.
    rewrite required_spec. unfold two32. rewrite pow32 in Hc32.
    assert (E0 : bytesNeeded isz (length key) 0 + size = bytesNeeded isz (length key) size)
      by (unfold bytesNeeded; lia).
    destruct (N.ltb_spec (4294967296 - 1) (bytesNeeded isz (length key) 0)); [lia|].
    unfold wrap32, two32.
    replace (c + 4294967296 - bytesNeeded isz (length key) 0)
      with (c - (bytesNeeded isz (length key) size - size) + 1 * 4294967296) by lia.
    rewrite N.mod_add, N.mod_small by lia. reflexivity.
  - rewrite <- Hpre. unfold lay. destruct WF as [_ Lp _ _ _ _ _].
    rewrite firstn_app, firstn_all2 by lia.
    replace (isz - 12 - length pre)%nat with 0%nat by lia. cbn [firstn]. apply app_nil_r.
  - replace (isz + length (lkey key) + length key + N.to_nat size)%nat
      with (N.to_nat (bytesNeeded isz (length key) size)) by lia.
    rewrite <- Hrest. pose proof WF as [_ Lp _ _ _ _ _].
    unfold lay. rewrite !app_assoc, skipn_app.
    rewrite skipn_all2 by (rewrite !app_length, !le_enc_length; lia).
    rewrite !app_length, !le_enc_length.
    match goal with |- context [skipn ?x rest] => replace x with 0%nat by lia end.
    reflexivity.
Qed.

(** Chained items: the parent and next pointers and the value never interfere. *)
Theorem C13_chained_item_is_its_fields :
  forall isz pw classes garbage parent size ct m0 os,
  (12 <= isz)%nat -> (0 < pw < 256)%nat ->
  Forall (fun c => c <= 4194304) classes ->
  (forall c, In c classes -> N.of_nat (length (garbage c)) = c) ->
  ct < 2 ^ 32 -> parent < 256 ^ N.of_nat pw -> size < 2 ^ 32 ->
  allocateChained isz pw classes garbage parent size ct = Some (Ok m0) ->
  Forall (chop_legal pw (N.to_nat size)) os ->
  exists v0 m,
    N.of_nat (length v0) = size /\
    cirun isz pw m0 os = Some m /\
    cshows isz pw m (chrun {| c_parent := parent; c_next := 0; c_value := v0 |} os).
Proof.
  intros isz pw classes garbage parent size ct m0 os Hi Hp HC HG Hct Hpa Hs HA HF.
  destruct (chained_allocate isz pw classes garbage parent size ct Hi Hp Hct Hpa Hs HC HG)
    as [(c & pre & val & rest & _ & _ & A & WF & L)|[_ A]]; rewrite A in HA; [|discriminate].
  inversion HA; subst m0.
  destruct (cirun_spec isz pw pre ct rest Hp os parent 0 val WF) as (p' & n' & v' & R & W & L' & U).
  { now replace (length val) with (N.to_nat size) by lia. }
  exists val, (clay pw pre ct rest p' n' v'). split; [assumption|]. split; [exact R|].
  rewrite U. now apply cshows_clay.
Qed.

(** A chained allocation is accepted exactly when some class can hold it, for
    every 32-bit size (the 32-bit sum in its constructor cannot wrap because the
    class lookup has rejected those sizes). *)
Theorem C13_chained_accepted_iff :
  forall isz pw classes garbage parent size ct,
  (12 <= isz)%nat -> (0 < pw < 256)%nat ->
  Forall (fun c => c <= 4194304) classes ->
  (forall c, In c classes -> N.of_nat (length (garbage c)) = c) ->
  ct < 2 ^ 32 -> parent < 256 ^ N.of_nat pw -> size < 2 ^ 32 ->
  ((exists c, In c classes /\ N.of_nat isz + 2 * N.of_nat pw + size <= c) ->
     exists m, allocateChained isz pw classes garbage parent size ct = Some (Ok m)) /\
  ((forall c, In c classes -> c < N.of_nat isz + 2 * N.of_nat pw + size) ->
     allocateChained isz pw classes garbage parent size ct = Some Threw).
Proof.
  intros isz pw classes garbage parent size ct Hi Hp HC HG Hct Hpa Hs.
  destruct (chained_allocate isz pw classes garbage parent size ct Hi Hp Hct Hpa Hs HC HG)
    as [(c & pre & val & rest & Hin & Hfit & A & WF & L)|[Hno A]].
  - split; [intros _; eauto|]. intros C. specialize (C _ Hin). lia.
  - split; [|intros _; assumption]. intros (c & Hin & Hle). specialize (Hno _ Hin). lia.
Qed.

(** The checked key getter, on arbitrary memory: either the empty key, or a key that lies, with its
    header, within the given number of bytes. *)
Theorem C13_checked_key :
  forall m o allocSize d n,
  getKeyChecked m o allocSize = Some (d, n) ->
  (d, n) = (0%nat, 0) \/ ((o < d)%nat /\ N.of_nat (d - o) + n <= allocSize /\ getKeySize m o = Some n /\ getDataOff m o = Some d).
Proof.
  intros m o al d n. unfold getKeyChecked.
  destruct (isSmallKey m o) as [s|] eqn:ES; [|discriminate].
  destruct (getKeySize m o) as [k|] eqn:EK; [|discriminate].
  destruct (_ || _) eqn:EO; [intros E; inversion E; left; reflexivity|].
  destruct (getDataOff m o) as [d'|] eqn:ED; [|discriminate]. intros E; inversion E; subst d' k. right.
  apply orb_false_iff in EO. destruct EO as [E1 E2]. apply N.ltb_ge in E1, E2.
  unfold getDataOff in ED. rewrite ES in ED. inversion ED. destruct s.
  - split; [lia|]. split; [|auto]. replace (o + 4 - o)%nat with 4%nat by lia. change (N.of_nat 4) with 4. lia.
  - split; [lia|]. split; [|auto]. replace (o + 8 - o)%nat with 8%nat by lia. change (N.of_nat 8) with 8. lia.
Qed.

(** Sampling a possibly unallocated slot: the key it may look up ends at most 4
    bytes behind the allocation ... *)
Theorem C13_sampled_key_bound :
  forall isz m allocSize d n,
  (12 <= isz < 256)%nat -> allocSize < 2 ^ 32 -> n < 2 ^ 24 ->
  sampleKey isz m allocSize = Some (Some (d, n)) ->
  N.of_nat d + n <= allocSize + 4 /\
  ((255 < n \/ isSmallKey m (offAlloc isz) = Some true) -> N.of_nat d + n <= allocSize).
Proof.
  intros isz m al d n Hi Ha Hn. unfold sampleKey, getKeyChecked.
  destruct (isSmallKey m (offAlloc isz)) as [s|] eqn:ES; [|discriminate].
  destruct (getKeySize m (offAlloc isz)) as [k|] eqn:EK; [|discriminate].
  destruct (_ || _); [intros E; inversion E|].
  destruct (getDataOff m (offAlloc isz)) as [d'|] eqn:ED; [|discriminate].
  destruct (N.eqb_spec k 0); [discriminate|].
  destruct (N.ltb_spec al (getRequiredSize isz k 0)); [discriminate|].
  intros E; inversion E; subst d' k. clear E.
  assert (Hd : d = if s then isz else (isz + 4)%nat).
  { unfold getDataOff in ED. rewrite ES in ED. inversion ED. unfold offAlloc. destruct s; lia. }
  assert (Hr : n + N.of_nat isz + (if 255 <? n then 4 else 0) <= al \/
               2 ^ 32 - 1 < n + N.of_nat isz + (if 255 <? n then 4 else 0)).
  { revert H. rewrite <- (N2Nat.id n) at 1. rewrite required_spec. unfold bytesNeeded, two32.
    rewrite N2Nat.id, N.add_0_r. rewrite pow32 in *.
    rewrite (N.add_comm (N.of_nat isz) n).
    destruct (N.ltb_spec (4294967296 - 1) (n + N.of_nat isz + (if 255 <? n then 4 else 0))).
    - intros _. right. assumption.
    - intros H1. left. assumption. }
  rewrite pow32 in *. rewrite pow24 in *.
  assert (Hx : (if 255 <? n then 4 else 0) <= 4) by (destruct (255 <? n); lia).
  destruct Hr as [Hr|Hr]; [|lia].
  split.
  - subst d. destruct s; lia.
  - intros [Hl|Hs].
    + destruct (N.ltb_spec 255 n); [|lia]. subst d. destruct s; lia.
    + inversion Hs; subst s. subst d. lia.
Qed.

(** ... and can indeed end behind it: a slot whose packed size reads "large
    key" while the stored length is at most 255 passes the size test, which
    adds no 4 bytes for such a length (CacheAllocator.h:1703, KAllocation.h:68). *)
Theorem C13_sampled_key_in_allocation_refuted :
  exists isz m allocSize d n,
    (12 <= isz)%nat /\ length m = N.to_nat allocSize /\
    sampleKey isz m allocSize = Some (Some (d, n)) /\
    allocSize < N.of_nat d + n.
Proof.
  exists 32%nat, (repeat 0 28 ++ [0; 0; 0; 0] ++ [32; 0; 0; 0] ++ repeat 7 28), 64, 36%nat, 32.
  repeat split.
  - lia.
Qed.

(** Non-vacuity: a 300-byte key (large encoding) and a 5-byte key. *)
Example C13_nonvacuous_large :
  exists m0 m, allocateItem 32 [64; 512] true (fun c => repeat 9 (N.to_nat c)) (repeat 7 300) 4 1000 2000
      = Some (Ok m0) /\
    irun 32 m0 [UWrite 1 [1; 2]; USetExpiry true 2500; USetExpiry false 1] = Some m /\
    itemKey 32 m = Some (repeat 7 300) /\ itemValue 32 m = Some [9; 1; 2; 9] /\
    itemExpiry 32 m = Some 2500 /\ itemConfiguredTTL 32 m = Some 1500.
Proof. eexists. eexists. split; [reflexivity|]. split; [reflexivity|]. now vm_compute. Qed.
Example C13_nonvacuous_reject :
  allocateItem 32 [64; 512] false (fun c => repeat 9 (N.to_nat c)) (repeat 7 300) 4 1000 2000 = Some Threw /\
  allocateItem 32 [64; 512] true (fun c => repeat 9 (N.to_nat c)) [] 4 1000 2000 = Some Threw /\
  allocateItem 32 [64; 512] true (fun c => repeat 9 (N.to_nat c)) [1] 480 1000 2000 = Some Threw.
Proof. now vm_compute. Qed.
Example C13_nonvacuous_chained :
  exists m0 m, allocateChained 32 4 [64; 128] (fun c => repeat 9 (N.to_nat c)) 77 5 1000 = Some (Ok m0) /\
    cirun 32 4 m0 [CWrite 2 [1; 2; 3]; CSetNext 88; CSetParent 99] = Some m /\
    chainedParent 32 4 m = Some 99 /\ chainedNext 32 4 m = Some 88 /\
    chainedValue 32 4 m = Some [9; 9; 1; 2; 3].
Proof. eexists. eexists. split; [reflexivity|]. split; [reflexivity|]. now vm_compute. Qed.

Print Assumptions C13_item_is_its_fields.
Print Assumptions C13_accepted_iff.
Print Assumptions C13_disjoint_and_in_bounds.
Print Assumptions C13_chained_item_is_its_fields.
Print Assumptions C13_chained_accepted_iff.
Print Assumptions C13_sampled_key_bound.
Print Assumptions C13_checked_key.
Print Assumptions C13_sampled_key_in_allocation_refuted.
