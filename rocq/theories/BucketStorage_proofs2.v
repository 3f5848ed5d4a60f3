From Coq Require Import ZifyBool ZifyNat ZifyN.
From Verif Require Import Bytes BucketStorage_model BucketStorage_spec BucketStorage_client BucketStorage_proofs.

Lemma read_list_spec s l : Rep s l ->
  forall k i, i + k = length l ->
  read_list s (map (alloc_at l) (seq i k)) = Some (skipn i l).
Proof.
  intros HR. induction k as [|k IH]; intros i H.
  - cbn. now rewrite skipn_all2 by lia.
  - cbn [seq map read_list]. rewrite readAlloc_at by (assumption || lia).
    rewrite IH by lia. f_equal. symmetry. apply skipn_nth. lia.
Qed.

Lemma contents_spec s l : Rep s l -> contents s = Some l.
Proof.
  intros HR. unfold contents. rewrite (iterAll_spec s l HR).
  now rewrite (read_list_spec s l HR).
Qed.

Lemma nth_error_allocs l i :
  nth_error (map (alloc_at l) (seq 0 (length l))) i
  = if i <? length l then Some (alloc_at l i) else None.
Proof.
  destruct (Nat.ltb_spec i (length l)) as [H|H].
  - rewrite (nth_error_nth' _ (alloc_at l 0)) by (rewrite map_length, seq_length; lia).
    rewrite map_nth, seq_nth by lia. reflexivity.
  - apply nth_error_None. rewrite map_length, seq_length. lia.
Qed.

Lemma run_op_spec s l o :
  Rep s l -> sop_ok o ->
  exists s', run_op s o = Some s' /\ scap s' = scap s /\ Rep s' (sop_spec (scap s) l o).
Proof.
  intros HR Hok. destruct o as [p|i|m|i]; cbn [run_op sop_spec].
  - cbn in Hok. destruct (Nat.leb_spec (used l + 4 + length p) (scap s)) as [Hf|Hf].
    + destruct (allocate_ok s l p HR Hok Hf) as (s1 & s2 & E1 & E2 & E3 & E4).
      rewrite E1, E2. exists s2. auto.
    + rewrite (allocate_fail s l _ HR Hok Hf). exists s. auto.
  - rewrite (iterAll_spec s l HR), nth_error_allocs.
    destruct (Nat.ltb_spec i (length l)) as [H|H].
    + exists (removeOne s (alloc_at l i)). split; [reflexivity|]. now apply removeOne_spec.
    + exists s. rewrite firstn_all2, skipn_all2, app_nil_r by lia. auto.
  - rewrite (iterAll_spec s l HR). eexists. split; [reflexivity|].
    now apply (removeAll_spec s l m).
  - rewrite (iterAll_spec s l HR), nth_error_allocs.
    destruct (Nat.ltb_spec i (length l)) as [H|H].
    + eexists. split; [reflexivity|]. now apply removeUntil_spec.
    + exists s. auto.
Qed.

Lemma run_spec ops : forall s l,
  Rep s l -> Forall sop_ok ops ->
  exists s', run s ops = Some s' /\ scap s' = scap s /\
             Rep s' (fold_left (sop_spec (scap s)) ops l).
Proof.
  induction ops as [|o ops IH]; intros s l HR Hok; cbn [run fold_left].
  - exists s. auto.
  - inversion Hok as [|? ? Ho Hr]; subst.
    destruct (run_op_spec s l o HR Ho) as (s1 & E1 & C1 & R1). rewrite E1.
    destruct (IH s1 _ R1 Hr) as (s2 & E2 & C2 & R2).
    exists s2. rewrite C1 in *. auto.
Qed.

Definition disjoint_ranges (a b : allocation) : Prop :=
  aoff a + asize a <= aoff b - 4 \/ aoff b + asize b <= aoff a - 4.

Lemma allocs_disjoint l i j :
  i < j -> j < length l ->
  aoff (alloc_at l i) + asize (alloc_at l i) <= aoff (alloc_at l j) - 4.
Proof.
  intros Hij Hj. unfold alloc_at. cbn [aoff asize].
  rewrite Nat.add_sub.
  replace (used (firstn i l) + 4 + length (nth i l [])) with (used (firstn (S i) l))
    by (rewrite used_firstn_S by lia; lia).
  assert (E : firstn (S i) l = firstn (S i) (firstn j l)).
  { rewrite firstn_firstn. now replace (Nat.min (S i) j) with (S i) by lia. }
  rewrite E. apply used_firstn_le.
Qed.

Lemma storage_fifo_l : forall (mem : list byte) (ops : list sop),
  (N.of_nat (length mem) < two32)%N ->
  Forall sop_ok ops ->
  let live := fold_left (sop_spec (length mem)) ops [] in
  exists s, run (initStorage mem) ops = Some s
    /\ contents s = Some live
    /\ snum s = length live
    /\ remainingCapacity s + used live = length mem
    /\ exists al, iterAll s = Some al
         /\ (forall i j a b, i < j -> nth_error al i = Some a -> nth_error al j = Some b ->
               aoff a + asize a <= aoff b - 4 /\ aoff b + asize b <= length mem).
Proof.
  intros mem ops Hm Hok live.
  destruct (run_spec ops _ _ (init_rep mem Hm) Hok) as (s & E & C & R).
  cbn [initStorage scap] in C, R. fold live in R.
  exists s. split; [assumption|]. split; [now apply contents_spec|].
  split; [exact (rep_num _ _ R)|]. split.
  { unfold remainingCapacity. rewrite (rep_end _ _ R). pose proof (rep_fit _ _ R). lia. }
  eexists. split; [apply (iterAll_spec s live R)|].
  intros i j a b Hij Ha Hb. rewrite nth_error_allocs in Ha, Hb.
  destruct (Nat.ltb_spec j (length live)) as [Hj|]; [|discriminate].
  destruct (Nat.ltb_spec i (length live)) as [Hi|]; [|discriminate].
  inversion Ha; inversion Hb; subst. split; [now apply allocs_disjoint|].
  unfold alloc_at. cbn [aoff asize].
  replace (used (firstn j live) + 4 + length (nth j live [])) with (used (firstn (S j) live))
    by (rewrite used_firstn_S by lia; lia).
  pose proof (used_firstn_le live (S j)). pose proof (rep_fit _ _ R). lia.
Qed.

(** allocate's answer: null exactly when the slot does not fit. *)
Lemma storage_allocate_iff_l : forall (mem : list byte) (ops : list sop) s (p : list byte),
  (N.of_nat (length mem) < two32)%N -> Forall sop_ok ops ->
  run (initStorage mem) ops = Some s ->
  (N.of_nat (length p) + 4 < two32)%N ->
  exists s1 a, allocate s (length p) = Some (s1, a) /\
    (a = None <-> remainingCapacity s < 4 + length p).
Proof.
  intros mem ops s p Hm Hok E Hp.
  destruct (run_spec ops _ _ (init_rep mem Hm) Hok) as (s' & E' & C & R).
  rewrite E in E'. inversion E'; subst s'. clear E'.
  cbn [initStorage scap] in C, R.
  set (live := fold_left (sop_spec (length mem)) ops []) in *.
  unfold remainingCapacity. rewrite (rep_end _ _ R). pose proof (rep_fit _ _ R).
  destruct (Nat.leb_spec (used live + 4 + length p) (scap s)) as [Hf|Hf].
  - destruct (allocate_ok s live p R Hp Hf) as (s1 & s2 & E1 & _).
    exists s1. eexists. split; [exact E1|]. split; [discriminate|lia].
  - exists s, None. split; [now apply allocate_fail with (l := live)|]. split; [lia|reflexivity].
Qed.

(** 32-bit wrap of slotSize: a request within 4 of 2^32 is (wrongly) accepted. *)
Lemma storage_wrap_refuted_l :
  exists (s : storage) (size : nat),
    s = initStorage (repeat 0%N 8) /\
    scap s < size /\ exists s1 a, allocate s size = Some (s1, Some a) /\ asize a = size.
Proof.
  exists (initStorage (repeat 0%N 8)), (N.to_nat 4294967295).
  split; [reflexivity|]. split.
  - cbn [initStorage scap]. rewrite repeat_length. lia.
  - unfold allocate, canAllocate.
    assert (E : slotSize (N.to_nat 4294967295) = 3).
    { unfold slotSize. rewrite N2Nat.id. reflexivity. }
    rewrite E. cbn [initStorage send scap sdata snum].
    rewrite repeat_length. cbn [Nat.add Nat.leb negb].
    unfold wr. rewrite le_enc_length, repeat_length. cbn [Nat.add Nat.leb].
    eexists. eexists. split; reflexivity.
Qed.
