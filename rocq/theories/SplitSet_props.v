(** C25: theorems on the approximate split set. *)
From Coq Require Import Permutation.
From Verif Require Import Bytes SplitSet_model SplitSet_spec SplitSet_proofs.

(** After any history of inserts and resets (keys whose low 32 bits are not all zero), with no
    out-of-bounds access and no endless probing: there is a duplicate-free set [l] of tracked
    keys, a key is reported as seen exactly when it is in [l]; every tracked key was inserted
    since the last reset; numKeysTracked() is exactly the size of [l]; and it is bounded by
    numSplits * max(1, numEntries / numSplits). *)
Theorem C25_tracked_set :
  forall (n ns : N) (s0 : sset) (cs : list scall),
  (ns < two32)%N -> createS n ns = Some s0 -> Forall usable_call cs ->
  exists s bs l, runS s0 cs = Some (s, bs) /\ tracks s l /\
    incl l (map wrap32 (inserted [] cs)) /\
    numKeysTracked s = N.of_nat (length l) /\
    (numKeysTracked s <= ns * N.max 1 (n / ns))%N.
Proof.
  intros n ns s0 cs B C U. destruct (createS_ok n ns s0 B C) as (SI & AK & N0 & M0).
  destruct (runS_ok cs s0 [] SI U) as (s & bs & E & SI' & N1 & M1 & INC).
  { rewrite AK. intros z []. }
  exists s, bs, (allkeys (splits s)). split; [exact E|]. split; [apply tracks_all; auto|]. split; [exact INC|].
  destruct (count_ok s SI') as [Q1 Q2]. split; [exact Q1|]. rewrite Q1.
  eapply N.le_trans; [exact Q2|]. rewrite N1, M1, N0, M0. apply N.mul_le_mono_l.
  assert (wrap32 (n / ns) <= n / ns)%N by (apply N.mod_le; unfold two32; lia). lia.
Qed.

(** insert() in any reachable state: it returns true exactly for a tracked key and then changes
    nothing; otherwise it adds nothing but the new key; if the number of tracked keys went up,
    then the new key is found from now on and nothing was forgotten. *)
Theorem C25_insert :
  forall (n ns : N) (s0 s : sset) (cs : list scall) (bs : list bool) (l : list N) (k : N),
  (ns < two32)%N -> createS n ns = Some s0 -> Forall usable_call cs ->
  runS s0 cs = Some (s, bs) -> tracks s l -> usable k ->
  exists s' b l', insertS s k = Some (s', b) /\ tracks s' l' /\
    (b = true <-> In (wrap32 k) l) /\ (b = true -> s' = s) /\
    incl l' (wrap32 k :: l) /\
    ((numKeysTracked s < numKeysTracked s')%N -> Permutation l' (wrap32 k :: l)).
Proof.
  intros n ns s0 s cs bs l k B C U R T0 UK. destruct (createS_ok n ns s0 B C) as (SI & AK & N0 & M0).
  destruct (runS_ok cs s0 [] SI U) as (s1 & bs1 & E & SI' & N1 & M1 & INC).
  { rewrite AK. intros z []. }
  rewrite R in E. inversion E; subst s1 bs1. clear E.
  pose proof (tracks_unique s l _ T0 (tracks_all s SI')) as P.
  destruct (insertS_ok s k SI' UK) as (s' & b & E & SI2 & N2 & M2 & B1 & B2 & INC2 & _).
  exists s', b, (allkeys (splits s')). split; [exact E|]. split; [apply tracks_all; auto|].
  split; [rewrite B1; split; apply Permutation_in; [symmetry|]; exact P|]. split; [exact B2|].
  assert (INC3 : incl (allkeys (splits s')) (wrap32 k :: l)).
  { intros z Z. apply INC2 in Z as [Z|Z]; [left; auto|right]. apply (Permutation_in z (Permutation_sym P)), Z. }
  split; [exact INC3|].
  intros G. destruct (count_ok s SI') as [Q1 _]. destruct (count_ok s' SI2) as [Q2 _]. rewrite Q1, Q2 in G.
  destruct SI2 as (_ & _ & _ & _ & _ & _ & ND2). apply NoDup_Permutation_bis; auto.
  cbn [length]. rewrite (Permutation_length P). lia.
Qed.

(** While the current split has room and is below its rehash threshold, an insert forgets at
    most one key. *)
Theorem C25_insert_drops_at_most_one :
  forall (n ns : N) (s0 s s' : sset) (cs : list scall) (bs : list bool) (k : N) p x,
  (ns < two32)%N -> createS n ns = Some s0 -> Forall usable_call cs ->
  runS s0 cs = Some (s, bs) -> usable k -> insertS s k = Some (s', false) ->
  splits s = p ++ [x] -> (dsize x < maxSplit s)%N -> (dsize x < rehashSize x)%N ->
  (numKeysTracked s <= numKeysTracked s' <= numKeysTracked s + 1)%N.
Proof.
  intros n ns s0 s s' cs bs k p x B C U R UK I SP L1 L2. destruct (createS_ok n ns s0 B C) as (SI & AK & N0 & M0).
  destruct (runS_ok cs s0 [] SI U) as (s1 & bs1 & E & SI' & N1 & M1 & INC).
  { rewrite AK. intros z []. }
  rewrite R in E. inversion E; subst s1 bs1. clear E.
  destruct (insertS_ok s k SI' UK) as (s2 & b & E & SI2 & _ & _ & B1 & _ & INC2 & LEN).
  rewrite I in E. inversion E; subst s2 b.
  destruct (count_ok s SI') as [-> _]. destruct (count_ok s' SI2) as [-> _].
  specialize (LEN eq_refl p x SP L1 L2). destruct SI2 as (_ & _ & _ & _ & _ & _ & ND2).
  pose proof (NoDup_incl_length ND2 INC2) as Q. cbn [length] in Q. lia.
Qed.

(** A key whose low 32 bits are zero is reported as seen although nothing was ever inserted. *)
Theorem C25_zero_key_refuted :
  exists s0 s', createS 100 2 = Some s0 /\ insertS s0 0%N = Some (s', true).
Proof. do 2 eexists. split; [vm_compute; reflexivity|vm_compute; reflexivity]. Qed.

(** Two keys that differ only above bit 31 are the same to the set. *)
Theorem C25_truncation_refuted :
  exists s0 s bs, createS 100 2 = Some s0 /\
    runS s0 [SInsert 5%N; SInsert 4294967301%N] = Some (s, bs) /\ bs = [false; true].
Proof. do 3 eexists. split; [vm_compute; reflexivity|]. split; vm_compute; reflexivity. Qed.

(** "Never more than numEntries" is false when numEntries < numSplits: each split holds one. *)
Theorem C25_bound_refuted :
  exists s0 s bs, createS 1 3 = Some s0 /\
    runS s0 [SInsert 5%N; SInsert 6%N; SInsert 7%N] = Some (s, bs) /\ numKeysTracked s = 3%N.
Proof. do 3 eexists. split; [vm_compute; reflexivity|]. split; vm_compute; reflexivity. Qed.

(** Non-vacuity: collisions in one bucket (small keys all map to bucket 0), rehash, rotation. *)
Example C25_demo :
  exists s0 s bs, createS 6 2 = Some s0 /\
    Forall usable_call (map SInsert [9; 8; 9; 7; 6; 5; 4; 9; 8]%N) /\
    runS s0 (map SInsert [9; 8; 9; 7; 6; 5; 4; 9; 8]%N) = Some (s, bs) /\
    bs = [false; false; true; false; false; false; false; true; true] /\ numKeysTracked s = 6%N.
Proof.
  do 3 eexists. split; [vm_compute; reflexivity|]. split.
  - repeat constructor; cbv; discriminate.
  - split; [vm_compute; reflexivity|]. split; vm_compute; reflexivity.
Qed.

Print Assumptions C25_tracked_set.
Print Assumptions C25_insert.
Print Assumptions C25_insert_drops_at_most_one.
Print Assumptions C25_zero_key_refuted.
Print Assumptions C25_truncation_refuted.
Print Assumptions C25_bound_refuted.
