(** C48: a cache saved to a stream is restored as it was, or not at all. *)
From Coq Require Import List Arith ZArith Bool Lia.
Import ListNotations.
From Verif Require Import PersistMgr_model PersistMgr_spec PersistMgr_proofs1 PersistMgr_proofs2 PersistMgr_proofs3 PersistMgr_proofs4.
Open Scope Z_scope.

(** The round trip: the segments, the navy files and the NvmCacheState file are those that were saved; nothing of the stream
    behind the cache is consumed. *)
Theorem C48_round_trip : forall L old c, goodLib L -> goodCache L c -> below4G L c ->
  exists s, save L c = Some s /\ forall x, restore L old (length (navy c)) (s ++ x) = ROk (same L old c) x.
Proof. exact round_trip. Qed.

(** Damaged data: if for some block the checksum of the bytes that come back is another, restoring fails; if for none it
    is, the segments hold the bytes that came back. *)
Theorem C48_damage_is_found : forall L m old c s, goodLib L -> goodCache L c -> below4G L c -> keepsLength m -> saveVia L m c = Some s ->
  (damaged L m c -> restore L old (length (navy c)) s = RFail) /\
  (~ damaged L m c -> restore L old (length (navy c)) s = ROk (arrived L m old c) []).
Proof. exact corruption. Qed.

(** A stream that ends early is never accepted; it is an exception unless it has 1 to 8 bytes. *)
Theorem C48_truncated_fails : forall L m old c s p e, goodLib L -> goodCache L c -> below4G L c -> keepsLength m -> saveVia L m c = Some s ->
  s = p ++ e -> e <> [] ->
  restore L old (length (navy c)) p = RFail \/ (restore L old (length (navy c)) p = RUB /\ (1 <= length p < 9)%nat).
Proof. exact truncated. Qed.

(** False: a truncated stream is an exception.  With 1 to 8 bytes the length of the headers is read from bytes that are
    not there. *)
Theorem C48_truncated_exception_refuted : forall L c s p e old nf, save L c = Some s -> s = p ++ e -> (1 <= length p < 9)%nat ->
  restore L old nf p = RUB.
Proof. exact truncated_ub. Qed.

(** False: the round trip for any size of the navy files.  With a multiple of 4 GiB no block of them is read back, and
    a byte of a checksum is taken for a mark: restoring fails, or, one in 256, succeeds with empty navy files. *)
Theorem C48_large_navy_refuted : forall L old c s f fs, goodLib L -> goodCache L c -> 0 < navySize c -> navySize c mod 2 ^ 32 = 0 ->
  navy c = f :: fs -> save L c = Some s ->
  (crc L (chunk L 0 f) mod 256 <> 30 -> crc L (chunk L 0 f) mod 256 <> 31 -> restore L old (length (navy c)) s = RFail) /\
  (crc L (chunk L 0 f) mod 256 = 31 -> exists left, left <> [] /\
     restore L old (length (navy c)) s =
     ROk (mkR (rNvm (same L old c)) (rSegs (same L old c)) (Some (repeat [] (length (navy c))))) left).
Proof. exact big_navy. Qed.
Theorem C48_large_navy_lost_refuted : forall old, exists s, save (exL 4) (exBig 31) = Some s /\ exists r left, left <> [] /\
  restore (exL 4) old 2 s = ROk r left /\ rNavy r = Some [[]; []].
Proof. exact big_lost. Qed.
Theorem C48_large_navy_fails_refuted : forall old, exists s, save (exL 4) (exBig 1) = Some s /\ restore (exL 4) old 2 s = RFail.
Proof. exact big_fails. Qed.

(** False: the host that restores has the NvmCacheState that was saved.  If that was empty, a file already there stays. *)
Theorem C48_empty_state_refuted : forall L old c, goodLib L -> goodCache L c -> below4G L c -> nvmState c = [] -> exists s r,
  save L c = Some s /\ restore L old (length (navy c)) s = ROk r [] /\ rNvm r = old.
Proof. exact empty_state. Qed.

(** False: a changed byte is found.  The mark between two sections is not covered by a checksum: one byte changed, and
    restoring returns with most of the cache missing. *)
Theorem C48_early_end_refuted : exists s r left, save (exL 2) exC = Some s /\ nth 72 s 0 = 30 /\
  restore (exL 2) None 2 (setAt 72 31 s) = ROk r left /\
  rSegs r = [(3%nat, info exC)] /\ rNavy r = None /\ left <> [].
Proof. exact early_end. Qed.
(** The length of a block is used before anything is checked: one byte changed, and the checksum is computed of bytes
    outside the block. *)
Theorem C48_block_length_refuted : exists s, save (exL 2) exC = Some s /\ nth 127 s 0 = 0 /\ restore (exL 2) None 2 (setAt 127 1 s) = RUB.
Proof. exact long_block. Qed.
(** The checksum does not say which block it is: two blocks exchanged are accepted. *)
Theorem C48_swapped_refuted : exists s r, save (exL 2) exC = Some s /\ restore (exL 2) None 2 (swap 122 132 10 s) = ROk r [] /\
  In (6%nat, [3; 4; 1; 2; 5]) (rSegs r) /\ data exC = [1; 2; 3; 4; 5].
Proof. exact swapped. Qed.

(** ** The hypotheses hold for something *)
Example C48_lib : goodLib (exL 2) /\ goodLib (exL 4).
Proof. split; apply exL_good; cbn; lia. Qed.
Example C48_cache : goodCache (exL 2) exC /\ below4G (exL 2) exC.
Proof. exact exC_good. Qed.
Example C48_large_cache : forall k, goodCache (exL 4) (exBig k) /\ 0 < navySize (exBig k) /\ navySize (exBig k) mod 2 ^ 32 = 0.
Proof. intros. split; [apply exBig_good|split; reflexivity]. Qed.
(** a storage that returns 0 for the first byte of the first block of section 6 *)
Definition exM : medium := fun t j d => match t, j, d with 6%nat, 0%nat, _ :: d => 0 :: d | _, _, _ => d end.
Example C48_damage : keepsLength exM /\ damaged (exL 2) exM exC.
Proof.
  split.
  - intros t j d. unfold exM. do 7 (destruct t as [|t]; [try reflexivity; destruct j; destruct d; reflexivity|]). reflexivity.
  - left. exists 6%nat, (data exC), 0%nat. split; [cbn; tauto|]. split; [vm_compute; lia|]. vm_compute. discriminate.
Qed.
Example C48_restored : exists s, save (exL 2) exC = Some s /\ restore (exL 2) None 2 s = ROk (same (exL 2) None exC) [] /\
  rNavy (same (exL 2) None exC) = Some [[1; 2; 3]; [10; 20; 30; 40]].
Proof. eexists. split; [reflexivity|]. split; vm_compute; reflexivity. Qed.

Print Assumptions C48_round_trip.
Print Assumptions C48_damage_is_found.
Print Assumptions C48_truncated_fails.
Print Assumptions C48_truncated_exception_refuted.
Print Assumptions C48_large_navy_refuted.
Print Assumptions C48_large_navy_lost_refuted.
Print Assumptions C48_large_navy_fails_refuted.
Print Assumptions C48_empty_state_refuted.
Print Assumptions C48_early_end_refuted.
Print Assumptions C48_block_length_refuted.
Print Assumptions C48_swapped_refuted.
