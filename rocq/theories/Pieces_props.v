(** C40: theorems on piecewise splitting. *)
From Verif Require Import Bytes Pieces_model Pieces_spec Pieces_proofs Pieces_proofs2.
From Coq Require Import Ascii String.
Local Open Scope N_scope.
Local Open Scope list_scope.

(** A request whose first byte lies in the body and which is not reversed: the object is built,
    the first byte wanted lies in the first piece, the last byte wanted in the last piece, and
    fetching starts at the first piece. *)
Theorem C40_range_covered : forall (ps ppg len : N) (r : option RequestRange),
  0 < ps -> 0 < len -> len + ps <= two64 ->
  wantFirst r < len -> wantFirst r <= wantLast len r ->
  exists p, construct ps ppg len r = Some p /\
    pieceOff ps (startPiece p) <= wantFirst r < pieceOff ps (startPiece p) + getSizeOfAPiece p (startPiece p) /\
    pieceOff ps (endPiece p) <= wantLast len r < pieceOff ps (endPiece p) + getSizeOfAPiece p (endPiece p) /\
    curFetching p = startPiece p.
Proof.
  intros ps ppg len r A B C D E. destruct (construct_covers ps ppg len A B C r D E) as (p & F & _ & G).
  exists p. split; [exact F|exact G].
Qed.
Print Assumptions C40_range_covered.

(** Objects reachable by the constructor and later [resetFromRequestRange] calls. *)
Inductive reach (ps ppg len : N) : pieces -> Prop :=
| reach_new r p : construct ps ppg len r = Some p -> reach ps ppg len p
| reach_reset p r p' : reach ps ppg len p -> resetFromRequestRange p r = Some p' -> reach ps ppg len p'
| reach_next p : reach ps ppg len p -> reach ps ppg len (updateFetchIndex p)
| reach_set p i : reach ps ppg len p -> reach ps ppg len (setFetchIndex p i).
Lemma reach_good ps ppg len p : 0 < ps -> 0 < len -> len + ps <= two64 -> reach ps ppg len p -> good ps len p.
Proof.
  intros A B C R. induction R as [r p E|p r p' R IH E|p R IH|p i R IH].
  - exact (construct_good ps ppg len A B C r p E).
  - exact (reset_good ps len A B C p r p' IH E).
  - exact IH.
  - exact IH.
Qed.

(** In every reachable object: the pieces to fetch are non-empty, lie in the body, have the size
    reported, and tile exactly the reported span: each byte of the span is in exactly one piece
    and nothing else is. *)
Theorem C40_pieces_tile : forall (ps ppg len : N) (p : pieces),
  0 < ps -> 0 < len -> len + ps <= two64 -> reach ps ppg len p ->
  (forall i, startPiece p <= i <= endPiece p ->
     getSizeOfAPiece p i = pieceLen ps len i /\ 0 < getSizeOfAPiece p i /\
     pieceOff ps i + getSizeOfAPiece p i <= len) /\
  (forall b, getFirstByteOffsetToFetch p <= b <= getLastByteOffsetOfLastPiece p <->
     exists i, (startPiece p <= i <= endPiece p) /\ pieceOff ps i <= b < pieceOff ps i + getSizeOfAPiece p i) /\
  (forall b i j, startPiece p <= i <= endPiece p -> startPiece p <= j <= endPiece p ->
     pieceOff ps i <= b < pieceOff ps i + getSizeOfAPiece p i ->
     pieceOff ps j <= b < pieceOff ps j + getSizeOfAPiece p j -> i = j).
Proof.
  intros ps ppg len p A B C R. pose proof (reach_good _ _ _ _ A B C R) as G.
  split; [|split].
  - intros i I. rewrite (size_ok ps len A B C p G i I). split; [reflexivity|].
    destruct G as (G1 & G2 & G3 & G4). destruct (pieceLen_pos ps len A B C i ltac:(lia)) as (X & Y & _). split; [exact X|exact Y].
  - intros b. apply (tile ps len A B C p G).
  - intros b i j. apply (tile_unique ps len A B C p G).
Qed.
Print Assumptions C40_pieces_tile.

(** The sizes reported are the sums of the piece sizes; the number of target pieces is right. *)
Theorem C40_totals : forall (ps ppg len : N) (p : pieces),
  0 < ps -> 0 < len -> len + ps <= two64 -> reach ps ppg len p ->
  getTargetNumPieces p = endPiece p - startPiece p + 1 /\
  getTotalSize p = sumLen ps len (startPiece p) (N.to_nat (getTargetNumPieces p)) /\
  getTotalSize p = getLastByteOffsetOfLastPiece p - getFirstByteOffsetToFetch p + 1 /\
  getRemainingBytes p = (if endPiece p <? curFetching p then 0
                         else sumLen ps len (curFetching p) (N.to_nat (endPiece p - curFetching p + 1))).
Proof.
  intros ps ppg len p A B C R. pose proof (reach_good _ _ _ _ A B C R) as G.
  pose proof (target_ok ps len A B C p G) as T. split; [exact T|]. rewrite T.
  pose proof (total_size_ok ps len A B C p G) as S. split; [exact S|]. split.
  - rewrite S. pose proof (first_ok ps len A B C p G) as F. pose proof (lastByte ps len A B C p G) as L. rewrite F, L.
    pose proof G as (G1 & G2 & G3 & G4).
    replace (N.to_nat (endPiece p - startPiece p + 1)) with (Datatypes.S (N.to_nat (endPiece p - startPiece p))) by lia. rewrite (sum_ok ps len A B C) by lia.
    replace (startPiece p + N.of_nat (N.to_nat (endPiece p - startPiece p))) with (endPiece p) by lia.
    destruct (pieceLen_pos ps len A B C _ G4) as (X & Y & _). unfold pieceOff. 
    assert (startPiece p * ps <= endPiece p * ps) by nia. lia.
  - destruct (N.ltb_spec (endPiece p) (curFetching p)) as [X|X].
    + unfold getRemainingBytes. destruct (N.ltb_spec (endPiece p) (curFetching p)); [reflexivity|lia].
    + apply (remaining_ok ps len A B C p G). exact X.
Qed.
Print Assumptions C40_totals.

(** An over-long end is cut at the body; a reversed range is ignored (the whole body). *)
Theorem C40_reversed_range_ignored : forall s e, e < s -> mkRange (Some s) (Some e) = None.
Proof. intros s e H. unfold mkRange. destruct (N.ltb_spec e s); [reflexivity|lia]. Qed.

(** Piece keys: for one group size, different (base key, piece number, version) never share a key,
    for any base keys; header keys are distinct from piece keys and from one another. *)
Theorem C40_keys_distinct : forall ppg b1 n1 v1 b2 n2 v2,
  (createPieceKey b1 n1 ppg v1 = createPieceKey b2 n2 ppg v2 -> b1 = b2 /\ n1 = n2 /\ v1 = v2) /\
  createPieceHeaderKey b1 v1 <> createPieceKey b2 n2 ppg v2 /\
  (createPieceHeaderKey b1 v1 = createPieceHeaderKey b2 v2 -> b1 = b2 /\ v1 = v2).
Proof. intros. split; [apply pieceKey_inj|]. split; [apply header_ne_piece|apply header_inj]. Qed.
Print Assumptions C40_keys_distinct.

(** Escaping doubles exactly the (leftmost, non-overlapping) separators, and no two keys
    escape to the same string. *)
Theorem C40_escape : forall k1 k2,
  escapeCacheKey k1 = doubled k1 /\ (escapeCacheKey k1 = escapeCacheKey k2 -> k1 = k2).
Proof. intros. rewrite !escape_doubled. split; [reflexivity|apply doubled_inj]. Qed.
Print Assumptions C40_escape.

(** The fetch loop of a freshly built object visits each of its pieces once, in order, and
    ends after the last one. *)
Theorem C40_fetch_loop : forall (ps ppg len : N) (p : pieces) (fuel : nat),
  0 < ps -> 0 < len -> len + ps <= two64 -> reach ps ppg len p -> curFetching p = startPiece p ->
  (N.to_nat (getTargetNumPieces p) <= fuel)%nat ->
  visited fuel p = map (fun k => startPiece p + N.of_nat k) (seq 0 (N.to_nat (getTargetNumPieces p))) /\
  (forall k, getNumFetchedPieces (setFetchIndex p (startPiece p + N.of_nat k)) = N.of_nat k \/
             two64 <= startPiece p + N.of_nat k).
Proof.
  intros ps ppg len p fuel A B C R E F. pose proof (reach_good _ _ _ _ A B C R) as G.
  rewrite (target_ok ps len A B C p G) in *.
  pose proof G as (G1 & G2 & G3 & G4).
  assert (Z : endPiece p < two64) by nia.
  split.
  - rewrite (visited_ok p); [|exact Z|lia|lia].
    rewrite E. replace (S (N.to_nat (endPiece p - startPiece p))) with (N.to_nat (endPiece p - startPiece p + 1)) by lia. reflexivity.
  - intros k. destruct (N.le_gt_cases two64 (startPiece p + N.of_nat k)) as [X|X]; [right; exact X|left].
    unfold getNumFetchedPieces, sub64, wrap64. cbn [setFetchIndex withCur curFetching startPiece].
    change (2^64) with two64. rewrite (N.mod_small (startPiece p) two64) by lia.
    replace (startPiece p + N.of_nat k + two64 - startPiece p) with (N.of_nat k + 1 * two64) by lia.
    rewrite N.mod_add by (vm_compute; discriminate). apply N.mod_small. lia.
Qed.
Print Assumptions C40_fetch_loop.

(** The base key is recovered from every piece or header key if it has no '|'. *)
Theorem C40_base_key : forall b n ppg v, ~ In "|"%char b ->
  getBaseKey (createPieceKey b n ppg v) = b /\ getBaseKey (createPieceHeaderKey b v) = b.
Proof. intros. split; [apply base_of_piece|apply base_of_header]; assumption. Qed.
Print Assumptions C40_base_key.

(** ... but not in general, even with the documented escaping. *)
Theorem C40_base_key_refuted :
  ~ (forall k n ppg v, getBaseKey (createPieceKey (escapeCacheKey k) n ppg v) = escapeCacheKey k).
Proof. intros H. specialize (H (lit "a|#|b") 0 0 0). vm_compute in H. discriminate. Qed.
Print Assumptions C40_base_key_refuted.

(** A range that starts in a piece past the body aborts the process. *)
Theorem C40_start_past_body_refuted :
  ~ (forall ps ppg len r, 0 < ps -> 0 < len -> len + ps <= two64 -> construct ps ppg len r <> None).
Proof. intros H. apply (H 8 0 10 (Some (mkRange (Some 16) None))); [lia|lia|vm_compute; discriminate|reflexivity]. Qed.
Print Assumptions C40_start_past_body_refuted.

(** [resetFromRequestRange] with a range open at the end does not reach the end of the body if an
    earlier range was shorter: the object's last piece is a stale one. *)
Theorem C40_reset_stale_end_refuted :
  ~ (forall ps ppg len r1 p a p', 0 < ps -> 0 < len -> len + ps <= two64 ->
     construct ps ppg len (Some r1) = Some p -> resetFromRequestRange p (mkRange (Some a) None) = Some p' ->
     getLastByteOffsetOfLastPiece p' = len - 1).
Proof.
  intros H. specialize (H 8 0 100 (mkRange (Some 0) (Some 3))). 
  specialize (H _ 0 _ ltac:(lia) ltac:(lia) ltac:(vm_compute; discriminate) eq_refl eq_refl).
  vm_compute in H. discriminate.
Qed.
Print Assumptions C40_reset_stale_end_refuted.

(** The bound on the sizes is needed: with len + pieceSize > 2^64 the reported end wraps. *)
Theorem C40_huge_wraps_refuted :
  ~ (forall ps ppg len p, 0 < ps -> 0 < len < two64 -> ps < two64 -> construct ps ppg len None = Some p ->
     getLastByteOffsetOfLastPiece p = len - 1).
Proof.
  intros H. specialize (H 9223372036854775809 0 9223372036854775810 _ ltac:(lia)
    ltac:(split; vm_compute; reflexivity) ltac:(vm_compute; reflexivity) eq_refl). vm_compute in H. discriminate.
Qed.
Print Assumptions C40_huge_wraps_refuted.

(** Non-vacuity: 1000 bytes in pieces of 256, bytes 300..700 wanted: pieces 1 and 2. *)
Example C40_example : exists p, construct 256 4 1000 (Some (mkRange (Some 300) (Some 700))) = Some p /\
  startPiece p = 1 /\ endPiece p = 2 /\ getTotalSize p = 512 /\ getSizeOfAPiece p 2 = 256.
Proof. eexists. split; [vm_compute; reflexivity|]. vm_compute. auto. Qed.
Example C40_example_last : exists p, construct 256 4 1000 (Some (mkRange (Some 300) (Some 5000))) = Some p /\
  endPiece p = 3 /\ getSizeOfAPiece p 3 = 232 /\ getRemainingBytes (updateFetchIndex p) = 488.
Proof. eexists. split; [vm_compute; reflexivity|]. vm_compute. auto. Qed.
Example C40_example_key : createPieceKey (lit "k") 9 4 7 = lit "k|@|2|#|body-7-9".
Proof. reflexivity. Qed.
