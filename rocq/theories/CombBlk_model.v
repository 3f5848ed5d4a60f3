(** Model of the combined entry block (cachelib/navy/block_cache/CombinedEntryBlock.h and .cpp) in write mode: index entries of several
    buckets collected in one buffer that is then written to flash as it is.  An access outside the buffer is undefined: [None].
    Not modelled: read mode (every call answers kError, kNotFound or false there: .cpp:25-27, 84-88, 100-102, 126-130). *)
From Coq Require Import List NArith Bool Arith.
Import ListNotations.
From Verif Require Import Bytes.

(** sizeof(Header): 8 + 4 (.h:179-185); sizeof(EntryPosInfo) with its padding: 8 + 8 + 2 + 1 -> 24 (.h:129-139);
    sizeof(EntryRecord): 4 + 1, packed (Index.h:187-194). *)
Definition headerSize : N := 12.
Definition infoSize : N := 24.
Definition recordSize : N := 5.
Definition u16 (x : N) : N := (x mod 65536)%N.

Inductive status := kOk | kUpdated | kFull | kNotFound.
(** bufView_, numValidEntries_, curPos_, storedKeys_ (indices are below 2^16 as each entry takes 29 bytes), keysForBids_ (0: absent). *)
Record block := mkB { buf : list byte; valid : N; cur : N; stored : N -> option nat; bids : N -> nat }.
Definition upd {A} (f : N -> A) (k : N) (v : A) : N -> A := fun x => if (x =? k)%N then v else f x.

(** headerPtr_->numStoredEntries, .h:114 *)
Definition numStored (d : list byte) : option N := rd 4 d 8.
(** "CEBENTRY", .h:176 *)
Definition sig : list byte := [67; 69; 66; 69; 78; 84; 82; 89]%N.
(** initHeader, .h:171-174 *)
Definition initHeader (d : list byte) : option (list byte) := let* d := wr d 0 sig in wr d 8 (le_enc 4 0).
(** The constructors, .h:65-82, over a buffer with any bytes in it. *)
Definition create (d : list byte) : option block :=
  let* d' := initHeader d in Some (mkB d' 0 (N.of_nat (length d)) (fun _ => None) (fun _ => 0)).

(** entryPosInfoRef, .h:152-154: where entry [i] of the infos begins; its members. *)
Definition infoAt (i : nat) : nat := N.to_nat (headerSize + infoSize * N.of_nat i).
Definition bidAt (i : nat) : nat := infoAt i.
Definition keyAt (i : nat) : nat := infoAt i + 8.
Definition posAt (i : nat) : nat := infoAt i + 16.
Definition flagAt (i : nat) : nat := infoAt i + 18.
(** getEmptySpacePos, .h:148-150 *)
Definition emptySpacePos (n : N) : N := u16 (headerSize + infoSize * n).
(** getEntryPos, .h:142-146 *)
Definition entryPos (d : list byte) (i : nat) : option N := rd 2 d (posAt i).
(** flag.removed, the lowest bit of the flag byte *)
Definition removed (d : list byte) (i : nat) : option bool := let* f := rd 1 d (flagAt i) in Some (N.testbit f 0).
Definition setRemoved (d : list byte) (i : nat) (b : bool) : option (list byte) :=
  let* f := rd 1 d (flagAt i) in wr d (flagAt i) [if b then N.setbit f 0 else N.clearbit f 0].
(** increaseKeysForBid, decreaseKeysForBid, .h:161-169 *)
Definition incBid (m : N -> nat) (b : N) : N -> nat := upd m b (S (m b)).
Definition decBid (m : N -> nat) (b : N) : N -> nat := upd m b (m b - 1).

(** addIndexEntry, .cpp:23-80 *)
Definition add (s : block) (bid key : N) (r : list byte) : option (block * status) :=
  match stored s key with
  | Some i =>
      let* pos := entryPos (buf s) i in
      let* d := wr (buf s) (N.to_nat pos) r in
      let* gone := removed d i in
      if gone then
        let* d := setRemoved d i false in let* d := wr d (bidAt i) (le_enc 8 bid) in
        Some (mkB d (u16 (valid s + 1)) (cur s) (stored s) (incBid (bids s) bid), kOk)
      else
        let* old := rd 8 d (bidAt i) in
        if negb (old =? bid)%N then
          let* d := wr d (bidAt i) (le_enc 8 bid) in
          Some (mkB d (valid s) (cur s) (stored s) (incBid (decBid (bids s) old) bid), kUpdated)
        else Some (mkB d (valid s) (cur s) (stored s) (bids s), kUpdated)
  | None =>
      let* n := numStored (buf s) in
      let pos := u16 (cur s + 65536 - recordSize) in
      if (pos <? emptySpacePos (n + 1))%N then Some (s, kFull)
      else
        let* d := wr (buf s) (N.to_nat pos) r in
        let* d := wr d (infoAt (N.to_nat n)) (le_enc 8 bid ++ le_enc 8 key ++ le_enc 2 pos ++ repeat 0%N 6) in
        let* d := wr d 8 (le_enc 4 (n + 1)) in
        Some (mkB d (u16 (valid s + 1)) pos (upd (stored s) key (Some (N.to_nat n))) (incBid (bids s) bid), kOk)
  end.
(** getIndexEntry, .cpp:82-97; [None] inside: kNotFound. *)
Definition get (s : block) (key : N) : option (option (list byte)) :=
  match stored s key with
  | None => Some None
  | Some i => let* gone := removed (buf s) i in
              if gone then Some None
              else let* pos := entryPos (buf s) i in let* r := rd_bytes (buf s) (N.to_nat pos) (N.to_nat recordSize) in Some (Some r)
  end.
(** peekIndexEntry, .cpp:125-134 *)
Definition peek (s : block) (key : N) : option bool :=
  match stored s key with None => Some false | Some i => let* gone := removed (buf s) i in Some (negb gone) end.
(** removeIndexEntry, .cpp:99-123 *)
Definition remove (s : block) (key : N) : option (block * status) :=
  match stored s key with
  | None => Some (s, kNotFound)
  | Some i =>
      let* gone := removed (buf s) i in
      if gone then Some (s, kNotFound)
      else
        let* b := rd 8 (buf s) (bidAt i) in
        let* d := setRemoved (buf s) i true in
        Some (mkB d (u16 (valid s + 65535)) (cur s) (stored s) (decBid (bids s) b), kOk)
  end.
(** clear, .cpp:136-147 *)
Definition clear (s : block) : option block :=
  let* d := initHeader (buf s) in Some (mkB d 0 (N.of_nat (length (buf s))) (fun _ => None) (fun _ => 0)).

Inductive call := Add (bid key : N) (r : list byte) | Remove (key : N) | Clear.
Definition exec (s : block) (c : call) : option (block * status) :=
  match c with Add b k r => add s b k r | Remove k => remove s k | Clear => let* s := clear s in Some (s, kOk) end.
Fixpoint run (s : block) (cs : list call) : option (block * list status) :=
  match cs with
  | [] => Some (s, [])
  | c :: cs => let* (s, x) := exec s c in let* (s, xs) := run s cs in Some (s, x :: xs)
  end.
