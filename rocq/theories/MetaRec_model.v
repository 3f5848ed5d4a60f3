(** Model of the record stream that carries the flash engines' state on the device
    (/repo/cachelib/navy/serialization/RecordIO.cpp:65-275, DeviceMetaDataWriter and
    DeviceMetaDataReader; Driver.cpp:264-302).

    The device is the byte list [dev]; [M] is metadataSize_, [B] is blockSize_.
    A device write is decided by an oracle: [None] is success, [Some g] a failure
    that leaves the bytes [g] behind.  folly's recordio_helpers (not part of /repo) are
    modelled from their documented format: a 28-byte header (magic, version, hash
    function, flags, file id, data length, data hash, header hash), hash functions
    as parameters.  Not modelled: the 'int' type of dataOffset (:109, records of 2 GiB
    and more), encryption of the blocks, IOBuf chains. *)
From Coq Require Import List Arith NArith Lia Bool.
Import ListNotations.
From Verif Require Import Bytes.

Definition zeros (n : nat) : list byte := repeat 0%N n.

Section Rec.
(** SpookyHashV2 over the data (64 bits) and over the header (32 bits). *)
Variable dh : list byte -> N.
Variable hh : list byte -> N.
Variable B : nat.
Variable M : nat.

(** recordio_detail::Header, kMetadataHeaderFileId = 1 (:26). *)
Definition hsize : nat := 28.
Definition hmagic : list byte := le_enc 4 3938653089%N.   (* 0xeac313a1 *)
Definition hdr0 (d : list byte) : list byte :=
  hmagic ++ [0%N; 0%N; 0%N; 0%N] ++ le_enc 4 1%N ++ le_enc 4 (N.of_nat (length d)) ++
  le_enc 8 (dh d).
Definition hdr (d : list byte) : list byte := hdr0 d ++ le_enc 4 (hh (hdr0 d)).

(** prependHeader: the bytes handed to the writer. *)
Definition enc (d : list byte) : list byte := hdr d ++ d.

(** validateRecordHeader(range, 1). *)
Definition validHeader (r : list byte) : bool :=
  (hsize <=? length r) && bytes_eqb (slice r 0 4) hmagic &&
  bytes_eqb (slice r 4 4) [0%N; 0%N; 0%N; 0%N] &&
  bytes_eqb (slice r 8 4) (le_enc 4 1%N) &&
  bytes_eqb (slice r 24 4) (le_enc 4 (hh (slice r 0 24))).

(** header->dataLength *)
Definition hlen (r : list byte) : nat := N.to_nat (le_dec (slice r 12 4)).

(** validateRecordData: [r] is the whole record; the file id was checked before. *)
Definition validData (r : list byte) : bool :=
  (hsize <? length r) && (hlen r <=? length r - hsize) &&
  bytes_eqb (slice r 16 8) (le_enc 8 (dh (slice r hsize (hlen r)))).

(** ** Writer *)
Record wst := mkW {
  wdev : list byte;
  woff : nat;             (* offset_ *)
  widx : nat;             (* bufIndex_ *)
  wbuf : list byte;       (* buffer_ *)
  wlog : list (nat * bool)  (* ghost: the writes so far, latest first *)
}.

Variable orc : nat -> option (list byte).

(** Device::write of one block; the [n]th write consults the oracle. *)
Definition devWrite (st : wst) (off : nat) (bs : list byte) : bool * wst :=
  let put new := if off + length new <=? length (wdev st)
                 then (true, splice (wdev st) off new) else (false, wdev st) in
  let r := match orc (length (wlog st)) with
           | None => put bs
           | Some g => (false, snd (put (firstn (length bs) g)))
           end in
  (fst r, mkW (snd r) (woff st) (widx st) (wbuf st) ((off, fst r) :: wlog st)).

(** flushBuffer (:112-126); [false]: it threw. *)
Definition flush (st : wst) : bool * wst :=
  let buf := splice (wbuf st) (widx st) (zeros (B - widx st)) in
  let (ok, st1) := devWrite st (woff st) buf in
  if ok then (true, mkW (wdev st1) (woff st + B) 0 buf (wlog st1))
  else (false, mkW (wdev st1) (woff st) (widx st) buf (wlog st1)).

(** The loop of writeRecord (:128-150); [data] are the bytes left. *)
Fixpoint wloop (fuel : nat) (st : wst) (data : list byte) : bool * wst :=
  match fuel with
  | O => (false, st)
  | S fuel' =>
      let (ok, st1) := if B <? widx st + hsize then flush st else (true, st) in
      if negb ok then (false, st1)
      else if M <? woff st1 + widx st1 + length data then
        (false, if widx st1 =? 0 then st1 else snd (flush st1))
      else
        let cp := Nat.min (B - widx st1) (length data) in
        let st2 := mkW (wdev st1) (woff st1) (widx st1 + cp)
                       (splice (wbuf st1) (widx st1) (firstn cp data)) (wlog st1) in
        if length data - cp =? 0 then (true, st2)
        else wloop fuel' st2 (skipn cp data)
  end.

(** writeRecord (:99-151); prependHeader ignores empty records and throws for
    records that do not fit 32 bits. *)
Definition writeRecord (st : wst) (d : list byte) : bool * wst :=
  match d with
  | [] => (true, st)
  | _ => if (two32 <=? N.of_nat (length d))%N then (false, st)
         else wloop (S (length (enc d))) st (enc d)
  end.

(** ~DeviceMetaDataWriter (:73-97): results of the writes are not looked at. *)
Definition destroy (st : wst) : wst :=
  let st1 :=
    if 0 <? widx st then
      if woff st + B <? M then
        let buf := firstn (widx st) (wbuf st) ++ zeros (B - widx st) in
        let s := snd (devWrite st (woff st) buf) in
        mkW (wdev s) (woff st + B) (widx st) (wbuf st) (wlog s)
      else st
    else st in
  if woff st1 + B <=? M then snd (devWrite st1 (woff st1) (zeros B)) else st1.

Definition winit (dev : list byte) : wst := mkW dev 0 0 (zeros B) [].

Fixpoint writeAll (st : wst) (rs : list (list byte)) : bool * wst :=
  match rs with
  | [] => (true, st)
  | d :: r => let (ok, st1) := writeRecord st d in
              if ok then writeAll st1 r else (false, st1)
  end.

(** Driver::persist (Driver.cpp:264-271): the engines write their records, the
    writer is destroyed (also when an exception passes). *)
Definition persist (dev : list byte) (rs : list (list byte)) : bool * wst :=
  let (ok, st) := writeAll (winit dev) rs in (ok, destroy st).

(** invalidate (:153-157) *)
Definition invalidate (dev : list byte) : bool * list byte :=
  let (ok, st) := devWrite (winit dev) 0 (zeros B) in (ok, wdev st).

(** ** Reader *)
Record rst := mkR { roff : nat; ridx : nat; rbuf : list byte }.

Variable dev : list byte.
(** A read of the block at this offset fails. *)
Variable rfail : nat -> bool.

(** Next block if fewer bytes are left than a header takes (:192-205);
    [None]: an exception. *)
Definition rnext (st : rst) : option rst :=
  if B <? ridx st + hsize then
    if M <? roff st + B then None
    else if rfail (roff st) then None
    else Some (mkR (roff st + B) 0 (slice dev (roff st) B))
  else Some st.

(** The copying part of the loop (:230-236). *)
Fixpoint rcopy (fuel : nat) (st : rst) (size : nat) (acc : list byte)
  : option (list byte * rst) :=
  match fuel with
  | O => None
  | S fuel' =>
      let cp := Nat.min (B - ridx st) size in
      let acc' := acc ++ slice (rbuf st) (ridx st) cp in
      let st' := mkR (roff st) (ridx st + cp) (rbuf st) in
      if size - cp =? 0 then Some (acc', st')
      else match rnext st' with
           | None => None
           | Some st2 => rcopy fuel' st2 (size - cp) acc'
           end
  end.

(** readRecord (:180-248); [None]: an exception. *)
Definition readRecord (st : rst) : option (list byte * rst) :=
  match rnext st with
  | None => None
  | Some st1 =>
      let h := slice (rbuf st1) (ridx st1) (B - ridx st1) in
      if validHeader h then
        let size := hsize + hlen h in
        match rcopy (S size) st1 size [] with
        | None => None
        | Some (r, st2) => if validData r then Some (skipn hsize r, st2) else None
        end
      else None
  end.

(** isEnd (:250-264): looks at the next block. *)
Definition isEnd (st : rst) : bool :=
  if M <? roff st + B then true
  else if rfail (roff st) then true
  else negb (validHeader (slice dev (roff st) B)).

Definition rinit : rst := mkR 0 B (zeros B).

(** Read [n] records one after the other. *)
Fixpoint readN (n : nat) (st : rst) : option (list (list byte) * rst) :=
  match n with
  | O => Some ([], st)
  | S n' => match readRecord st with
            | None => None
            | Some (d, st1) =>
                match readN n' st1 with
                | None => None
                | Some (l, st2) => Some (d :: l, st2)
                end
            end
  end.
End Rec.

(** blockSize_ (:70-71, kBlockSizeDefault :162) *)
Definition blockSize (align : nat) : nat := Nat.max align (N.to_nat 4096).
