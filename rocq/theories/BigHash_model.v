(** Model of the small-object engine: /repo/cachelib/navy/bighash/BigHash.{h,cpp}.
    Composes the modelled Bucket (Bucket_model) and BloomFilter (BloomFilter_model).

    Simplifications: one call runs at a time (each call's device access and bloom
    filter update happen under the bucket's mutex, BigHash.cpp:329,427,475; the lookup's
    find runs on a private copy); counters and latency statistics are left out; the
    bucket header is a record instead of packed bytes; the checksum function is a
    parameter.  Device errors are inputs: each device access of a call is given its
    outcome. *)
From Verif Require Import Bytes BucketStorage_model Bucket_model BloomFilter_model.

(** One bucket-sized device block: Bucket.h:126-129 checksum_, generationTime_,
    storage_ (header and bytes). *)
Record block := mkBlock { bk_sum : N; bk_gen : N; bk_st : storage }.

(** navy/common/Types.h Status. *)
Inductive status := SOk | SNotFound | SRejected | SDeviceError.

(** Outcome of one device read / write.  A failed write may leave anything in the
    block (nothing, the new bytes, a mixture). *)
Inductive rdres := RdOk | RdFail | RdCorrupt (b : block).
Inductive wrres := WrOk | WrFail (left : block).

Section BH.
Variable combineHashes : N -> N -> N.
(** Bucket.cpp:50-54 computeChecksum: over everything after the checksum field. *)
Variable csum : N -> storage -> N.
(** BigHash.h Config: bucketSize, cacheBaseOffset, numBuckets, checkExpired. *)
Variable bucketSize : N.
Variable baseOffset : N.
Variable numBuckets : N.
Variable checkExpired : option (list byte -> bool).

Record bighash := mkBHs {
  bgen : N;                    (* generationTime_ *)
  bbloom : option bf;          (* bloomFilter_ *)
  bvalid : list byte;          (* validBucketChecker_->bits_ *)
  bdev : N -> block            (* device_, by byte offset of the block *)
}.

(** BigHash.cpp:31 kBigHashValidBucketCheckerBucketsPerBit. *)
Definition bucketsPerBit : N := 100.

(** BigHash.h:348-353 ValidBucketChecker::getBytes (32-bit). *)
Definition vbcBytes : N :=
  let numBits := (wrap32 (numBuckets + bucketsPerBit - 1) / bucketsPerBit)%N in
  (wrap32 (numBits + 7) / 8)%N.

(** BigHash.h:333-338 isBucketValid. *)
Definition isBucketValid (s : bighash) (idx : N) : option bool :=
  let nb := (idx / bucketsPerBit)%N in
  let* b := bitGet (bvalid s) (N.to_nat (nb / 8)) (nb mod 8) in Some (negb b).

(** BigHash.h:340-345 disableBucket. *)
Definition disableBucket (s : bighash) (idx : N) : option bighash :=
  let nb := (idx / bucketsPerBit)%N in
  let* v := bitSet (bvalid s) (N.to_nat (nb / 8)) (nb mod 8) in
  Some {| bgen := bgen s; bbloom := bbloom s; bvalid := v; bdev := bdev s |}.

(** BigHash.h:205-207 getBucketId (cast to uint32_t). *)
Definition bucketId (k : hkey) : N := wrap32 (khash k mod numBuckets).

(** BigHash.h:209-211 getBucketOffset (64-bit). *)
Definition bucketOffset (idx : N) : N := wrap64 (baseOffset + wrap64 (bucketSize * idx)).

Definition setBloom (s : bighash) (b : option bf) : bighash :=
  {| bgen := bgen s; bbloom := b; bvalid := bvalid s; bdev := bdev s |}.

(** BigHash.cpp:520-527 bfSet. *)
Definition bfSet (s : bighash) (idx h : N) : option bighash :=
  match bbloom s with
  | None => Some s
  | Some f => let* f1 := set combineHashes f idx h in Some (setBloom s (Some f1))
  end.

(** BigHash.cpp:529-536 bfClear. *)
Definition bfClear (s : bighash) (idx : N) : option bighash :=
  match bbloom s with
  | None => Some s
  | Some f => let* f1 := clear f idx in Some (setBloom s (Some f1))
  end.

(** BigHash.cpp:538-550 bfReject. *)
Definition bfReject (s : bighash) (idx h : N) : option bool :=
  match bbloom s with
  | None => Some false
  | Some f => let* b := couldExist combineHashes f idx h in Some (negb b)
  end.

(** BigHash.cpp:552-566 bfRebuild: clear, then set each entry's hash. *)
Fixpoint bfSetAll (f : bf) (idx : N) (es : list entry) : option bf :=
  match es with
  | [] => Some f
  | e :: r => let* f1 := set combineHashes f idx (khash (ekey e)) in bfSetAll f1 idx r
  end.
Definition bfRebuild (s : bighash) (idx : N) (st : storage) : option bighash :=
  match bbloom s with
  | None => Some s
  | Some f =>
    let* f1 := clear f idx in
    let* es := entries st in
    let* f2 := bfSetAll f1 idx es in Some (setBloom s (Some f2))
  end.

(** BigHash.cpp:105-132 reset at clock value [gen]. *)
Definition resetBH (s : bighash) (gen : N) : option bighash :=
  let v := repeat 0%N (N.to_nat vbcBytes) in
  match bbloom s with
  | None => Some {| bgen := gen; bbloom := None; bvalid := v; bdev := bdev s |}
  | Some f => let* f1 := reset f in
              Some {| bgen := gen; bbloom := Some f1; bvalid := v; bdev := bdev s |}
  end.

(** BigHash.cpp:602-606: the generation matches and the checksum is right. *)
Definition goodBlock (gen : N) (b : block) : bool :=
  (bk_gen b =? gen)%N && (csum (bk_gen b) (bk_st b) =? bk_sum b)%N.

(** BigHash.cpp:573-610 readBucket: state afterwards and the bucket's storage, or
    nothing on a read error.  Bucket::initNew (Bucket.cpp:56-59) reuses the bytes. *)
Definition readBucket (s : bighash) (idx : N) (r : rdres) : option (bighash * option storage) :=
  match r with
  | RdFail => let* s1 := disableBucket s idx in Some (s1, None)
  | RdOk | RdCorrupt _ =>
    let b := match r with RdCorrupt b => b | _ => bdev s (bucketOffset idx) end in
    if goodBlock (bgen s) b then Some (s, Some (bk_st b))
    else Some (s, Some (initStorage (sdata (bk_st b))))
  end.

(** BigHash.cpp:612-622 writeBucket. *)
Definition updDev (d : N -> block) (off : N) (b : block) : N -> block :=
  fun o => if (o =? off)%N then b else d o.
Definition writeBucket (s : bighash) (idx : N) (st : storage) (w : wrres) : option (bighash * bool) :=
  let put b := {| bgen := bgen s; bbloom := bbloom s; bvalid := bvalid s;
                  bdev := updDev (bdev s) (bucketOffset idx) b |} in
  match w with
  | WrOk => Some (put {| bk_sum := csum (bgen s) st; bk_gen := bgen s; bk_st := st |}, true)
  | WrFail b => let* s1 := disableBucket (put b) idx in Some (s1, false)
  end.

(** What a call reports: status, value, destructor callbacks (in order). *)
Record result := mkRes { rstat : status; rval : option (list byte); rcbs : list (entry * devent) }.
Definition res (st : status) : result := {| rstat := st; rval := None; rcbs := [] |}.

(** BigHash.cpp:298-385 insert.  The callbacks run only after a successful write. *)
Definition insertBH (s : bighash) (k : hkey) (v : list byte) (r : rdres) (w : wrres)
  : option (bighash * result) :=
  let idx := bucketId k in
  let* ok := isBucketValid s idx in
  if negb ok then Some (s, res SRejected)
  else
    let* (s1, b) := readBucket s idx r in
    match b with
    | None => Some (s1, res SDeviceError)
    | Some st =>
      let* (st1, removed, cb1) := Bucket_model.remove st k in
      let* (st2, evicted, nexp, cb2) := Bucket_model.insert st1 {| ekey := k; eval := v |} checkExpired in
      let* s2 := (if removed + evicted =? 0 then bfSet s1 idx (khash k) else bfRebuild s1 idx st2) in
      let* (s3, wok) := writeBucket s2 idx st2 w in
      if wok then Some (s3, {| rstat := SOk; rval := None; rcbs := cb1 ++ cb2 |})
      else let* s4 := bfClear s3 idx in Some (s4, res SDeviceError)
    end.

(** BigHash.cpp:387-398 couldExist. *)
Definition couldExistBH (s : bighash) (k : hkey) : option bool :=
  let* rej := bfReject s (bucketId k) (khash k) in Some (negb rej).

(** BigHash.cpp:404-449 lookup. *)
Definition lookupBH (s : bighash) (k : hkey) (r : rdres) : option (bighash * result) :=
  let idx := bucketId k in
  let* ok := isBucketValid s idx in
  if negb ok then Some (s, res SNotFound)
  else
    let* rej := bfReject s idx (khash k) in
    if rej then Some (s, res SNotFound)
    else
      let* (s1, b) := readBucket s idx r in
      match b with
      | None => Some (s1, res SDeviceError)
      | Some st =>
        let* f := Bucket_model.find st k in
        match f with
        | None => Some (s1, res SNotFound)
        | Some v => Some (s1, {| rstat := SOk; rval := Some v; rcbs := [] |})
        end
      end.

(** BigHash.cpp:451-518 remove. *)
Definition removeBH (s : bighash) (k : hkey) (r : rdres) (w : wrres) : option (bighash * result) :=
  let idx := bucketId k in
  let* ok := isBucketValid s idx in
  if negb ok then Some (s, res SNotFound)
  else
    let* rej := bfReject s idx (khash k) in
    if rej then Some (s, res SNotFound)
    else
      let* (s1, b) := readBucket s idx r in
      match b with
      | None => Some (s1, res SDeviceError)
      | Some st =>
        let* (st1, removed, cb) := Bucket_model.remove st k in
        if removed =? 0 then Some (s1, res SNotFound)
        else
          let* s2 := bfRebuild s1 idx st1 in
          let* (s3, wok) := writeBucket s2 idx st1 w in
          if wok then Some (s3, {| rstat := SOk; rval := None; rcbs := cb |})
          else let* s4 := bfClear s3 idx in Some (s4, res SDeviceError)
      end.

(** BigHash.cpp:232-251 persist: the fields recovery uses. *)
Record bhData := mkBHD {
  pd_gen : N; pd_bucketSize : N; pd_base : N; pd_numBuckets : N;
  pd_vbBuckets : N; pd_vbPerBit : N; pd_vbBytes : list byte
}.
Definition persistBH (s : bighash) : option (bhData * option (bfHeader * list (list byte))) :=
  let pd := {| pd_gen := bgen s; pd_bucketSize := bucketSize; pd_base := baseOffset;
               pd_numBuckets := numBuckets; pd_vbBuckets := wrap32 numBuckets;
               pd_vbPerBit := bucketsPerBit; pd_vbBytes := bvalid s |} in
  match bbloom s with
  | None => Some (pd, None)
  | Some f => let* b := persist f in Some (pd, Some b)
  end.

(** BigHash.cpp:253-296 recover.  Any failure resets at clock value [gen].  The format
    version check is omitted (a constant in both directions). *)
Definition recoverBH (s : bighash) (pd : bhData) (b : option (bfHeader * list (list byte))) (gen : N)
  : option (bighash * bool) :=
  let fail := (let* s1 := resetBH s gen in Some (s1, false)) in
  if negb ((pd_bucketSize pd =? bucketSize) && (pd_base pd =? baseOffset)
           && (pd_numBuckets pd =? numBuckets))%N then fail
  else
    let vb s' :=
      if negb ((pd_vbBuckets pd =? wrap32 numBuckets)%N && (pd_vbPerBit pd =? bucketsPerBit)%N
               && (N.of_nat (length (pd_vbBytes pd)) =? vbcBytes)%N) then fail
      else Some ({| bgen := pd_gen pd; bbloom := s'; bvalid := pd_vbBytes pd; bdev := bdev s |}, true) in
    match bbloom s with
    | None => vb None
    | Some f =>
      match b with
      | None => fail
      | Some (h, recs) =>
        match recover f h recs with
        | RUB => None
        | RThrow => fail
        | ROk f1 => vb (Some f1)
        end
      end
    end.

(** A call or an outside event. *)
Inductive event :=
| EInsert (k : hkey) (v : list byte) (r : rdres) (w : wrres)
| ELookup (k : hkey) (r : rdres)
| ERemove (k : hkey) (r : rdres) (w : wrres)
| ECouldExist (k : hkey)
| EReset (gen : N)
| ECorrupt (idx : N) (b : block)   (* the device loses/alters a block at rest *)
| ERestart (gen : N).              (* persist; new instance reset at [gen]; recover *)
Inductive eout := ORes (r : result) | OBool (b : bool) | ONone.

Definition exec (s : bighash) (e : event) : option (bighash * eout) :=
  match e with
  | EInsert k v r w => let* (s1, x) := insertBH s k v r w in Some (s1, ORes x)
  | ELookup k r => let* (s1, x) := lookupBH s k r in Some (s1, ORes x)
  | ERemove k r w => let* (s1, x) := removeBH s k r w in Some (s1, ORes x)
  | ECouldExist k => let* b := couldExistBH s k in Some (s, OBool b)
  | EReset gen => let* s1 := resetBH s gen in Some (s1, ONone)
  | ECorrupt idx b =>
    Some ({| bgen := bgen s; bbloom := bbloom s; bvalid := bvalid s;
             bdev := updDev (bdev s) (bucketOffset idx) b |}, ONone)
  | ERestart gen =>
    let* (pd, b) := persistBH s in
    let* s0 := resetBH s gen in
    let* (s1, _) := recoverBH s0 pd b gen in Some (s1, ONone)
  end.

Fixpoint execs (s : bighash) (es : list event) : option (bighash * list eout) :=
  match es with
  | [] => Some (s, [])
  | e :: r => let* (s1, o) := exec s e in let* (s2, os) := execs s1 r in Some (s2, o :: os)
  end.
End BH.
