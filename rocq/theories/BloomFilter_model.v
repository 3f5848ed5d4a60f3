(** Model of /repo/cachelib/common/BloomFilter.{h,cpp} and the bit helpers of
    common/Utils.h:459-474.  Bits live in a byte array; out-of-range accesses are
    undefined behaviour ([None]); sizes are 64-bit ([wrap64]).  The hash functions
    (common/Hash.h:74-78, folly's hash_128_to_64 / twang_mix64) are parameters. *)
From Verif Require Import Bytes.

Section BF.
Variable combineHashes : N -> N -> N.
Variable hashInt : N -> N.

(** Utils.h:459-463 byteIndex / bitMask, :468-470 bitSet.  [base] is ptr's offset. *)
Definition bitSet (d : list byte) (base : nat) (bit : N) : option (list byte) :=
  let i := base + N.to_nat (N.shiftr bit 3) in
  let* b := nth_error d i in
  wr d i [N.lor b (N.shiftl 1 (N.land bit 7))].

(** Utils.h:472-474 bitGet. *)
Definition bitGet (d : list byte) (base : nat) (bit : N) : option bool :=
  let i := base + N.to_nat (N.shiftr bit 3) in
  let* b := nth_error d i in
  Some (negb (N.land b (N.shiftl 1 (N.land bit 7)) =? 0)%N).

(** BloomFilter.cpp:30-33 bitsToBytes: ((bits + 7) & ~7) >> 3 in 64 bits. *)
Definition bitsToBytes (bits : N) : N := N.shiftr (N.ldiff (wrap64 (bits + 7)) 7) 3.

(** BloomFilter.h:127-131 members. *)
Record bf := mkBF {
  numFilters : N;
  hashTableBitSize : N;
  filterByteSize : N;
  seeds : list N;
  bits : list byte
}.

(** BloomFilter.h:104 getByteSize. *)
Definition getByteSize (f : bf) : N := wrap64 (numFilters f * filterByteSize f).

(** BloomFilter.cpp:64-81 constructor; [None] is the invalid_argument exception.
    (The C++ throws after allocating; nothing is observable in between.) *)
Definition makeBF (nf nh ht : N) : option bf :=
  if (nf =? 0)%N || (nh =? 0)%N || (ht =? 0)%N then None
  else
    let fbs := bitsToBytes (wrap64 (nh * ht)) in
    Some {| numFilters := nf; hashTableBitSize := ht; filterByteSize := fbs;
            seeds := map (fun i => hashInt (N.of_nat i)) (seq 0 (N.to_nat nh));
            bits := repeat 0%N (N.to_nat (wrap64 (nf * fbs))) |}.

(** BloomFilter.h:117-120 getFilterBytes. *)
Definition filterOff (f : bf) (idx : N) : nat := N.to_nat (wrap64 (idx * filterByteSize f)).

(** BloomFilter.cpp:83-93 set: the loop over the seeds. *)
Fixpoint setLoop (sds : list N) (firstBit : N) (d : list byte) (base : nat) (ht key : N)
  : option (list byte) :=
  match sds with
  | [] => Some d
  | sd :: r =>
    let* d1 := bitSet d base (wrap64 (firstBit + combineHashes key sd mod ht)) in
    setLoop r (wrap64 (firstBit + ht)) d1 base ht key
  end.
Definition set (f : bf) (idx key : N) : option bf :=
  let* d := setLoop (seeds f) 0 (bits f) (filterOff f idx) (hashTableBitSize f) key in
  Some {| numFilters := numFilters f; hashTableBitSize := hashTableBitSize f;
          filterByteSize := filterByteSize f; seeds := seeds f; bits := d |}.

(** BloomFilter.cpp:95-109 couldExist. *)
Fixpoint existLoop (sds : list N) (firstBit : N) (d : list byte) (base : nat) (ht key : N)
  : option bool :=
  match sds with
  | [] => Some true
  | sd :: r =>
    let* b := bitGet d base (wrap64 (firstBit + combineHashes key sd mod ht)) in
    if b then existLoop r (wrap64 (firstBit + ht)) d base ht key else Some false
  end.
Definition couldExist (f : bf) (idx key : N) : option bool :=
  existLoop (seeds f) 0 (bits f) (filterOff f idx) (hashTableBitSize f) key.

(** BloomFilter.cpp:111-116 clear. *)
Definition clear (f : bf) (idx : N) : option bf :=
  let* d := wr (bits f) (filterOff f idx) (repeat 0%N (N.to_nat (filterByteSize f))) in
  Some {| numFilters := numFilters f; hashTableBitSize := hashTableBitSize f;
          filterByteSize := filterByteSize f; seeds := seeds f; bits := d |}.

(** BloomFilter.cpp:118-123 reset. *)
Definition reset (f : bf) : option bf :=
  let* d := wr (bits f) 0 (repeat 0%N (N.to_nat (getByteSize f))) in
  Some {| numFilters := numFilters f; hashTableBitSize := hashTableBitSize f;
          filterByteSize := filterByteSize f; seeds := seeds f; bits := d |}.

(** ** Persistence *)

(** BloomFilter.thrift:26-37.  The i32/i64 fields are read back through the casts of
    BloomFilter.h:155-158, the identity on the bit pattern, so values are kept. *)
Record bfHeader := mkBFH {
  h_numFilters : N; h_hashTableBitSize : N; h_filterByteSize : N;
  h_fragmentSize : N; h_seeds : list N
}.

(** BloomFilter.h:125 kPersistFragmentSize. *)
Definition kPersistFragmentSize : N := 1048576.

(** BloomFilter.cpp:126-133: the fragments of the bits; a fragment of zero size would
    loop forever ([None] through fuel). *)
Fixpoint fragLoop (fuel : nat) (d : list byte) (off size frag : N) : option (list (list byte)) :=
  if (off <? size)%N then
    match fuel with
    | O => None
    | S fuel' =>
      let n := N.min (size - off) frag in
      let* r := rd_bytes d (N.to_nat off) (N.to_nat n) in
      let* rest := fragLoop fuel' d (off + n)%N size frag in
      Some (r :: rest)
    end
  else Some [].

(** BloomFilter.cpp:125-147 serializeBits: the bits, then fake (zero) init bits read
    from a buffer of [frag] bytes at offset 0 each time. *)
Fixpoint fakeLoop (fuel : nat) (off size frag : N) : option (list (list byte)) :=
  if (off <? size)%N then
    match fuel with
    | O => None
    | S fuel' =>
      let n := N.min (size - off) frag in
      let* rest := fakeLoop fuel' (off + n)%N size frag in
      Some (repeat 0%N (N.to_nat n) :: rest)
    end
  else Some [].
Definition serializeBits (f : bf) (frag : N) : option (list (list byte)) :=
  let* a := fragLoop (S (N.to_nat (getByteSize f))) (bits f) 0 (getByteSize f) frag in
  let isz := bitsToBytes (numFilters f) in
  let* b := fakeLoop (S (N.to_nat isz)) 0 isz frag in
  Some (a ++ b).

(** BloomFilter.h:134-148 persist with fragment size [frag] (the code passes
    kPersistFragmentSize): the header record, then the fragments. *)
Definition persistWith (frag : N) (f : bf) : option (bfHeader * list (list byte)) :=
  let* recs := serializeBits f frag in
  Some ({| h_numFilters := numFilters f; h_hashTableBitSize := hashTableBitSize f;
           h_filterByteSize := filterByteSize f; h_fragmentSize := frag; h_seeds := seeds f |},
        recs).
Definition persist := persistWith kPersistFragmentSize.

(** Outcome of recover: [RUB] undefined behaviour, [RThrow] std::invalid_argument. *)
Inductive rres (A : Type) := ROk (a : A) | RThrow | RUB.
Arguments ROk {A}. Arguments RThrow {A}. Arguments RUB {A}.

(** BloomFilter.cpp:149-160: copy each record at [off]. *)
Fixpoint deserLoop (fuel : nat) (d : list byte) (off size : N) (recs : list (list byte))
  : rres (list byte * list (list byte)) :=
  if (off <? size)%N then
    match fuel with
    | O => RUB
    | S fuel' =>
      match recs with
      | [] => RThrow
      | r :: recs' =>
        match wr d (N.to_nat off) r with
        | None => RUB
        | Some d' => deserLoop fuel' d' (off + N.of_nat (length r))%N size recs'
        end
      end
    end
  else ROk (d, recs).

(** BloomFilter.cpp:162-176: skip the fake init bits. *)
Fixpoint skipLoop (fuel : nat) (off size : N) (recs : list (list byte)) : rres (list (list byte)) :=
  if (off <? size)%N then
    match fuel with
    | O => RUB
    | S fuel' =>
      match recs with
      | [] => RThrow
      | r :: recs' => skipLoop fuel' (off + N.of_nat (length r))%N size recs'
      end
    end
  else ROk recs.

(** BloomFilter.h:163-165: seeds_[i] = bd.seeds()[i]; writing past this filter's own
    seed vector is undefined. *)
Definition recoverSeeds (own got : list N) : option (list N) :=
  if length got <=? length own then Some (got ++ skipn (length got) own) else None.

(** BloomFilter.h:150-167 recover into the freshly built [f]. *)
Definition recoverWith (frag : N) (f : bf) (h : bfHeader) (recs : list (list byte)) : rres bf :=
  if negb ((numFilters f =? h_numFilters h)%N && (hashTableBitSize f =? h_hashTableBitSize h)%N
           && (filterByteSize f =? h_filterByteSize h)%N && (h_fragmentSize h =? frag)%N)
  then RThrow
  else
    match recoverSeeds (seeds f) (h_seeds h) with
    | None => RUB
    | Some sds =>
      match deserLoop (S (length recs)) (bits f) 0 (getByteSize f) recs with
      | RThrow => RThrow
      | RUB => RUB
      | ROk (d, recs1) =>
        match skipLoop (S (length recs1)) 0 (bitsToBytes (numFilters f)) recs1 with
        | RThrow => RThrow
        | RUB => RUB
        | ROk _ => ROk {| numFilters := numFilters f; hashTableBitSize := hashTableBitSize f;
                          filterByteSize := filterByteSize f; seeds := sds; bits := d |}
        end
      end
    end.
Definition recover := recoverWith kPersistFragmentSize.
End BF.
Arguments ROk {A}. Arguments RThrow {A}. Arguments RUB {A}.
