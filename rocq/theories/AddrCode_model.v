(** * Address and size encodings of the flash block cache.
    Models /repo/cachelib/navy/block_cache/BlockCache.h:472-499, BlockCache.cpp:112-148,276-280,
    RegionManager.h:170-179, Types.h:103-140, Index.h:187-283 (PackedItemRecord),
    navy/common/Utils.h:50-53.  Machine integers are N with explicit truncation; the double
    arithmetic of the packed size exponent is Coq's SpecFloat (binary64, round to nearest even). *)
From Coq Require Import NArith ZArith List Lia Bool.
From Coq Require Import Floats.SpecFloat.
Import ListNotations.
Local Open Scope N_scope.

Definition U16 : N := 2 ^ 16.
Definition U32 : N := 2 ^ 32.
Definition U64 : N := 2 ^ 64.

(** Utils.h:50-53, on size_t *)
Definition powTwoAlign (size boundary : N) : N :=
  N.land ((size + (boundary - 1)) mod U64) (N.ldiff (U64 - 1) (boundary - 1)).

(** BlockCache.h:280, :283-285 *)
Definition kMinAllocAlignSize : N := 512.
Definition kMaxItemSize : N := kMinAllocAlignSize * (U16 - 1).
(** sizeof(EntryDesc), BlockCache.h:322 *)
Definition entryDescSize : N := 32.

(** folly::isPowTwo, folly::nextPowTwo *)
Definition isPowTwo (v : N) : bool := negb (v =? 0) && (N.land v (v - 1) =? 0).
Definition nextPowTwo (v : N) : N := if v =? 0 then 1 else 2 ^ (N.size (v - 1)).

(** BlockCache.cpp:128-147 *)
Definition calcAllocAlignSize (deviceSize : N) : N :=
  let a := (deviceSize / U32) mod U32 in
  if (a =? 0) || (a <=? kMinAllocAlignSize) then kMinAllocAlignSize
  else if isPowTwo a then a else nextPowTwo a.

(** BlockCache.cpp:112-126 validate and :72-81 of Config::validate; false = exception *)
Definition valid_config (deviceSize cacheSize regionSize : N) : bool :=
  let a := calcAllocAlignSize deviceSize in
  (regionSize <=? 1024 * 2 ^ 20) && negb (cacheSize =? 0) && negb (regionSize =? 0) && (cacheSize mod regionSize =? 0) &&
  isPowTwo a && (regionSize mod a =? 0) && (cacheSize <=? a * U32).

(** BlockCache.cpp:276-280: uint32_t arithmetic *)
Definition serializedSize (a keySize valueSize : N) : N :=
  powTwoAlign ((entryDescSize + keySize + valueSize) mod U32) a mod U32.

(** A relative address: region index and offset, both uint32_t (Types.h:103-140). *)
Definition relAddr := (N * N)%type.
(** RegionManager.h:170-172; regionSize_ is uint64_t *)
Definition toAbsolute (regionSize : N) (r : relAddr) : N := (snd r + fst r * regionSize) mod U64.
(** RegionManager.h:175-179 *)
Definition toRelative (regionSize : N) (o : N) : relAddr := ((o / regionSize) mod U32, (o mod regionSize) mod U32).
(** BlockCache.h:486-489 *)
Definition encodeRelAddress (a regionSize : N) (r : relAddr) : N := (toAbsolute regionSize r / a) mod U32.
(** BlockCache.h:491-493 *)
Definition decodeAbsAddress (a code : N) : N := (code * a) mod U64.
(** BlockCache.h:495-499; AbsAddress::sub and RelAddress::add wrap *)
Definition decodeRelAddress (a regionSize code : N) : relAddr :=
  let '(r, o) := toRelative regionSize ((decodeAbsAddress a code + (U64 - 1)) mod U64) in
  (r, (o + 1) mod U32).

(** BlockCache.h:477-480 *)
Definition encodeSizeHint (size : N) : N := (powTwoAlign size kMinAllocAlignSize / kMinAllocAlignSize) mod U16.
(** BlockCache.h:482-484 *)
Definition decodeSizeHint (h : N) : N := (h * kMinAllocAlignSize) mod U32.

(** ** PackedItemRecord *)
(** Index.h:197 kSizeExpBase = 1.196, as the binary64 number 0x1.322d0e5604189p+0 *)
Definition base : spec_float := S754_finite false 5386305154335113 (-52).
Definition one : spec_float := S754_finite false 4503599627370496 (-52).
Definition fmul : spec_float -> spec_float -> spec_float := SFmul 53 1024.
(** comparison of a double with an integer converted to double (exact below 2^53) *)
Definition lt_int (x : spec_float) (h : N) : bool :=
  match x with
  | S754_finite false m e => if (0 <=? e)%Z then (Z.pos m * 2 ^ e <? Z.of_N h)%Z else (Z.pos m <? Z.of_N h * 2 ^ (- e))%Z
  | _ => false
  end.
(** integral part of a positive finite double *)
Definition trunc (x : spec_float) : N :=
  match x with
  | S754_finite false m e => Z.to_N (if (0 <=? e)%Z then Z.pos m * 2 ^ e else Z.pos m / 2 ^ (- e))%Z
  | _ => 0
  end.
(** Index.h:252-259: the loop, with fuel; None: not finished *)
Fixpoint exp_loop (fuel : nat) (x : spec_float) (xp : N) (h : N) : option N :=
  match fuel with
  | O => None
  | S f => if lt_int x h then exp_loop f (fmul x base) (xp + 1) h else Some xp
  end.
(** Index.h:234-263 sizeHintToExp; None: the exponent does not stay below kCombinedEntrySizeExp
    (0x3f), i.e. would be read back as a combined entry *)
Definition sizeHintToExp (h : N) : option N :=
  match exp_loop 64 one 0 h with
  | Some xp => if xp <? 63 then Some xp else None
  | None => None
  end.
(** Index.h:267-270 *)
Fixpoint powExp (n : nat) : spec_float := match n with O => one | S k => fmul (powExp k) base end.
(** Index.h:265-273 sizeExpToHint; None: the double does not fit uint16_t (the conversion is
    undefined behaviour) *)
Definition sizeExpToHint (e : N) : option N :=
  let v := trunc (powExp (N.to_nat e)) in
  if v <? U16 then Some v else None.
(** PackedItemRecord(address, sizeHint, hits).getSizeHint(), Index.h:220-227,:283 *)
Definition packedSizeHint (h : N) : option N :=
  match sizeHintToExp h with Some e => sizeExpToHint e | None => None end.
