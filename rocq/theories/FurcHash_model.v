(** * furcHash: consistent hash of a key onto [nPart] shards.
    Models /repo/cachelib/common/FurcHash.cpp (and the seed in common/Hash.h:50).
    uint64_t arithmetic wraps at 2^64; a key is its bytes.  Reading hashCache past its 300
    entries is undefined behaviour ([None]); the XDCHECK guarding it is not executed.
    [len] is assumed to fit in int (the XDCHECK at line 167). *)
From Verif Require Import Bytes.

(** FurcHash.cpp:32-42 *)
Definition kMaxTries : nat := 32.
Definition kFurcShift : N := 23.
Definition kHashCacheSize : nat := 300.
(** Hash.h:50 *)
Definition kMurmur2Seed : N := 4193360111.
(** FurcHash.cpp:57-58 m, r *)
Definition murM : N := 14313749767032793493.
Definition murR : N := 47.

Definition mul64 (a b : N) : N := wrap64 (a * b).

(** FurcHash.cpp:65-74 the mixing of one 8-byte word into [h]. *)
Definition murMixWord (h k : N) : N :=
  let k := mul64 k murM in
  let k := N.lxor k (N.shiftr k murR) in
  let k := mul64 k murM in
  mul64 (N.lxor h k) murM.

(** FurcHash.cpp:66-76 the loop over len/8 words. *)
Fixpoint murBody (words : nat) (h : N) (key : list byte) : N * list byte :=
  match words with
  | O => (h, key)
  | S w => murBody w (murMixWord h (le_dec (firstn 8 key))) (skipn 8 key)
  end.

(** FurcHash.cpp:78-103 the switch on len & 7: the remaining bytes, highest first, are xored in
    at their little-endian position, then one multiplication if there is any. *)
Fixpoint murTailXor (h : N) (i : N) (l : list byte) : N :=
  match l with
  | [] => h
  | b :: r => N.lxor (murTailXor h (i + 1) r) (N.shiftl b (8 * i))
  end.
Definition murTail (h : N) (l : list byte) : N :=
  match l with [] => h | _ => mul64 (murTailXor h 0 l) murM end.

(** FurcHash.cpp:105-107 *)
Definition murFinal (h : N) : N :=
  let h := N.lxor h (N.shiftr h murR) in
  let h := mul64 h murM in
  N.lxor h (N.shiftr h murR).

(** FurcHash.cpp:56-110 murmurHash64A *)
Definition murmurHash64A (key : list byte) (seed : N) : N :=
  let len := length key in
  let h := N.lxor seed (mul64 (N.of_nat len) murM) in
  let '(h, rest) := murBody (len / 8) h key in
  murFinal (murTail h rest).

(** FurcHash.cpp:113-131 murmurRehash64A *)
Definition murmurRehash64A (key : N) : N :=
  let h := N.lxor kMurmur2Seed (mul64 8 murM) in
  let key := mul64 key murM in
  let key := N.lxor key (N.shiftr key murR) in
  let key := mul64 key murM in
  let h := mul64 (N.lxor h key) murM in
  murFinal h.

(** FurcHash.cpp:44-48 FurcHashState: hashCache[0..hashIdx] (hashIdx = length - 1). *)
Definition cache := list N.

(** FurcHash.cpp:144-148: append the next value of the rehash chain. *)
Definition extend (c : cache) : cache := c ++ [murmurRehash64A (last c 0%N)].
Fixpoint extendN (n : nat) (c : cache) : cache :=
  match n with O => c | S n' => extendN n' (extend c) end.

(** FurcHash.cpp:136-153 getbit *)
Definition getbit (c : cache) (choice : N) : option (cache * bool) :=
  let newIdx := N.to_nat (N.shiftr choice 6) in
  if newIdx <? kHashCacheSize then
    let c' := extendN (S newIdx - length c) c in
    match nth_error c' newIdx with
    | Some h => Some (c', N.testbit h (N.land choice 63))
    | None => None
    end
  else None.

(** FurcHash.cpp:178-180: the smallest bitNum with nPart <= 2^bitNum; [fuel] 64 suffices for any
    uint32 nPart. *)
Fixpoint bitNumFrom (fuel : nat) (b : nat) (nPart : N) : nat :=
  match fuel with
  | O => b
  | S f => if (N.shiftl 1 (N.of_nat b) <? nPart)%N then bitNumFrom f (S b) nPart else b
  end.

(** FurcHash.cpp:185-190: while (!getbit) { if (--bitNum == 0) return 0; choice = bitNum; }.
    [inl] = returned 0, [inr bitNum choice] = left the loop. *)
Fixpoint descend (c : cache) (bitNum : nat) (choice : N) : option (cache * option (nat * N)) :=
  match getbit c choice with
  | None => None
  | Some (c', true) => Some (c', Some (bitNum, choice))
  | Some (c', false) =>
      match bitNum with
      | O => None (* --bitNum on an unsigned 0: never reached, bitNum >= 1 *)
      | S O => Some (c', None)
      | S b => descend c' b (N.of_nat b)
      end
  end.

(** FurcHash.cpp:193-196 *)
Fixpoint readBits (k : nat) (c : cache) (choice result : N) : option (cache * N * N) :=
  match k with
  | O => Some (c, choice, result)
  | S k' =>
      match getbit c choice with
      | None => None
      | Some (c', b) => readBits k' c' (choice + kFurcShift) (wrap32 (N.lor (N.shiftl result 1) (if b then 1 else 0)))
      end
  end.

(** FurcHash.cpp:184-201 *)
Fixpoint tryLoop (tries : nat) (c : cache) (bitNum : nat) (choice nPart : N) : option N :=
  match tries with
  | O => Some 0%N
  | S t =>
      match descend c bitNum choice with
      | None => None
      | Some (_, None) => Some 0%N
      | Some (c1, Some (b, ch)) =>
          match readBits (b - 1) c1 (ch + kFurcShift) 1 with
          | None => None
          | Some (c2, ch2, r) => if (r <? nPart)%N then Some r else tryLoop t c2 b ch2 nPart
          end
      end
  end.

(** FurcHash.cpp:166-204 furcHash *)
Definition furcHash (key : list byte) (nPart : N) : option N :=
  if (nPart <=? 1)%N then Some 0%N
  else
    let b := bitNumFrom 64 0 nPart in
    tryLoop kMaxTries [murmurHash64A key kMurmur2Seed] b (N.of_nat b) nPart.
