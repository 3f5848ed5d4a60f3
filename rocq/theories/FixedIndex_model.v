(** Model of the fixed-size flash index, cachelib/navy/block_cache/FixedSizeIndex.{h,cpp},
    without the combined-entry overflow option (handleOverflow_ = false, the default of
    NavyConfig).  Every call on a key runs under the exclusive (peek: shared) lock of the
    shard of the key's bucket, so it is one step; that it touches only that shard is proved,
    not assumed.  [None] is undefined behaviour: an access outside ht_, partialBits_,
    validBucketsPerShard_ or mutex_, a use of the (absent) combined entries, or an
    out-of-range floating conversion.  Not modelled: shared-memory attach (recover keeps the
    bytes), logging, memory footprint. *)
From Verif Require Import Bytes SparseIndex_model.
Open Scope N_scope.

(** * Size hints: Index.h:232-268, IEEE double arithmetic, round to nearest even.
    [(m, e)] is m * 2^(e-52) with 2^52 <= m < 2^53. *)
Definition fl := (N * N)%type.
Definition f_one : fl := (2 ^ 52, 0).
(** the double nearest to 1.196 (Index.h:194 kSizeExpBase): see [kSizeExpBase_nearest] *)
Definition kSizeExpBase : N := 5386305154335113.
Definition rne (p sh : N) : N :=
  let q := N.shiftr p sh in let r := p - N.shiftl q sh in let half := 2 ^ (sh - 1) in
  if r <? half then q else if half <? r then q + 1 else if N.even q then q else q + 1.
Definition f_mul (x : fl) : fl :=
  let '(m, e) := x in let p := m * kSizeExpBase in
  let '(q, e') := if p <? 2 ^ 105 then (rne p 52, e) else (rne p 53, e + 1) in
  if q <? 2 ^ 53 then (q, e') else (N.shiftr q 1, e' + 1).
(** x < h for an integer h *)
Definition f_lt (x : fl) (h : N) : bool := fst x * 2 ^ snd x <? h * 2 ^ 52.
(** static_cast<uint16_t>: undefined when the truncated value does not fit *)
Definition f_u16 (x : fl) : option N :=
  let v := (fst x * 2 ^ snd x) / 2 ^ 52 in if v <? 65536 then Some v else None.
(** Index.h:232-257 sizeHintToExp.  [fuel] bounds the loop; 64 rounds are enough. *)
Fixpoint hte_loop (fuel : nat) (x : fl) (xp : N) (h : N) : option N :=
  match fuel with
  | O => None
  | S f => if f_lt x h then hte_loop f (f_mul x) (xp + 1) h else Some xp
  end.
Definition sizeHintToExp (h : N) : option N := hte_loop 64 f_one 0 h.
(** Index.h:259-267 sizeExpToHint *)
Fixpoint f_pow (n : nat) : fl := match n with O => f_one | S n' => f_mul (f_pow n') end.
Definition sizeExpToHint (e : N) : option N := f_u16 (f_pow (N.to_nat e)).

(** * The table *)
(** Index.h:187-192 PackedItemRecord, plus the bucket's two fill bits and eight partial key
    bits (FixedSizeIndex.h:199-282 BucketDistInfo; the packing of the fill bits is
    [fm_get]/[fm_set] below). *)
Record slot := mkSl { slAddr : N; slHits : N; slExp : N; slOff : N; slPart : N }.
Record fcfg := mkFC { fcChunks : N; fcPow : N; fcShard : N }.
Record fidx := mkFI { fSlot : N -> slot; fCnt : N -> N }.

(** FixedSizeIndex.cpp:29-42 getTotalBucketCount, getTotalShardCount *)
Definition fTotal (c : fcfg) : N := wrap64 (fcChunks c * 2 ^ fcPow c).
Definition fShards (c : fcfg) : N := (fTotal c - 1) / fcShard c + 1.

(** FixedSizeIndex.h:285 kNextSlotOffset *)
Definition kNext (o : N) : N := match o with 0 => 0 | 1 => 23 | 2 => 61 | _ => 97 end.

(** FixedSizeIndex.h:579-585 kBucketRandomizeOffset *)
Definition kBRO : list N := [
      1229; 1543; 1867; 2179; 2521; 2833; 3203; 3539; 3877; 4229; 4567;
      4919; 5231; 5557; 5861; 6217; 1097; 1423; 1693; 2003; 3121; 3463;
      4099; 4451; 4793; 5119; 5483; 5827; 6197; 6547; 6899; 7283; 7649;
      5717; 6011; 7127; 7459; 7867; 8011; 8167; 8293; 8447; 8623; 8737;
      8863; 9013; 9173; 9319; 9437; 7103; 6823; 6959; 7079; 7993; 8147;
      8431; 8719; 9007; 9293; 9551; 9851; 2203; 4967; 5653].

(** FixedSizeIndex.h:593-610 bucketId *)
Definition bucketId (c : fcfg) (h : N) : N :=
  let cid := N.shiftr h 32 mod fcChunks c in
  let bid := N.land h (2 ^ fcPow c - 1) in
  let r1 := N.land (N.shiftr h 48) 63 in
  let r2 := N.land (N.shiftr h 54) 63 in
  let a2 := N.land (N.shiftr h 60) 3 in
  wrap64 (wrap64 (N.shiftl cid (fcPow c)) + bid + nth (N.to_nat r1) kBRO 0
          + N.shiftl (nth (N.to_nat r2) kBRO 0) a2) mod fTotal c.
(** FixedSizeIndex.h:618-622 partialKeyBits *)
Definition partialKeyBits (h : N) : N := N.land (N.shiftr h 40) 255.
(** FixedSizeIndex.h:613 shardId *)
Definition shardId (c : fcfg) (b : N) : N := b / fcShard c.
(** FixedSizeIndex.h:625-632 calcSlotBucketId *)
Definition calcSlot (c : fcfg) (b o : N) : N :=
  wrap64 (wrap64 (b / fcShard c * fcShard c) + wrap64 (b + kNext o) mod fcShard c).
(** FixedSizeIndex.h:639-643 originalBucketId *)
Definition origBid (c : fcfg) (b o : N) : N :=
  if kNext o <=? b mod fcShard c then b - kNext o
  else wrap64 (two64 + b + fcShard c - kNext o).

Definition slValid (s : slot) : bool := negb (slAddr s =? 0).     (* Index.h:274 isValid *)
Definition slComb (s : slot) : bool := slExp s =? 63.             (* Index.h:276 isCombinedEntry *)

Definition acc (c : fcfg) (s : fidx) (b : N) : option slot :=
  if b <? fTotal c then Some (fSlot s b) else None.
Definition put (s : fidx) (b : N) (x : slot) : fidx :=
  mkFI (fun j => if j =? b then x else fSlot s j) (fCnt s).
Definition cnt (s : fidx) (sid v : N) : fidx :=
  mkFI (fSlot s) (fun j => if j =? sid then v else fCnt s j).
(** writing PackedItemRecord{} keeps the fill and partial bits of the bucket *)
Definition clear_rec (x : slot) : slot := mkSl 0 0 0 (slOff x) (slPart x).

(** FixedSizeIndex.h:294-390 decide/checkBucketSlotOffset, the part that looks for a match *)
Definition slMatch (x : slot) (o p : N) : bool :=
  slValid x && negb (slComb x) && (slOff x =? o) && (p =? slPart x).
Fixpoint find_match (c : fcfg) (s : fidx) (b p : N) (os : list N) : option (option N) :=
  match os with
  | [] => Some None
  | o :: os' => match acc c s (calcSlot c b o) with
                | None => None
                | Some x => if slMatch x o p then Some (Some o) else find_match c s b p os'
                end
  end.
Definition checkOff (c : fcfg) (s : fidx) (b p : N) : option (option N) :=
  find_match c s b p [0; 1; 2; 3].

(** FixedSizeIndex.h:392-436 findOrMakeEmptySlotByMoving: inner loop over [sub] *)
Fixpoint find_sub (c : fcfg) (s : fidx) (org cur : N) (subs : list N) : option (option N) :=
  match subs with
  | [] => Some None
  | u :: us =>
      if u =? cur then find_sub c s org cur us else
      match acc c s (calcSlot c org u) with
      | None => None
      | Some x => if negb (slValid x) then Some (Some u) else find_sub c s org cur us
      end
  end.
(** ... outer loop: (new table, slot offset) *)
Fixpoint find_empty (c : fcfg) (s : fidx) (b : N) (os : list N) : option (fidx * option N) :=
  match os with
  | [] => Some (s, None)
  | o :: os' =>
      let j := calcSlot c b o in
      match acc c s j with
      | None => None
      | Some x =>
          if negb (slValid x) then Some (s, Some o)
          else if slComb x then find_empty c s b os'
          else if slOff x =? o then find_empty c s b os'
          else
            let org := origBid c j (slOff x) in
            match find_sub c s org (slOff x) [0; 1; 2; 3] with
            | None => None
            | Some None => find_empty c s b os'
            | Some (Some u) =>
                let k := calcSlot c org u in
                let s1 := put s k (mkSl (slAddr x) (slHits x) (slExp x) u (slPart x)) in
                Some (put s1 j (clear_rec x), Some o)
            end
      end
  end.
(** FixedSizeIndex.h:294-352 decideBucketSlotOffset *)
Definition decideOff (c : fcfg) (s : fidx) (b p : N) : option (fidx * N) :=
  match checkOff c s b p with
  | None => None
  | Some (Some o) => Some (s, o)
  | Some None =>
      match find_empty c s b [0; 1; 2; 3] with
      | None => None
      | Some (s', Some o) => Some (s', o)
      | Some (s', None) => Some (s', 0)       (* "Let's just replace the current one" *)
      end
  end.

(** The record as the API shows it (FixedSizeIndex.cpp: ItemRecord(address, getSizeHint(), 0,
    hits)) *)
Definition show (x : slot) (hits : N) : option irec :=
  match sizeExpToHint (slExp x) with
  | Some z => Some (mkIR (slAddr x) z 0 hits)
  | None => None
  end.
Definition found (o : option irec) (s : fidx) : option (fidx * ires) :=
  match o with Some r => Some (s, RLook (Some r)) | None => None end.

(** FixedSizeIndex.h:693-708 ExclusiveLockedBucket: the lock and the counter of the shard must
    exist; a combined entry would use the absent combinedEntries_. *)
Definition sid_ok (c : fcfg) (b : N) : bool := shardId c b <? fShards c.
(** the matching bucket, without allocation *)
Definition elb (c : fcfg) (s : fidx) (b p : N) : option (option (N * slot)) :=
  if sid_ok c b then
    match checkOff c s b p with
    | None => None
    | Some None => Some None
    | Some (Some o) => let j := calcSlot c b o in
        match acc c s j with
        | None => None
        | Some x => if slComb x then None else Some (Some (j, x))
        end
    end
  else None.
(** ... and with allocation: (table, offset, bucket, its content) *)
Definition elb_alloc (c : fcfg) (s : fidx) (b p : N) : option (fidx * N * N * slot) :=
  if sid_ok c b then
    match decideOff c s b p with
    | None => None
    | Some (s', o) => let j := calcSlot c b o in
        match acc c s' j with
        | None => None
        | Some x => if slComb x then None else Some (s', o, j, x)
        end
    end
  else None.

(** Index.h:285-288 bumpCurHits *)
Definition bump (x : slot) : slot := mkSl (slAddr x) (N.min (slHits x + 1) 3) (slExp x) (slOff x) (slPart x).

(** FixedSizeIndex.cpp:78-99 lookup (the size hint is read before, the hits after the bump) *)
Definition f_lookup (c : fcfg) (s : fidx) (b p : N) : option (fidx * ires) :=
  match elb c s b p with
  | None => None
  | Some None => Some (s, RLook None)
  | Some (Some (j, x)) =>
      if slValid x then found (show x (slHits (bump x))) (put s j (bump x)) else Some (s, RLook None)
  end.
(** FixedSizeIndex.cpp:101-113 peek *)
Definition f_peek (c : fcfg) (s : fidx) (b p : N) : option (fidx * ires) :=
  match elb c s b p with
  | None => None
  | Some None => Some (s, RLook None)
  | Some (Some (j, x)) => if slValid x then found (show x (slHits x)) s else Some (s, RLook None)
  end.
(** FixedSizeIndex.cpp:115-139 insert; PackedItemRecord{address, sizeHint, 0} *)
Definition f_insert (c : fcfg) (s : fidx) (b p a z : N) : option (fidx * ires) :=
  match elb_alloc c s b p, sizeHintToExp z with
  | Some (s1, o, j, x), Some e =>
      let x' := mkSl a 0 e o p in
      if slValid x then found (show x (slHits x)) (put s1 j x')
      else Some (put (cnt s1 (shardId c b) (fCnt s1 (shardId c b) + 1)) j x', RLook None)
  | _, _ => None
  end.
(** FixedSizeIndex.cpp:141-165 insertIfNotExists *)
Definition f_insertNew (c : fcfg) (s : fidx) (b p a z : N) : option (fidx * ires) :=
  match elb_alloc c s b p with
  | Some (s1, o, j, x) =>
      if slValid x then found (show x (slHits x)) s1
      else match sizeHintToExp z with
           | None => None
           | Some e => Some (put (cnt s1 (shardId c b) (fCnt s1 (shardId c b) + 1)) j (mkSl a 0 e o p),
                             RLook None)
           end
  | None => None
  end.
(** FixedSizeIndex.cpp:167-178 replaceIfMatch *)
Definition f_replace (c : fcfg) (s : fidx) (b p new old : N) : option (fidx * ires) :=
  match elb c s b p with
  | None => None
  | Some None => Some (s, RBool false)
  | Some (Some (j, x)) =>
      if slValid x && (slAddr x =? old)
      then Some (put s j (mkSl new 0 (slExp x) (slOff x) (slPart x)), RBool true)
      else Some (s, RBool false)
  end.
(** FixedSizeIndex.cpp:180-199 remove *)
Definition f_remove (c : fcfg) (s : fidx) (b p : N) : option (fidx * ires) :=
  match elb c s b p with
  | None => None
  | Some None => Some (s, RLook None)
  | Some (Some (j, x)) =>
      if slValid x
      then found (show x (slHits x))
             (put (cnt s (shardId c b) (wrap64 (fCnt s (shardId c b) + two64 - 1))) j (clear_rec x))
      else Some (put s j (clear_rec x), RLook None)
  end.
(** FixedSizeIndex.cpp:201-213 removeIfMatch *)
Definition f_removeIf (c : fcfg) (s : fidx) (b p a : N) : option (fidx * ires) :=
  match elb c s b p with
  | None => None
  | Some None => Some (s, RBool false)
  | Some (Some (j, x)) =>
      if slValid x && (slAddr x =? a)
      then Some (put (cnt s (shardId c b) (wrap64 (fCnt s (shardId c b) + two64 - 1))) j (clear_rec x),
                 RBool true)
      else Some (s, RBool false)
  end.

(** FixedSizeIndex.cpp:215-240 reset: totalShards_ * numBucketsPerShard_ records are written. *)
Definition f_reset (c : fcfg) (s : fidx) : option (fidx * ires) :=
  if fTotal c <? fShards c * fcShard c then None
  else Some (mkFI (fun j => if j <? fShards c * fcShard c then clear_rec (fSlot s j) else fSlot s j)
                  (fun i => if i <? fShards c then 0 else fCnt s i), RUnit).
(** FixedSizeIndex.cpp:266-274 computeSize *)
Fixpoint sumN (n : nat) (f : N -> N) : N :=
  match n with O => 0 | S n' => sumN n' f + f (N.of_nat n') end.
Definition f_size (c : fcfg) (s : fidx) : N := sumN (N.to_nat (fShards c)) (fCnt s).

Definition f_step (c : fcfg) (s : fidx) (o : iop) : option (fidx * ires) :=
  match o with
  | OLookup h => f_lookup c s (bucketId c h) (partialKeyBits h)
  | OPeek h => f_peek c s (bucketId c h) (partialKeyBits h)
  | OInsert h a z => f_insert c s (bucketId c h) (partialKeyBits h) a z
  | OInsertNew h a z => f_insertNew c s (bucketId c h) (partialKeyBits h) a z
  | OReplace h n o => f_replace c s (bucketId c h) (partialKeyBits h) n o
  | ORemove h => f_remove c s (bucketId c h) (partialKeyBits h)
  | ORemoveIf h a => f_removeIf c s (bucketId c h) (partialKeyBits h) a
  | OReset => f_reset c s
  | OSize => Some (s, RSize (f_size c s))
  | OIter => Some (s, REnts [])       (* FixedSizeIndex.cpp:384 begin() is not implemented *)
  | ORestart => Some (s, RUnit)       (* the table lives in shared memory *)
  end.
Fixpoint f_run (c : fcfg) (s : fidx) (l : list iop) : option (fidx * list ires) :=
  match l with
  | [] => Some (s, [])
  | o :: l' => match f_step c s o with
               | None => None
               | Some (s', r) => match f_run c s' l' with
                                 | None => None
                                 | Some (s'', rs) => Some (s'', r :: rs) end
               end
  end.
(** The memory before reset(): zeroed (FixedSizeIndex.cpp:219-227) *)
Definition f_zero : fidx := mkFI (fun _ => mkSl 0 0 0 0 0) (fun _ => 0).

(** What the size hint becomes *)
Definition quant (z : N) : option N :=
  match sizeHintToExp z with Some e => sizeExpToHint e | None => None end.

(** * Packing of the fill bits: FixedSizeIndex.h:256-266; one byte serves four buckets *)
Definition fm_get (m : N -> N) (b : N) : N := N.land (N.shiftr (m (b / 4)) (2 * (b mod 4))) 3.
Definition fm_set (m : N -> N) (b o : N) : N -> N := fun i =>
  if i =? b / 4 then
    N.lor (N.land (m i) (N.lxor 255 (N.shiftl 3 (2 * (b mod 4))))) (N.shiftl o (2 * (b mod 4)))
  else m i.
