(** * The large-object flash engine: insert, lookup, remove, reclaim and cleanup - all interleavings,
    down to the bytes of the regions.

    Models navy/block_cache/BlockCache.cpp: 276-312 (serializedSize, insert, updateIndex),
    348-480 (lookupInternal, lookup), 593-640 (removeImpl, remove), 668-790 (onRegionReclaim,
    onRegionCleanup), 1047-1053 (removeItem), 1130-1262 (reinsertOrRemoveItem), 1264-1312
    (allocateImpl, allocateForInsert), 1314-1360 (writeEntry), 1362-1450 (readEntry);
    BlockCache.h:296-322 (EntryDesc).  Addresses and size hints: AddrCode_model (C28).

    Granularity: one step = one index operation, one region open/close/allocate, one access of the
    sequence number, one device read, or the filling of one slot.

    Simplifications:
      - the index is a map from the part of the key hash it recognises ([token]) to an address code
        and a size hint; [storedHint] is what it makes of the hint; in the fixed-size one ([displaces])
        an insert of a token that is not there may displace another one (C27);
      - a region's bytes are one function, be they in its write buffer or on the device (the hand-over
        between the two is C29/C30); a writer/reader count is the number of threads that hold the
        region (C29 proves the counters equal that); space is handed out in any region an allocator
        has open, whatever the priority (Allocator.cpp);
      - which regions are sealed, reclaimed or cleaned up, and when, is free;
      - statistics, holes, event tracking, the combined entry block, the iterator path
        (no expected key), persistence and the XDCHECKs are left out;
      - faults: a device read may fail or return wrong bytes.  A wrong read that the checks of the
        code do not catch, a reclaim that leaves index entries behind, a reader let in after the
        buffer was thrown away and undefined behaviour leave a mark in the trace ([unsafe] events).
      - [ents] is a ghost: what was written where.  No step reads it. *)
From Verif Require Import Bytes AddrCode_model.
From Coq Require Import List NArith Bool.
Import ListNotations.
Local Open Scope N_scope.

Record cfg := mkCfg {
  devSize : N; cacheSize : N; regionSize : N;
  checksumData : bool; preciseRemove : bool; destructor : bool; allowRead : bool;
  keyHash : list N -> N; token : N -> N; crc : list N -> N; storedHint : N -> N; displaces : bool }.
Definition algn (c : cfg) : N := calcAllocAlignSize (devSize c).
Definition nregs (c : cfg) : N := cacheSize c / regionSize c.
(** HashedKey: a 64-bit hash of the key bytes; navy::checksum: 32 bits *)
Definition hash64 (c : cfg) (k : list N) : N := keyHash c k mod 2 ^ 64.
Definition checksum (c : cfg) (l : list N) : N := crc c l mod 2 ^ 32.
Definition tk (c : cfg) (k : list N) : N := token c (hash64 c k).
Definition lenN (l : list N) : N := N.of_nat (length l).

(** Bytes of a region: [rdl f off len] reads, [wrl f off l] overwrites. *)
Definition rdl (f : N -> N) (off len : N) : list N := map (fun i => f (off + N.of_nat i)) (seq 0 (N.to_nat len)).
Definition wrl (f : N -> N) (off : N) (l : list N) : N -> N :=
  fun x => if (off <=? x) && (x <? off + lenN l) then nth (N.to_nat (x - off)) l 0 else f x.

(** BlockCache.h:296-322 EntryDesc, 32 bytes: keySize 4, valueSize 4, keyHash 8, lastAccessTime 4,
    csSelf 4 (checksum of the 20 bytes before it), cs 4, padding 4. *)
Definition header (ks vs h la : N) : list N := le_enc 4 ks ++ le_enc 4 vs ++ le_enc 8 h ++ le_enc 4 la.
Definition descBytes (c : cfg) (k v : list N) (la : N) : list N :=
  let h := header (lenN k) (lenN v) (hash64 c k) la in
  h ++ le_enc 4 (checksum c h) ++ le_enc 4 (if checksumData c then checksum c v else 0) ++ le_enc 4 0.
Definition dKs (b : list N) : N := le_dec (slice b 0 4).
Definition dVs (b : list N) : N := le_dec (slice b 4 4).
Definition dHash (b : list N) : N := le_dec (slice b 8 8).
Definition dLa (b : list N) : N := le_dec (slice b 16 4).
Definition dCs (b : list N) : N := le_dec (slice b 24 4).
Definition selfOk (c : cfg) (b : list N) : bool := le_dec (slice b 20 4) =? checksum c (slice b 0 20).

(** BlockCache.cpp:1329-1360 writeEntry into the slot [start, start+sz): descriptor, key, value *)
Definition writeEntry (c : cfg) (f : N -> N) (start sz : N) (k v : list N) (la : N) : N -> N :=
  wrl (wrl (wrl f (start + sz - 32) (descBytes c k v la)) (start + sz - 32 - lenN k) k) start v.

Inductive rres := ROk (v : list N) (la : N) | RDev | RChk | RMiss | RUB.
(** BlockCache.cpp:1425-1450: value slice and its checksum *)
Definition readValue (c : cfg) (db buf : list N) : rres :=
  if lenN buf <? dVs db then RUB
  else let v := firstn (N.to_nat (dVs db)) buf in
       if checksumData c && negb (dCs db =? checksum c v) then RChk else ROk v (dLa db).
(** BlockCache.cpp:1362-1450 readEntry of the entry that ends at [off]; [d1], [d2]: what the device
    has to say at the first and the (rare) second read, None = read error. *)
Definition readEntry (c : cfg) (d1 d2 : option (N -> N)) (off hintBytes : N) (k : list N) : rres :=
  let n := N.min hintBytes off in
  match d1 with
  | None => RDev
  | Some f1 =>
      if n <? 32 then RUB else
      let b := rdl f1 (off - n) n in
      let db := skipn (N.to_nat (n - 32)) b in
      if negb (selfOk c db) then RChk
      else if n <? 32 + dKs db then RUB
      else
        let kb := slice b (N.to_nat (n - 32 - dKs db)) (N.to_nat (dKs db)) in
        if negb ((dHash db =? hash64 c k) && bytes_eqb kb k) then RMiss
        else
          let size := serializedSize (algn c) (dKs db) (dVs db) in
          if size <=? n then readValue c db (skipn (N.to_nat (n - size)) b)
          else if off <? size then RUB
          else match d2 with None => RDev | Some f2 => readValue c db (rdl f2 (off - size) size) end
  end.

(** ** State *)
(** ghost: a slot that was handed out, what goes into it, and whether it is there *)
Record ent := mkE { eSz : N; eK : list N; eV : list N; eLa : N; eW : bool }.
Inductive phase := PFull | POpen | PRecl | PDet | PDrop.
Record region := mkR { cur : N; ph : phase; blk : bool; ents : list ent }.
Inductive caller := CGet | CRem.
Inductive tst :=
| TDone
| IAlloc (k v : list N) (la : N) | IWrite (k v : list N) (la r off sz : N)
| IIdx (k v : list N) (la r off sz : N) | IClose (r : N)
| LSeq (w : caller) (k : list N) (n : nat) | LIdx (w : caller) (k : list N) (n : nat) (q : N)
| LOpen (w : caller) (k : list N) (n : nat) (q code hint : N) | LChk (w : caller) (k : list N) (n : nat) (q code hint : N)
| LRead (w : caller) (k : list N) (code hint : N) (again : bool) | LRm (w : caller) (k : list N) (code : N) (res : rres)
| RRem (k : list N) (ov : option (list N))
| JWait (cl : bool) (r : N) | JRead (r : N) | JWalk (cl : bool) (r off : N) (buf : N -> N)
| JDec (r off : N) (buf : N -> N) | JRm (dt : bool) (r off : N) (buf : N -> N)
| JWr (r off : N) (buf : N -> N) (r2 off2 : N) | JRep (r off : N) (buf : N -> N) (r2 off2 : N)
| JRmC (r off : N) (buf : N -> N) (r2 : N) | JCl (r off : N) (buf : N -> N) (r2 : N)
| JDet (r : N) | JSeq (cl : bool) (r : N) | JBlk (r : N) | JEnd (cl : bool) (r : N).

Inductive op := OInsert (k v : list N) (la : N) | OLookup (k : list N) | ORemove (k : list N).
Inductive result := Stored | Rejected | Retry | NotFound | Found (v : list N) (la : N) | Removed | DeviceError | ChecksumError | BadState.
Inductive event :=
| ECall (i : nat) (o : op) | ERes (i : nat) (x : result)
| EPut (i : nat) (k v : list N) (la : N)      (* the index points to the new entry *)
| EDel (i : nat) (k : list N)                 (* removed from the index *)
| EReins (k : list N)                         (* moved to another region, last access time lost *)
| EEvict (k v : list N) (dt : bool)           (* evicted by reclaim or cleanup; dt: destructor called with k, v *)
| EDrop (k : list N)                          (* dropped from the index by a lookup that could not read it *)
| EDispl (t : N)                              (* displaced from the index by an insert of another token *)
| EDtorRem (k v : list N)                     (* destructor called by remove *)
| EUndetected | EBadReclaim | EThrow | ELate | EUB.

Record state := mkS { regs : N -> region; mem : N -> N -> N; idx : N -> option (N * N); seqn : N; thr : list tst }.

(** All regions empty and evictable, RegionManager.cpp:58-83; whatever is on the device. *)
Definition init (m : N -> N -> N) : state :=
  {| regs := fun _ => {| cur := 0; ph := PFull; blk := false; ents := [] |}; mem := m; idx := fun _ => None; seqn := 0; thr := [] |}.

Definition fupd {A} (f : N -> A) (x : N) (v : A) : N -> A := fun y => if y =? x then v else f y.
Fixpoint updl {A} (l : list A) (i : nat) (x : A) : list A :=
  match l, i with [], _ => [] | _ :: r, O => x :: r | y :: r, S j => y :: updl r j x end.
Definition goto (s : state) (i : nat) (t : tst) : state :=
  {| regs := regs s; mem := mem s; idx := idx s; seqn := seqn s; thr := updl (thr s) i t |}.
Definition setReg (s : state) (r : N) (R : region) : state :=
  {| regs := fupd (regs s) r R; mem := mem s; idx := idx s; seqn := seqn s; thr := thr s |}.
Definition setMem (s : state) (r : N) (f : N -> N) : state :=
  {| regs := regs s; mem := fupd (mem s) r f; idx := idx s; seqn := seqn s; thr := thr s |}.
Definition setIdx (s : state) (t : N) (x : option (N * N)) : state :=
  {| regs := regs s; mem := mem s; idx := fupd (idx s) t x; seqn := seqn s; thr := thr s |}.
Definition setSeq (s : state) (q : N) : state :=
  {| regs := regs s; mem := mem s; idx := idx s; seqn := q; thr := thr s |}.
Definition spawn (s : state) (t : tst) : state :=
  {| regs := regs s; mem := mem s; idx := idx s; seqn := seqn s; thr := thr s ++ [t] |}.

(** BlockCache.h:486-499 *)
Definition enc (c : cfg) (r off : N) : N := encodeRelAddress (algn c) (regionSize c) (r, off).
Definition dec (c : cfg) (code : N) : N * N := decodeRelAddress (algn c) (regionSize c) code.

(** Who holds a region: Region::activeWriters_, activePhysReaders_ + activeInMemReaders_ *)
Definition writes (r : N) (t : tst) : bool :=
  match t with
  | IWrite _ _ _ x _ _ | IIdx _ _ _ x _ _ | IClose x | JWr _ _ _ x _ | JRep _ _ _ x _ | JRmC _ _ _ x | JCl _ _ _ x => x =? r
  | _ => false
  end.
Definition reads (c : cfg) (r : N) (t : tst) : bool :=
  match t with
  | LChk _ _ _ _ code _ | LRead _ _ code _ _ | LRm _ _ code _ => fst (dec c code) =? r
  | _ => false
  end.
Definition noWriters (s : state) (r : N) : bool := negb (existsb (writes r) (thr s)).
Definition noReaders (c : cfg) (s : state) (r : N) : bool := negb (existsb (reads c r) (thr s)).

(** Region.cpp:58-73, Region.h:295-299: space in region r, open for allocation; the slot is noted. *)
Definition alloc (c : cfg) (s : state) (r sz : N) (k v : list N) (la : N) : option state :=
  let R := regs s r in
  match ph R with
  | POpen =>
      if (r <? nregs c) && ((cur R + sz) mod U32 <=? regionSize c)
      then Some (setReg s r {| cur := (cur R + sz) mod U32; ph := POpen; blk := blk R; ents := mkE sz k v la false :: ents R |})
      else None
  | _ => None
  end.
(** ghost: the slot that ends at [e] is filled *)
Fixpoint markW (cu e : N) (l : list ent) : list ent :=
  match l with
  | [] => []
  | x :: r => if cu =? e then mkE (eSz x) (eK x) (eV x) (eLa x) true :: r else x :: markW (cu - eSz x) e r
  end.
Definition fill (c : cfg) (s : state) (r off sz : N) (k v : list N) (la : N) : state :=
  let R := regs s r in
  setReg (setMem s r (writeEntry c (mem s r) off sz k v la)) r
    {| cur := cur R; ph := ph R; blk := blk R; ents := markW (cur R) (off + sz) (ents R) |}.

(** Index::removeIfMatch *)
Definition matches (s : state) (t code : N) : bool :=
  match idx s t with Some (a, _) => a =? code | None => false end.

(** BlockCache.cpp:470-480 lookup; :607-640 remove after its lookup *)
Definition toResult (x : rres) : result :=
  match x with ROk v la => Found v la | RDev => DeviceError | RChk => ChecksumError | RMiss => NotFound | RUB => BadState end.
Definition finish (c : cfg) (s : state) (i : nat) (w : caller) (k : list N) (x : rres) : state * list event :=
  match w with
  | CGet => (goto s i TDone, [ERes i (toResult x)])
  | CRem =>
      match x with
      | ROk v _ => (goto s i (RRem k (Some v)), [])
      | RMiss => if preciseRemove c then (goto s i TDone, [ERes i NotFound]) else (goto s i (RRem k None), [])
      | RChk => (goto s i TDone, [ERes i ChecksumError])
      | _ => (goto s i TDone, [ERes i BadState])
      end
  end.
(** BlockCache.cpp:384-385: region was gone; look into the index again if readers are let in during
    reclaim, once *)
Definition again (s : state) (i : nat) (w : caller) (k : list N) (n : nat) : state * list event :=
  match n with
  | O => (goto s i TDone, [ERes i Retry])
  | S m => (goto s i (LSeq w k m), [])
  end.

(** free choices of a step: a branch, a region, two device reads (None: correct; Some x: x) *)
Record choice := mkC { cB : nat; cR : N; cF1 : option (option (N -> N)); cF2 : option (option (N -> N)) }.
Definition devRead (s : state) (r : N) (x : option (option (N -> N))) : option (N -> N) :=
  match x with None => Some (mem s r) | Some y => y end.
Definition isFaulty (x : option (option (N -> N))) : bool := match x with Some (Some _) => true | _ => false end.

(** An entry of a region buffer, BlockCache.cpp:675-712: end [off]; None: the header check fails or
    the entry sticks out of the buffer *)
Record parsed := mkP { pSz : N; pK : list N; pV : list N; pCs : N }.
Definition parseAt (c : cfg) (buf : N -> N) (off : N) : option parsed :=
  let db := rdl buf (off - 32) 32 in
  let sz := serializedSize (algn c) (dKs db) (dVs db) in
  if (off <? 32) || negb (selfOk c db) then None
  else if (off <? 32 + dKs db) || (off <? sz) then None
  else Some {| pSz := sz; pK := rdl buf (off - 32 - dKs db) (dKs db); pV := rdl buf (off - sz) (dVs db); pCs := dCs db |}.
(** ghost: header and key are as stored / the value is as stored *)
Definition sameHead (s : state) (c : cfg) (r off : N) (buf : N -> N) (p : parsed) : bool :=
  match parseAt c (mem s r) off with
  | Some p' => (pSz p =? pSz p') && bytes_eqb (pK p) (pK p') && (lenN (pV p) =? lenN (pV p')) && (pCs p =? pCs p')
  | None => false
  end.
Definition sameValue (s : state) (c : cfg) (r off : N) (p : parsed) : bool :=
  match parseAt c (mem s r) off with Some p' => bytes_eqb (pV p) (pV p') | None => false end.

Definition walkEnd (cl : bool) (r : N) : tst := if cl then JDet r else JSeq false r.
(** removal of an entry from the index by reclaim or cleanup (BlockCache.cpp:1047-1053,1135-1145) *)
Definition evictAt (c : cfg) (s : state) (r off : N) (p : parsed) (dt : bool) : state * list event :=
  if matches s (tk c (pK p)) (enc c r off)
  then (setIdx s (tk c (pK p)) None, [EEvict (pK p) (pV p) (dt && destructor c)])
  else (s, []).

Definition tstep (c : cfg) (s : state) (i : nat) (t : tst) (ch : choice) : option (state * list event) :=
  match t with
  | TDone => None
  (* insert, BlockCache.cpp:282-307,1280-1312 *)
  | IAlloc k v la =>
      let sz := serializedSize (algn c) (lenN k) (lenN v) in
      let ub := if (32 + lenN k + lenN v + algn c <=? U32) then [] else [EUB] in
      if kMaxItemSize <? sz then Some (goto s i TDone, ub ++ [ERes i Rejected])
      else match cB ch with
           | O => match alloc c s (cR ch) sz k v la with
                  | Some s1 => Some (goto s1 i (IWrite k v la (cR ch) (cur (regs s (cR ch))) sz), ub)
                  | None => None
                  end
           | S O => Some (goto s i TDone, ub ++ [ERes i Rejected])
           | _ => Some (goto s i TDone, ub ++ [ERes i Retry])
           end
  | IWrite k v la r off sz => Some (goto (fill c s r off sz k v la) i (IIdx k v la r off sz), [])
  | IIdx k v la r off sz =>
      let x := Some (enc c r (off + sz), storedHint c (encodeSizeHint sz)) in
      match cB ch with
      | O => Some (goto (setIdx s (tk c k) x) i (IClose r), [EPut i k v la])
      | _ => (* fixed-size index: no place for the token, another one is overwritten *)
          match idx s (cR ch), idx s (tk c k) with
          | Some _, None => if displaces c
                            then Some (goto (setIdx (setIdx s (cR ch) None) (tk c k) x) i (IClose r), [EDispl (cR ch); EPut i k v la])
                            else None
          | _, _ => None
          end
      end
  | IClose r => Some (goto s i TDone, [ERes i Stored])
  (* lookup, BlockCache.cpp:348-460 *)
  | LSeq w k n => Some (goto s i (LIdx w k n (seqn s)), [])
  | LIdx w k n q =>
      match idx s (tk c k) with
      | None => Some (finish c s i w k RMiss)
      | Some (code, hint) => Some (goto s i (LOpen w k n q code hint), [])
      end
  | LOpen w k n q code hint =>
      if blk (regs s (fst (dec c code))) then Some (again s i w k n)
      else Some (goto s i (LChk w k n q code hint), [])
  | LChk w k n q code hint =>
      if seqn s =? q
      then Some (goto s i (LRead w k code hint false),
                 match ph (regs s (fst (dec c code))) with PDet => [ELate] | _ => [] end)
      else Some (again s i w k n)
  | LRead w k code hint ag =>
      let '(r, off) := dec c code in
      let f := isFaulty (cF1 ch) || isFaulty (cF2 ch) in
      let mark := if f then [EUndetected] else [] in
      match readEntry c (devRead s r (cF1 ch)) (devRead s r (cF2 ch)) off (decodeSizeHint hint) k with
      | ROk v la => let (s1, e) := finish c s i w k (ROk v la) in Some (s1, mark ++ e)
      | RMiss => if ag then Some (goto s i (LRm w k code RMiss), mark)
                 else let (s1, e) := finish c s i w k RMiss in Some (s1, mark ++ e)
      | RUB => Some (goto s i TDone, [EUB])
      | RDev => Some (goto s i (LRm w k code RDev), [])
      | RChk => if ag then Some (goto s i (LRm w k code RChk), []) else Some (goto s i (LRead w k code hint true), [])
      end
  | LRm w k code x =>
      let (s1, e) := if matches s (tk c k) code then (setIdx s (tk c k) None, [EDrop k]) else (s, []) in
      let (s2, e2) := finish c s1 i w k x in Some (s2, e ++ e2)
  (* remove, BlockCache.cpp:593-607 *)
  | RRem k ov =>
      let found := match idx s (tk c k) with Some _ => true | None => false end in
      Some (goto (setIdx s (tk c k) None) i TDone,
            EDel i k :: match ov with Some v => if found && destructor c then [EDtorRem k v] else [] | None => [] end ++
            [ERes i (if found then Removed else NotFound)])
  (* reclaim: RegionManager.cpp:359-403, cleanup: Region.cpp:126-140 *)
  | JWait cl r =>
      if noWriters s r && (cl || allowRead c || noReaders c s r)
      then Some (goto s i (if cl then JWalk true r (cur (regs s r)) (mem s r) else JRead r), []) else None
  | JRead r =>
      if cur (regs s r) =? 0 then Some (goto s i (JSeq false r), [])
      else match devRead s r (cF1 ch) with
           | Some f => Some (goto s i (JWalk false r (cur (regs s r)) f), [])
           | None => Some (goto s i (JSeq false r), [EBadReclaim])
           end
  (* onRegionReclaim / onRegionCleanup, BlockCache.cpp:668-790 *)
  | JWalk cl r off buf =>
      if off =? 0 then Some (goto s i (walkEnd cl r), [])
      else match parseAt c buf off with
           | None => Some (goto s i (walkEnd cl r), [EBadReclaim])
           | Some p =>
               let mark := if sameHead s c r off buf p then [] else [EBadReclaim] in
               if cl then
                 let (s1, e) := evictAt c s r off p true in
                 Some (goto s1 i (JWalk cl r (off - pSz p) buf), mark ++ e)
               else
                 (* reinsertOrRemoveItem :1147-1158 *)
                 let here := match idx s (tk c (pK p)) with
                             | Some (a, _) => (fst (dec c a) =? r) && (snd (dec c a) =? off)
                             | None => false
                             end in
                 if here then Some (goto s i (JDec r off buf), mark) else Some (goto s i (JWalk cl r (off - pSz p) buf), mark)
           end
  | JDec r off buf =>
      match parseAt c buf off with
      | None => None
      | Some p =>
          match cB ch with
          | O => Some (goto s i (JRm true r off buf), [])                     (* expired, or not to be reinserted :1160-1173 *)
          | 1%nat => Some (goto s i (JWalk false r (off - pSz p) buf), [EThrow])  (* :1174-1179 *)
          | 2%nat => if checksumData c && negb (pCs p =? checksum c (pV p))    (* :1182-1198 *)
                     then Some (goto s i (JRm false r off buf), []) else None
          | 3%nat => Some (goto s i (JRm false r off buf), [])                 (* no space :1215-1230 *)
          | _ =>
              if checksumData c && negb (pCs p =? checksum c (pV p)) then None
              else match alloc c s (cR ch) (serializedSize (algn c) (lenN (pK p)) (lenN (pV p))) (pK p) (pV p) 0 with
                   | Some s1 => Some (goto s1 i (JWr r off buf (cR ch) (cur (regs s (cR ch)))),
                                      if sameValue s c r off p then [] else [EUndetected])
                   | None => None
                   end
          end
      end
  | JRm dt r off buf =>
      match parseAt c buf off with
      | None => None
      | Some p =>
          (* the value handed to the destructor is not checked *)
          let mark := if dt && destructor c && matches s (tk c (pK p)) (enc c r off) && negb (sameValue s c r off p) then [EUndetected] else [] in
          let (s1, e) := evictAt c s r off p dt in Some (goto s1 i (JWalk false r (off - pSz p) buf), mark ++ e)
      end
  | JWr r off buf r2 off2 =>
      match parseAt c buf off with
      | None => None
      | Some p => Some (goto (fill c s r2 off2 (serializedSize (algn c) (lenN (pK p)) (lenN (pV p))) (pK p) (pV p) 0) i (JRep r off buf r2 off2), [])
      end
  | JRep r off buf r2 off2 =>
      match parseAt c buf off with
      | None => None
      | Some p =>
          match idx s (tk c (pK p)) with
          | Some (a, h) =>
              if a =? enc c r off
              then Some (goto (setIdx s (tk c (pK p)) (Some (enc c r2 (off2 + serializedSize (algn c) (lenN (pK p)) (lenN (pV p))), h))) i (JCl r off buf r2), [EReins (pK p)])
              else Some (goto s i (JRmC r off buf r2), [])
          | None => Some (goto s i (JRmC r off buf r2), [])
          end
      end
  | JRmC r off buf r2 =>
      match parseAt c buf off with
      | None => None
      | Some p => let (s1, e) := evictAt c s r off p false in Some (goto s1 i (JCl r off buf r2), e)
      end
  | JCl r off buf r2 =>
      match parseAt c buf off with
      | None => None
      | Some p => Some (goto s i (JWalk false r (off - pSz p) buf), [])
      end
  (* RegionManager.cpp:150-191 (cleanup: detach the buffer once its readers are gone), 467-503 *)
  | JDet r =>
      if noReaders c s r
      then Some (goto (setReg s r {| cur := cur (regs s r); ph := PDet; blk := blk (regs s r); ents := ents (regs s r) |}) i (JSeq true r), [])
      else None
  | JSeq cl r =>
      Some (goto (setReg (setSeq s (seqn s + 1)) r {| cur := cur (regs s r); ph := PDrop; blk := blk (regs s r); ents := ents (regs s r) |}) i
              (if cl then JEnd true r else if allowRead c then JBlk r else JEnd false r), [])
  | JBlk r =>
      Some (goto (setReg s r {| cur := cur (regs s r); ph := PDrop; blk := true; ents := ents (regs s r) |}) i (JEnd false r), [])
  | JEnd cl r =>
      if cl || negb (allowRead c) || noReaders c s r
      then Some (goto (setReg s r {| cur := 0; ph := PFull; blk := false; ents := [] |}) i TDone, []) else None
  end.

(** What the environment does: calls, jobs (cleanup or reclaim) on a region that is not open, an
    allocator taking or leaving a region. *)
Inductive label := LCall (o : op) | LJob (cl : bool) (r : N) | LTake (r : N) | LSeal (r : N) | LStep (i : nat) (ch : choice).
Definition startT (c : cfg) (o : op) : tst :=
  match o with
  | OInsert k v la => IAlloc k v (la mod 2 ^ 32)   (* uint32_t *)
  | OLookup k => LSeq CGet k (if allowRead c then 1%nat else O)
  | ORemove k => if destructor c || preciseRemove c then LSeq CRem k (if allowRead c then 1%nat else O) else RRem k None
  end.
Definition step (c : cfg) (s : state) (l : label) : option (state * list event) :=
  match l with
  | LCall o => Some (spawn s (startT c o), [ECall (length (thr s)) o])
  | LJob cl r =>
      let R := regs s r in
      match ph R with
      | PFull => if r <? nregs c
                 then Some (spawn (setReg s r {| cur := cur R; ph := PRecl; blk := if cl || allowRead c then blk R else true; ents := ents R |}) (JWait cl r), [])
                 else None
      | _ => None
      end
  | LTake r =>
      let R := regs s r in
      match ph R with
      | PFull => if (r <? nregs c) && (cur R =? 0) then Some (setReg s r {| cur := cur R; ph := POpen; blk := blk R; ents := ents R |}, []) else None
      | _ => None
      end
  | LSeal r =>
      let R := regs s r in
      match ph R with
      | POpen => Some (setReg s r {| cur := cur R; ph := PFull; blk := blk R; ents := ents R |}, [])
      | _ => None
      end
  | LStep i ch => match nth_error (thr s) i with Some t => tstep c s i t ch | None => None end
  end.

(** Runs: the trace, oldest event first. *)
Inductive run (c : cfg) (m : N -> N -> N) : state -> list event -> Prop :=
| run0 : run c m (init m) []
| runS s T l s' e : run c m s T -> step c s l = Some (s', e) -> run c m s' (T ++ e).
Fixpoint exec (c : cfg) (s : state) (ls : list label) (T : list event) : option (state * list event) :=
  match ls with
  | [] => Some (s, T)
  | l :: r => match step c s l with Some (s', e) => exec c s' r (T ++ e) | None => None end
  end.
