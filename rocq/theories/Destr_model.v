(** * The item destructor across RAM and flash, seen from one key: all interleavings.

    Models, for one key and a cache with flash and an item destructor configured, at the granularity of
    the locks taken and of the single reads and writes done outside them:
      - CacheAllocator.h: insertOrReplace 3880-3942, remove(key) 4358-4422, removeImpl 4491-4538,
        invalidateNvm 4541-4556 (findToWrite), moveRegularItem 3995-4013 (flags), eviction:
        unlinkItemForEviction 4106-4115, getNextCandidate 4118-4263, shouldWriteToNvmCache 4307-4329,
        releaseBackToAllocator 3561-3631 (the decision about the destructor);
      - NvmCache.h: createDeleteTombStone 687-707, find 714-843, evictCB 921-1072, put 1217-1326,
        onGetComplete 1337-1428, remove 1620-1673, invalidateFill 516-524,
        markNvmItemRemovedLocked 1745-1750, checkAndUnmarkItemRemovedLocked 1752-1761;
      - InFlightPuts.h (put token), TombStones.h, ReqContexts.h (put contexts).

    Identity.  Every insertOrReplace inserts a new item; items are numbered.  A copy of the item written
    to flash, or filled back into RAM, keeps the number, and so does an item written in place.

    What is abstracted:
      - the flash cache is a queue of jobs of this key run one at a time in the order of submission, the
        callback being part of the job (C33), working on [content]: the copy flash has (C22, C26, C32).
        An insertion over an existing copy replaces it silently (BlockCache.cpp index insert; "If an
        item is replaced, callback is skipped", BlockCache.cpp:664-666).  Flash drops the copy when it
        wants and calls evictCB later ([pend]); a remove job that finds the copy calls evictCB itself
        (BlockCache.cpp:593-606, BigHash.cpp:504-506);
      - a tombstone is there as long as one of its guards lives (TombStones.h): the guards are those of
        the calls in progress and of the remove jobs in the queue; put contexts likewise;
      - find only invalidates the put token and starts a fill; a RAM hit changes nothing here;
      - allocation, chained items, expiry (an expired item is simply not admitted, [b] below), the
        admission policy (any answer), statistics are left out.
    [None] of [step] = the action is not possible in that state. *)
From Coq Require Import List Arith Bool Lia.
Import ListNotations.

(** What an observer sees. *)
Inductive event := Inserted (id : nat) | Destructed (id : nat).

(** The item in the RAM hash table. [excl]: marked for eviction (C01). *)
Record item := mkItem { iid : nat; clean : bool; evicted : bool; excl : bool }.
Inductive job := JIns (id : nat) | JLook | JRem.
(** Progress of the job at the head of the queue. *)
Inductive jphase :=
| PIdle
| PInsOk                                (* inserted; callback to come *)
| PFail (id : nat) | PFail2 (id : nat)  (* insertion failed: evictCB(PutFailed): invalidateFill, then the rest *)
| PRem (id : nat) | PRem2 (id : nat)    (* removed: evictCB(Removed) *)
| PDone                                 (* remove job, callback done *)
| PRead (r : option nat)                (* lookup done; onGetComplete about to start *)
| PGot (id : nat)                       (* item created *)
| PLocked (id : nat)                    (* fill lock taken, tombstone / valid check passed *)
| PErase.                               (* fill lock released; removeFromFillMap to come *)
(** Eviction in progress of an item out of the hands of everybody else. *)
Inductive epc := EUnlink | EPut | ECtx | EExec | EAbort | ERel.
Record ev := mkEv { eid : nat; eclean : bool; eevicted : bool; etok : option bool; epcs : epc }.
(** NvmCache::createDeleteTombStone + NvmCache::remove *)
Inductive rpc := RTomb | RLock | RInv | RHas | RCould | REnq.
(** Mutating calls. [MRm keep pc]: in the removal part; [keep]: the call still has the item in the table. *)
Inductive mpc :=
| MIns                 (* insertOrReplace, before the hash table step *)
| MUpd (i : nat) | MUpd2 (i : nat)   (* findToWrite has item i: before / after the unlocked NvmClean test *)
| MRemTomb | MRemLock | MRemFind | MRemAcc (i : nat)   (* remove(key) *)
| MRm (keep : bool) (r : rpc)
| MRet.

Record state := mkState {
  ram : option item; fill : option bool; filling : bool; queue : list job; phase : jphase;
  content : option nat; pend : list (nat * bool); marked : bool; enabled : bool;
  muts : list mpc; spurs : list rpc; evs : list ev; loose : list nat; nextid : nat }.
Definition init : state :=
  {| ram := None; fill := None; filling := false; queue := []; phase := PIdle; content := None; pend := [];
     marked := false; enabled := true; muts := []; spurs := []; evs := []; loose := []; nextid := 0 |}.

Definition setRam s x := {| ram := x; fill := fill s; filling := filling s; queue := queue s; phase := phase s; content := content s; pend := pend s; marked := marked s; enabled := enabled s; muts := muts s; spurs := spurs s; evs := evs s; loose := loose s; nextid := nextid s |}.
Definition setFill s x := {| ram := ram s; fill := x; filling := filling s; queue := queue s; phase := phase s; content := content s; pend := pend s; marked := marked s; enabled := enabled s; muts := muts s; spurs := spurs s; evs := evs s; loose := loose s; nextid := nextid s |}.
Definition setFilling s x := {| ram := ram s; fill := fill s; filling := x; queue := queue s; phase := phase s; content := content s; pend := pend s; marked := marked s; enabled := enabled s; muts := muts s; spurs := spurs s; evs := evs s; loose := loose s; nextid := nextid s |}.
Definition setQueue s x := {| ram := ram s; fill := fill s; filling := filling s; queue := x; phase := phase s; content := content s; pend := pend s; marked := marked s; enabled := enabled s; muts := muts s; spurs := spurs s; evs := evs s; loose := loose s; nextid := nextid s |}.
Definition setPhase s x := {| ram := ram s; fill := fill s; filling := filling s; queue := queue s; phase := x; content := content s; pend := pend s; marked := marked s; enabled := enabled s; muts := muts s; spurs := spurs s; evs := evs s; loose := loose s; nextid := nextid s |}.
Definition setContent s x := {| ram := ram s; fill := fill s; filling := filling s; queue := queue s; phase := phase s; content := x; pend := pend s; marked := marked s; enabled := enabled s; muts := muts s; spurs := spurs s; evs := evs s; loose := loose s; nextid := nextid s |}.
Definition setPend s x := {| ram := ram s; fill := fill s; filling := filling s; queue := queue s; phase := phase s; content := content s; pend := x; marked := marked s; enabled := enabled s; muts := muts s; spurs := spurs s; evs := evs s; loose := loose s; nextid := nextid s |}.
Definition setMarked s x := {| ram := ram s; fill := fill s; filling := filling s; queue := queue s; phase := phase s; content := content s; pend := pend s; marked := x; enabled := enabled s; muts := muts s; spurs := spurs s; evs := evs s; loose := loose s; nextid := nextid s |}.
Definition setEnabled s x := {| ram := ram s; fill := fill s; filling := filling s; queue := queue s; phase := phase s; content := content s; pend := pend s; marked := marked s; enabled := x; muts := muts s; spurs := spurs s; evs := evs s; loose := loose s; nextid := nextid s |}.
Definition setMuts s x := {| ram := ram s; fill := fill s; filling := filling s; queue := queue s; phase := phase s; content := content s; pend := pend s; marked := marked s; enabled := enabled s; muts := x; spurs := spurs s; evs := evs s; loose := loose s; nextid := nextid s |}.
Definition setSpurs s x := {| ram := ram s; fill := fill s; filling := filling s; queue := queue s; phase := phase s; content := content s; pend := pend s; marked := marked s; enabled := enabled s; muts := muts s; spurs := x; evs := evs s; loose := loose s; nextid := nextid s |}.
Definition setEvs s x := {| ram := ram s; fill := fill s; filling := filling s; queue := queue s; phase := phase s; content := content s; pend := pend s; marked := marked s; enabled := enabled s; muts := muts s; spurs := spurs s; evs := x; loose := loose s; nextid := nextid s |}.
Definition setLoose s x := {| ram := ram s; fill := fill s; filling := filling s; queue := queue s; phase := phase s; content := content s; pend := pend s; marked := marked s; enabled := enabled s; muts := muts s; spurs := spurs s; evs := evs s; loose := x; nextid := nextid s |}.
Definition setNext s x := {| ram := ram s; fill := fill s; filling := filling s; queue := queue s; phase := phase s; content := content s; pend := pend s; marked := marked s; enabled := enabled s; muts := muts s; spurs := spurs s; evs := evs s; loose := loose s; nextid := x |}.

(** The [i]-th element of a list with what is before and after it. *)
Fixpoint pick {A} (i : nat) (l : list A) : option (list A * A * list A) :=
  match l, i with
  | [], _ => None
  | x :: r, O => Some ([], x, r)
  | x :: r, S j => match pick j r with Some (a, y, b) => Some (x :: a, y, b) | None => None end
  end.

(** ** What can be seen of the state *)
Definition isRem (j : job) : bool := match j with JRem => true | _ => false end.
Definition isIns (j : job) : bool := match j with JIns _ => true | _ => false end.
(** guards of tombstones held by a removal in progress *)
Definition rTomb (r : rpc) : bool := match r with RTomb => false | _ => true end.
Definition mTomb (m : mpc) : bool :=
  match m with MRemLock | MRemFind | MRemAcc _ => true | MRm _ r => rTomb r | _ => false end.
(** NvmCache.h:709-712 hasTombStone *)
Definition tombed (s : state) : bool := existsb mTomb (muts s) || existsb rTomb (spurs s) || existsb isRem (queue s).
(** ReqContexts.h: a put context lives from createContext (NvmCache.h:1274) to the job's callback *)
Definition eCtx (e : ev) : bool := match epcs e with EExec | EAbort => true | _ => false end.
Definition hasContexts (s : state) : bool := existsb eCtx (evs s) || existsb isIns (queue s).
(** InFlightPuts.h:46-69: one token per key *)
Definition hasToken (s : state) : bool := existsb (fun e => match etok e with Some _ => true | None => false end) (evs s).
(** InFlightPuts.h:71-77 *)
Definition invalEv (e : ev) : ev := mkEv (eid e) (eclean e) (eevicted e) (match etok e with Some _ => Some false | None => None end) (epcs e).
Definition invalidateToken (s : state) : state := setEvs s (map invalEv (evs s)).
(** The fill lock is held across steps only by the lookup callback. *)
Definition lockFree (s : state) : bool := match phase s with PLocked _ => false | _ => true end.
(** findInternal: no handle to an item marked for eviction *)
Definition findRam (s : state) : option item :=
  match ram s with Some it => if excl it then None else Some it | None => None end.
(** A mutating call holds a handle to the item of the table. *)
Definition holds (s : state) : bool :=
  existsb (fun m => match m with
                    | MUpd i | MUpd2 i | MRemAcc i => match ram s with Some it => Nat.eqb (iid it) i | None => false end
                    | MRm true _ => true
                    | _ => false
                    end) (muts s).
(** The item of the table is replaced or removed: the other calls no longer have theirs in it. *)
Definition loosen (o n : option item) (m : mpc) : mpc :=
  match m, o, n with
  | MRm true r, Some a, Some b => if Nat.eqb (iid a) (iid b) then m else MRm false r
  | MRm true r, Some a, None => MRm false r
  | _, _, _ => m
  end.

(** NvmCache.h:516-524 *)
Definition invalidateFill (s : state) : state := setFill s (match fill s with Some _ => Some false | None => None end).
(** NvmCache.h:964-1072 evictCB after invalidateFill. [failed]: the event is PutFailed. *)
Definition evictCB (s : state) (id : nat) (failed : bool) : state * list event :=
  match findRam s with
  | Some it =>
      if clean it then (setRam s (Some (mkItem (iid it) true true false)), [])
      else if negb failed && marked s then (setMarked s false, []) else (s, [Destructed id])
  | None => if negb failed && marked s then (setMarked s false, []) else (s, [Destructed id])
  end.

(** ** New activities *)
Inductive call := CInsert | CRemove | CUpdate | CSpurious | CEvict (withToken : bool).
Definition spawn (s : state) (c : call) : option state :=
  match c with
  | CInsert => Some (setMuts s (muts s ++ [MIns]))
  | CRemove => Some (setMuts s (muts s ++ [MRemTomb]))
  (* findToWrite has found the item in RAM *)
  | CUpdate => match findRam s with Some it => Some (setMuts s (muts s ++ [MUpd (iid it)])) | None => None end
  (* onGetComplete, on a failed lookup or fill: remove(hk, createDeleteTombStone(hk)) (1357, 1387) *)
  | CSpurious => Some (setSpurs s (spurs s ++ [RTomb]))
  (* shouldWriteToNvmCache 4307-4329; createPutToken with markForEviction under the InFlightPuts lock *)
  | CEvict tok =>
      match findRam s with
      | Some it =>
          if holds s then None
          else if tok then
            if enabled s && (negb (clean it) || evicted it) && negb (hasToken s) then
              Some (setEvs (setRam s (Some (mkItem (iid it) (clean it) (evicted it) true)))
                           (evs s ++ [mkEv (iid it) (clean it) (evicted it) (Some true) EUnlink]))
            else None
          else Some (setEvs (setRam s (Some (mkItem (iid it) (clean it) (evicted it) true)))
                            (evs s ++ [mkEv (iid it) (clean it) (evicted it) None EUnlink]))
      | None => None
      end
  end.

(** One step of a removal: [None]: has to wait; [Some (s, None)]: finished. *)
Definition rstep (s : state) (r : rpc) (b : bool) : option (state * option rpc) :=
  match r with
  (* NvmCache.h:692-704 *)
  | RTomb => Some (s, Some RLock)
  | RLock => if lockFree s then Some (s, Some RInv) else None
  (* NvmCache.h:1622-1634 *)
  | RInv => if enabled s then Some (invalidateToken s, Some RHas) else Some (s, None)
  (* NvmCache.h:1645: hasContexts ([b]: because of another key of the shard) *)
  | RHas => if b || hasContexts s then Some (s, Some REnq) else Some (s, Some RCould)
  (* NvmCache.h:1645-1648: couldExist ([b]: errs) *)
  | RCould => match content s with
              | Some _ => Some (s, Some REnq)
              | None => if b then Some (s, Some REnq) else Some (s, None)
              end
  (* NvmCache.h:1649-1673 *)
  | REnq => Some (setQueue s (queue s ++ [JRem]), None)
  end.

(** One step of a mutating call: the new state, where it goes on, the events. *)
Definition mstep (s : state) (m : mpc) (b : bool) : option (state * mpc * list event) :=
  match m with
  (* CacheAllocator.h:3893-3930: under the destructor lock: the hash table step, markNvmItemRemoved; then
     whether flash has to be told *)
  | MIns =>
      let it := mkItem (nextid s) false false false in
      let s1 := setNext (setRam s (Some it)) (S (nextid s)) in
      match findRam s with
      | Some old =>
          let s2 := setLoose s1 (loose s ++ [iid old]) in
          let s3 := if clean old && negb (evicted old) then setMarked s2 true else s2 in
          Some (s3, if clean old then MRm true RTomb else MRet, [Inserted (nextid s)])
      | None => Some (s1, MRm true RTomb, [Inserted (nextid s)])
      end
  (* CacheAllocator.h:4544 *)
  | MUpd i =>
      match ram s with
      | Some it => if Nat.eqb (iid it) i && clean it then Some (s, MUpd2 i, []) else Some (s, MRet, [])
      | None => Some (s, MRet, [])
      end
  (* CacheAllocator.h:4546-4554, under the destructor lock *)
  | MUpd2 i =>
      match ram s with
      | Some it =>
          if Nat.eqb (iid it) i then
            let s1 := if clean it && negb (evicted it) then setMarked s true else s in
            Some (setRam s1 (Some (mkItem (iid it) false (evicted it) (excl it))), MRm true RTomb, [])
          else Some (s, MRm false RTomb, [])
      | None => Some (s, MRm false RTomb, [])
      end
  (* CacheAllocator.h:4408-4421 *)
  | MRemTomb => Some (s, MRemLock, [])
  | MRemLock => if lockFree s then Some (s, MRemFind, []) else None
  | MRemFind => match findRam s with
                | Some it => Some (s, MRemAcc (iid it), [])
                | None => Some (s, MRm false RInv, [])
                end
  (* CacheAllocator.h:4497-4526 *)
  | MRemAcc i =>
      match ram s with
      | Some it =>
          if Nat.eqb (iid it) i then
            let s1 := setLoose (setRam s None) (loose s ++ [i]) in
            let s2 := if clean it && negb (evicted it) then setMarked s1 true else s1 in
            Some (s2, if clean it then MRm false RInv else MRet, [])
          else Some (s, MRm false RInv, [])
      | None => Some (s, MRm false RInv, [])
      end
  | MRm k r => match rstep s r b with
               | Some (s1, Some r1) => Some (s1, MRm k r1, [])
               | Some (s1, None) => Some (s1, MRet, [])
               | None => None
               end
  | MRet => None
  end.

(** One step of an eviction: the new state, where it goes on, the events. *)
Definition estep (s : state) (l1 : list ev) (e : ev) (l2 : list ev) (b : bool) : state * list event :=
  let at_ tok pc := mkEv (eid e) (eclean e) (eevicted e) tok pc in
  let go x := setEvs s (l1 ++ x :: l2) in
  match epcs e with
  (* CacheAllocator.h:4106-4110 *)
  | EUnlink =>
      let s1 := match ram s with
                | Some it => if Nat.eqb (iid it) (eid e) && excl it then setRam s None else s
                | None => s
                end in
      (setEvs s1 (l1 ++ at_ (etok e) (match etok e with Some _ => EPut | None => ERel end) :: l2), [])
  (* CacheAllocator.h:4243-4250, NvmCache.h:1234-1248: valid token, admission policy and expiry ([b]),
     isEnabled, tombstone *)
  | EPut =>
      if b && enabled s && negb (tombed s) then (go (at_ (etok e) ECtx), []) else (go (at_ None ERel), [])
  (* NvmCache.h:1273-1275 *)
  | ECtx => (go (at_ (etok e) EExec), [])
  (* NvmCache.h:1284-1316; InFlightPuts.h:150-160. [b]: insertAsync accepts *)
  | EExec =>
      match etok e with
      | Some true =>
          if b then (setQueue (setEvs s (l1 ++ mkEv (eid e) true false None ERel :: l2)) (queue s ++ [JIns (eid e)]), [])
          else (go (at_ None EAbort), [])
      | _ => (go (at_ (etok e) EAbort), [])
      end
  (* the guard destroys the context, then the token goes *)
  | EAbort => (go (at_ None ERel), [])
  (* CacheAllocator.h:3607-3631 releaseBackToAllocator, kEviction *)
  | ERel => (setEvs s (l1 ++ l2), if eclean e && negb (eevicted e) then [] else [Destructed (eid e)])
  end.

(** ** Flash *)
Inductive insres := InsOk | InsFail | InsBad.  (* [InsBad]: BadState, NvmCache.h:1291-1294 *)
Inductive action :=
| ASpawn (c : call) | AMut (i : nat) (b : bool) | ASpur (i : nat) (b : bool) | AEv (i : nat) (b : bool)
| ARelease (i : nat)                     (* the last handle to a removed or replaced item goes *)
| AFindInval | AFindFill | AFindEnq      (* find: 724; 799-830; 835-840 *)
| AIns (r : insres) | ALook | ARem (ok : bool) | ACb (b : bool)
| ADrop | APendInval (i : nat) | APendCb (i : nat)
| ALose | AMove | ADisable.

(** The callbacks of the head job. [b]: the item could be created and is not expired. *)
Definition callback (s : state) (b : bool) : option (state * list event) :=
  match phase s with
  | PIdle => None
  (* NvmCache.h:1287-1303 *)
  | PInsOk => Some (setPhase (setQueue s (tl (queue s))) PIdle, [])
  | PFail v => Some (setPhase (invalidateFill s) (PFail2 v), [])
  | PFail2 v => let (s1, e) := evictCB s v true in Some (setPhase (setQueue s1 (tl (queue s1))) PIdle, e)
  (* evictCB(Removed), then delCleanup 1654-1670 *)
  | PRem v => Some (setPhase (invalidateFill s) (PRem2 v), [])
  | PRem2 v => let (s1, e) := evictCB s v false in Some (setPhase s1 PDone, e)
  | PDone => Some (setPhase (setQueue s (tl (queue s))) PIdle, [])
  (* NvmCache.h:1347-1391 *)
  | PRead None => Some (setPhase s PErase, [])
  | PRead (Some v) => if enabled s && b then Some (setPhase s (PGot v), []) else Some (setPhase s PErase, [])
  (* NvmCache.h:1395-1403 *)
  | PGot v => if negb (tombed s) && (match fill s with Some x => x | None => false end)
              then Some (setPhase s (PLocked v), []) else Some (setPhase s PErase, [])
  (* NvmCache.h:1425-1428 insertFromNvm; an item not inserted is nascent: no destructor *)
  | PLocked v => match ram s with
                 | Some _ => Some (setPhase s PErase, [])
                 | None => Some (setPhase (setRam s (Some (mkItem v true false false))) PErase, [])
                 end
  (* NvmCache.h:499-512 *)
  | PErase => Some (setPhase (setQueue (setFill s None) (tl (queue s))) PIdle, [])
  end.

Definition step (s : state) (a : action) : option (state * list event) :=
  match a with
  | ASpawn c => match spawn s c with Some s1 => Some (s1, []) | None => None end
  | AMut i b =>
      match pick i (muts s) with
      | Some (l1, m, l2) =>
          match m with
          | MRet => Some (setMuts s (l1 ++ l2), [])
          | _ => match mstep s m b with
                 | Some (s1, m1, e) => let f := loosen (ram s) (ram s1) in Some (setMuts s1 (map f l1 ++ m1 :: map f l2), e)
                 | None => None
                 end
          end
      | None => None
      end
  | ASpur i b =>
      match pick i (spurs s) with
      | Some (l1, r, l2) =>
          match rstep s r b with
          | Some (s1, Some r1) => Some (setSpurs s1 (l1 ++ r1 :: l2), [])
          | Some (s1, None) => Some (setSpurs s1 (l1 ++ l2), [])
          | None => None
          end
      | None => None
      end
  | AEv i b => match pick i (evs s) with Some (l1, e, l2) => Some (estep s l1 e l2 b) | None => None end
  (* CacheAllocator.h:3607-3631 releaseBackToAllocator, kNormal *)
  | ARelease i => match pick i (loose s) with Some (l1, v, l2) => Some (setLoose s (l1 ++ l2), [Destructed v]) | None => None end
  | AFindInval => Some (invalidateToken s, [])
  | AFindFill =>
      if lockFree s && (match findRam s with None => true | Some _ => false end)
      then match fill s with
           | None => Some (setFilling (setFill s (Some true)) true, [])
           | Some _ => None
           end
      else None
  | AFindEnq => if filling s then Some (setFilling (setQueue s (queue s ++ [JLook])) false, []) else None
  | AIns r =>
      match phase s, queue s with
      | PIdle, JIns v :: _ =>
          match r with
          | InsOk => Some (setPhase (setContent s (Some v)) PInsOk, [])
          | InsFail => Some (setPhase s (PFail v), [])
          | InsBad => Some (setPhase s PInsOk, [])
          end
      | _, _ => None
      end
  | ALook => match phase s, queue s with PIdle, JLook :: _ => Some (setPhase s (PRead (content s)), []) | _, _ => None end
  | ARem ok =>
      match phase s, queue s with
      | PIdle, JRem :: _ =>
          if ok then match content s with
                     | Some v => Some (setPhase (setContent s None) (PRem v), [])
                     | None => Some (setPhase s PDone, [])
                     end
          else Some (setPhase s PDone, []) (* BlockCache.cpp:620-633: the value cannot be read *)
      | _, _ => None
      end
  | ACb b => callback s b
  | ADrop => match content s with Some v => Some (setPend (setContent s None) (pend s ++ [(v, false)]), []) | None => None end
  | APendInval i =>
      match pick i (pend s) with
      | Some (l1, (v, false), l2) => if lockFree s then Some (setPend (invalidateFill s) (l1 ++ (v, true) :: l2), []) else None
      | _ => None
      end
  | APendCb i =>
      match pick i (pend s) with
      | Some (l1, (v, true), l2) => let (s1, e) := evictCB s v false in Some (setPend s1 (l1 ++ l2), e)
      | _ => None
      end
  (* the copy goes without evictCB: a bad header at reclaim (BlockCache.cpp:680-697), a bucket that cannot
     be written (BigHash.cpp:354-361) *)
  | ALose => match content s with Some _ => Some (setContent s None, []) | None => None end
  (* moveRegularItem 4011-4013: NvmClean is carried over, NvmEvicted is not *)
  | AMove => match findRam s with
             | Some it => if holds s then None else Some (setRam s (Some (mkItem (iid it) (clean it) false false)), [])
             | None => None
             end
  (* NvmCache.h:1612-1618 *)
  | ADisable => Some (setEnabled s false, [])
  end.

Fixpoint run (s : state) (l : list action) : option (state * list event) :=
  match l with
  | [] => Some (s, [])
  | a :: r => match step s a with
              | Some (s1, e1) => match run s1 r with Some (s2, e2) => Some (s2, e1 ++ e2) | None => None end
              | None => None
              end
  end.
