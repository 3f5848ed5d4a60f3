(** * The two-level cache (RAM + flash) seen from one key: all interleavings.

    Models, for one key, how these run concurrently, at the granularity of their locks and of the
    single reads and writes they do:
      - CacheAllocator.h: findImpl 4697-4716, insertOrReplace 3880-3945, remove(key) 4358-4422,
        removeImpl 4491-4538, invalidateNvm 4541-4557 (findToWrite), getNextCandidate and
        evictForSlabRelease (eviction with a put token) 4116-4263, 5600-5632;
      - NvmCache.h: createDeleteTombStone 687-707, find 714-843, put 1217-1325,
        onGetComplete 1337-1428, remove 1620-1672, evictCB 921-, invalidateFill 516-524,
        removeFromFillMap 499-512, GetCtx 426-495;
      - InFlightPuts.h, TombStones.h, ReqContexts.h.

    What is abstracted:
      - the flash cache (navy) is a queue of jobs of this key, run one at a time in the order of
        their submission, the callback being part of the job (this is what C33 proves about the
        scheduler), working on [content] : the version flash holds for the key, if any (C22, C32,
        C35); the flash cache may drop the entry at any time and calls evictCB some time later;
        [couldExist] is right when the entry is there, may err when it is not;
      - a version is a number: the number of the insertOrReplace (or in-place write) it comes from;
      - other keys of the same shard: only their effect on [hasContexts] (an arbitrary [true]);
      - a caller's own handles only make evictions rarer; a call in progress pins its item;
      - moving items between slabs, chained items, statistics, events, destructors, admission
        policy (any answer), item allocation failures are left out.
    [None] of [step] = the action is not possible in that state. *)
From Coq Require Import List Arith Bool Lia.
Import ListNotations.

Inductive kind := KInsert | KRemove | KUpdate.
(** What an observer sees (first four), and internal events on which the guards are stated. *)
Inductive event :=
| MutStart (n : nat) (k : kind)      (* n-th insertOrReplace / remove / in-place write begins *)
| MutRet (n : nat)                   (* ... has returned *)
| FindStart (f : nat)
| FindRet (f : nat) (r : option nat) (* version found, or a miss *)
| Dropped        (* the flash cache has dropped the entry (evictCB not called yet) *)
| Notified       (* evictCB has invalidated the fill of the key *)
| Shortcut       (* NvmCache::remove saw "cannot exist" and enqueued nothing *)
| Joined (f : nat) (* a find joined the fill in flight *)
| Filled         (* the fill put the item into RAM and released the fill lock *)
| Erased         (* the fill is out of the fill map; its waiters are served *)
| Disabled.      (* navyEnabled_ = false *)

(** The item the RAM hash table has for the key.  [excl]: marked for eviction (C01): lookups and
    replacements do not get a handle to it any more. *)
Record item := mkItem { iid : nat; ver : nat; clean : bool; evicted : bool; excl : bool }.
(** NvmCache.h:426 GetCtx *)
Record getctx := mkCtx { cvalid : bool; cit : option nat; cwait : list nat }.
Inductive job := JIns (v : nat) | JLook | JRem.
(** Progress of the job at the head of the queue. *)
Inductive jphase :=
| PIdle                      (* not started *)
| PInsDone                   (* inserted; callback to come *)
| PRead (r : option nat)     (* lookup done; onGetComplete about to start *)
| PGot (v : nat)             (* past the isEnabled check; item created *)
| PLocked (v : nat)          (* holds the fill lock, tombstone/valid check passed *)
| PErase                     (* fill lock released; removeFromFillMap to come *)
| PRemDone.

(** On whose behalf NvmCache::remove runs. *)
Inductive who := WIns (n i : nat) | WRem (n : nat) | WUpd (n i : nat) | WSpur.
Inductive tst :=
| TIdle
(* find *)
| TFRam (f : nat) | TFInval (f : nat) | TFShared (f : nat) | TFExcl (f : nat) | TFEnq
(* eviction of item i of version v; t: with a put token *)
| TEUnlink (i v : nat) (t : bool) | TEPut (v : nat) | TECtx (v : nat) | TEExec (v : nat)
| TEAbCtx | TEAbTok | TEAbCtxOnly
(* insertOrReplace: before the hash table step *)
| TIAcc (n : nat)
(* in-place write: item found, before the NvmClean test *)
| TUClean (n i : nat)
(* tombstone + NvmCache::remove *)
| TTomb (w : who) | TLock (w : who) | TInv (w : who) | THas (w : who) | TCould (w : who) | TEnq (w : who)
(* remove(key): after the tombstone *)
| TMFind (n : nat) | TMAcc (n i : nat)
| TRet (w : who).

Record state := mkState {
  ram : option item; tombs : nat; token : option bool; putctx : nat;
  fill : option getctx; queue : list job; phase : jphase; content : option nat;
  enabled : bool; nextm : nat; nexti : nat; nextf : nat; thr : list tst }.
Definition init : state :=
  {| ram := None; tombs := 0; token := None; putctx := 0; fill := None; queue := []; phase := PIdle;
     content := None; enabled := true; nextm := 1; nexti := 0; nextf := 0; thr := [] |}.

Definition setRam s x := {| ram := x; tombs := tombs s; token := token s; putctx := putctx s; fill := fill s; queue := queue s; phase := phase s; content := content s; enabled := enabled s; nextm := nextm s; nexti := nexti s; nextf := nextf s; thr := thr s |}.
Definition setTombs s x := {| ram := ram s; tombs := x; token := token s; putctx := putctx s; fill := fill s; queue := queue s; phase := phase s; content := content s; enabled := enabled s; nextm := nextm s; nexti := nexti s; nextf := nextf s; thr := thr s |}.
Definition setToken s x := {| ram := ram s; tombs := tombs s; token := x; putctx := putctx s; fill := fill s; queue := queue s; phase := phase s; content := content s; enabled := enabled s; nextm := nextm s; nexti := nexti s; nextf := nextf s; thr := thr s |}.
Definition setPutctx s x := {| ram := ram s; tombs := tombs s; token := token s; putctx := x; fill := fill s; queue := queue s; phase := phase s; content := content s; enabled := enabled s; nextm := nextm s; nexti := nexti s; nextf := nextf s; thr := thr s |}.
Definition setFill s x := {| ram := ram s; tombs := tombs s; token := token s; putctx := putctx s; fill := x; queue := queue s; phase := phase s; content := content s; enabled := enabled s; nextm := nextm s; nexti := nexti s; nextf := nextf s; thr := thr s |}.
Definition setQueue s x := {| ram := ram s; tombs := tombs s; token := token s; putctx := putctx s; fill := fill s; queue := x; phase := phase s; content := content s; enabled := enabled s; nextm := nextm s; nexti := nexti s; nextf := nextf s; thr := thr s |}.
Definition setPhase s x := {| ram := ram s; tombs := tombs s; token := token s; putctx := putctx s; fill := fill s; queue := queue s; phase := x; content := content s; enabled := enabled s; nextm := nextm s; nexti := nexti s; nextf := nextf s; thr := thr s |}.
Definition setContent s x := {| ram := ram s; tombs := tombs s; token := token s; putctx := putctx s; fill := fill s; queue := queue s; phase := phase s; content := x; enabled := enabled s; nextm := nextm s; nexti := nexti s; nextf := nextf s; thr := thr s |}.
Definition setEnabled s x := {| ram := ram s; tombs := tombs s; token := token s; putctx := putctx s; fill := fill s; queue := queue s; phase := phase s; content := content s; enabled := x; nextm := nextm s; nexti := nexti s; nextf := nextf s; thr := thr s |}.
Definition setThr s x := {| ram := ram s; tombs := tombs s; token := token s; putctx := putctx s; fill := fill s; queue := queue s; phase := phase s; content := content s; enabled := enabled s; nextm := nextm s; nexti := nexti s; nextf := nextf s; thr := x |}.
Definition setNext s m i f := {| ram := ram s; tombs := tombs s; token := token s; putctx := putctx s; fill := fill s; queue := queue s; phase := phase s; content := content s; enabled := enabled s; nextm := m; nexti := i; nextf := f; thr := thr s |}.

Fixpoint upd (l : list tst) (i : nat) (t : tst) : list tst :=
  match l, i with
  | [], _ => []
  | _ :: r, O => t :: r
  | x :: r, S j => x :: upd r j t
  end.
Definition goto (s : state) (i : nat) (t : tst) : state := setThr s (upd (thr s) i t).

(** The fill lock of the shard is held across steps only by the lookup callback. *)
Definition lockFree (s : state) : bool := match phase s with PLocked _ => false | _ => true end.
(** NvmCache.h:492-494 *)
Definition ctxValid (s : state) : bool := match fill s with Some c => cvalid c | None => false end.
(** InFlightPuts.h:71-77 invalidateToken *)
Definition invalidateToken (s : state) : state :=
  setToken s (match token s with Some _ => Some false | None => None end).
(** findInternal: a handle to the item in the hash table, unless it is marked for eviction. *)
Definition findRam (s : state) : option item :=
  match ram s with Some it => if excl it then None else Some it | None => None end.
(** The item a call in progress holds a handle to. *)
Definition whoItem (w : who) : option nat :=
  match w with WIns _ i => Some i | WUpd _ i => Some i | _ => None end.
Definition pinOf (t : tst) : option nat :=
  match t with
  | TUClean _ i => Some i
  | TMAcc _ i => Some i
  | TTomb w | TLock w | TInv w | THas w | TCould w | TEnq w | TRet w => whoItem w
  | _ => None
  end.
Definition pinned (s : state) (i : nat) : bool :=
  existsb (fun t => match pinOf t with Some j => Nat.eqb i j | None => false end) (thr s).

(** ** New calls *)
Inductive call := CFind | CInsert | CRemove | CUpdate | CSpurious | CEvict (withToken : bool).
Definition spawn (s : state) (c : call) : option (state * list event) :=
  let new s' t := setThr s' (thr s' ++ [t]) in
  match c with
  | CFind => Some (new (setNext s (nextm s) (nexti s) (S (nextf s))) (TFRam (nextf s)), [FindStart (nextf s)])
  | CInsert => Some (new (setNext s (S (nextm s)) (nexti s) (nextf s)) (TIAcc (nextm s)), [MutStart (nextm s) KInsert])
  | CRemove => Some (new (setNext s (S (nextm s)) (nexti s) (nextf s)) (TTomb (WRem (nextm s))), [MutStart (nextm s) KRemove])
  | CUpdate => (* findToWrite has found the item in RAM *)
      match findRam s with
      | Some it => Some (new (setNext s (S (nextm s)) (nexti s) (nextf s)) (TUClean (nextm s) (iid it)), [MutStart (nextm s) KUpdate])
      | None => None
      end
  | CSpurious => (* onGetComplete, on a failed lookup or fill: remove(hk, createDeleteTombStone(hk)) *)
      Some (new s (TTomb WSpur), [])
  | CEvict tok =>
      (* shouldWriteToNvmCache; createPutToken with markForEviction under the InFlightPuts lock *)
      match findRam s with
      | Some it =>
          if pinned s (iid it) then None
          else
            let s1 := setRam s (Some {| iid := iid it; ver := ver it; clean := clean it; evicted := evicted it; excl := true |}) in
            if tok then
              if enabled s && (negb (clean it) || evicted it) then
                match token s with
                | None => Some (new (setToken s1 (Some true)) (TEUnlink (iid it) (ver it) true), [])
                | Some _ => None
                end
              else None
            else Some (new s1 (TEUnlink (iid it) (ver it) false), [])
      | None => None
      end
  end.

(** NvmCache.h:734-790 checkShared.  [fp]: hasContexts is true because of another key, or
    couldExist errs. *)
Inductive chk := ChkHit (v : nat) | ChkMiss | ChkSlow.
Definition checkShared (s : state) (fp : bool) : chk :=
  match findRam s with
  | Some it => ChkHit (ver it)
  | None =>
      match fill s with
      | Some _ => ChkSlow
      | None => if Nat.eqb (putctx s) 0 && negb fp && (match content s with None => true | Some _ => false end)
                then ChkMiss else ChkSlow
      end
  end.

(** One step of thread [i].  [b]: the free choice of that step. *)
Definition tstep (s : state) (i : nat) (t : tst) (b : bool) : option (state * list event) :=
  match t with
  | TIdle => None
  (* CacheAllocator.h:4697-4716 findImpl *)
  | TFRam f =>
      match findRam s with
      | Some it => Some (goto s i TIdle, [FindRet f (Some (ver it))])
      | None => if enabled s then Some (goto s i (TFInval f), []) else Some (goto s i TIdle, [FindRet f None])
      end
  (* NvmCache.h:724 *)
  | TFInval f => Some (goto (invalidateToken s) i (TFShared f), [])
  (* NvmCache.h:791-798 under the shared fill lock *)
  | TFShared f =>
      if lockFree s then
        match checkShared s b with
        | ChkHit v => Some (goto s i TIdle, [FindRet f (Some v)])
        | ChkMiss => Some (goto s i TIdle, [FindRet f None])
        | ChkSlow => Some (goto s i (TFExcl f), [])
        end
      else None
  (* NvmCache.h:799-830 under the exclusive fill lock *)
  | TFExcl f =>
      if lockFree s then
        match checkShared s b with
        | ChkHit v => Some (goto s i TIdle, [FindRet f (Some v)])
        | ChkMiss => Some (goto s i TIdle, [FindRet f None])
        | ChkSlow =>
            match fill s with
            | Some c => Some (goto (setFill s (Some {| cvalid := cvalid c; cit := cit c; cwait := cwait c ++ [f] |})) i TIdle,
                              [Joined f])
            | None => Some (goto (setFill s (Some {| cvalid := true; cit := None; cwait := [f] |})) i TFEnq, [])
            end
        end
      else None
  (* NvmCache.h:835-840 lookupAsync *)
  | TFEnq => Some (goto (setQueue s (queue s ++ [JLook])) i TIdle, [])
  (* CacheAllocator.h:4106-4110 unlinkItemForEviction: access container remove *)
  | TEUnlink j v tok =>
      let s1 := setRam s (match ram s with Some it => if Nat.eqb (iid it) j then None else ram s | None => None end) in
      Some (goto s1 i (if tok then TEPut v else TIdle), [])
  (* CacheAllocator.h:4245-4250, NvmCache.h:1235-1247: admission policy ([b] = accepted), isEnabled,
     tombstone check *)
  | TEPut v =>
      if b && enabled s && Nat.eqb (tombs s) 0 then Some (goto s i (TECtx v), [])
      else Some (goto s i TEAbTok, [])
  (* NvmCache.h:1273 createContext *)
  | TECtx v => Some (goto (setPutctx s (S (putctx s))) i (TEExec v), [])
  (* NvmCache.h:1284-1313, InFlightPuts.h:150-160 executeIfValid; [b]: insertAsync accepts *)
  | TEExec v =>
      match token s with
      | Some true =>
          if b then Some (goto (setToken (setQueue s (queue s ++ [JIns v])) None) i TIdle, [])
          else Some (goto (setToken s None) i TEAbCtxOnly, [])
      | _ => Some (goto s i TEAbCtx, [])
      end
  | TEAbCtx => Some (goto (setPutctx s (putctx s - 1)) i TEAbTok, [])
  | TEAbTok => Some (goto (setToken s None) i TIdle, [])
  | TEAbCtxOnly => Some (goto (setPutctx s (putctx s - 1)) i TIdle, [])
  (* CacheAllocator.h:3892-3926 insertOrReplace: the hash table step, then the decision on what was
     replaced *)
  | TIAcc n =>
      let w := WIns n (nexti s) in
      let it := {| iid := nexti s; ver := n; clean := false; evicted := false; excl := false |} in
      let next := match findRam s with
                  | Some old => if clean old then TTomb w else TRet w
                  | None => TTomb w
                  end in
      Some (goto (setNext (setRam s (Some it)) (nextm s) (S (nexti s)) (nextf s)) i next, [])
  (* CacheAllocator.h:4541-4557 invalidateNvm *)
  | TUClean n j =>
      match ram s with
      | Some it =>
          if Nat.eqb (iid it) j && clean it then
            Some (goto (setRam s (Some {| iid := iid it; ver := ver it; clean := false; evicted := evicted it; excl := excl it |}))
                       i (TTomb (WUpd n j)), [])
          else Some (goto s i (TRet (WUpd n j)), [])
      | None => Some (goto s i (TRet (WUpd n j)), [])
      end
  (* NvmCache.h:687-707 createDeleteTombStone *)
  | TTomb w => Some (goto (setTombs s (S (tombs s))) i (TLock w), [])
  | TLock w =>
      if lockFree s then Some (goto s i (match w with WRem n => TMFind n | _ => TInv w end), [])
      else None
  (* CacheAllocator.h:4410-4421 remove *)
  | TMFind n =>
      match findRam s with
      | Some it => Some (goto s i (TMAcc n (iid it)), [])
      | None => Some (goto s i (TInv (WRem n)), [])
      end
  (* CacheAllocator.h:4497-4526 removeImpl *)
  | TMAcc n j =>
      match ram s with
      | Some it =>
          if Nat.eqb (iid it) j then
            if clean it then Some (goto (setRam s None) i (TInv (WRem n)), [])
            else Some (goto (setTombs (setRam s None) (tombs s - 1)) i (TRet (WRem n)), [])
          else Some (goto s i (TInv (WRem n)), [])
      | None => Some (goto s i (TInv (WRem n)), [])
      end
  (* NvmCache.h:1621-1636 *)
  | TInv w =>
      if enabled s then Some (goto (invalidateToken s) i (THas w), [])
      else Some (goto (setTombs s (tombs s - 1)) i (TRet w), [])
  (* NvmCache.h:1648 hasContexts *)
  | THas w =>
      if b || negb (Nat.eqb (putctx s) 0) then Some (goto s i (TEnq w), []) else Some (goto s i (TCould w), [])
  (* NvmCache.h:1648-1651 couldExist *)
  | TCould w =>
      match content s with
      | Some _ => Some (goto s i (TEnq w), [])
      | None => if b then Some (goto s i (TEnq w), [])
                else Some (goto (setTombs s (tombs s - 1)) i (TRet w), [Shortcut])
      end
  (* NvmCache.h:1652-1672 removeAsync: the tombstone now belongs to the job *)
  | TEnq w => Some (goto (setQueue s (queue s ++ [JRem])) i (TRet w), [])
  | TRet w =>
      match w with
      | WIns n _ => Some (goto s i TIdle, [MutRet n])
      | WRem n => Some (goto s i TIdle, [MutRet n])
      | WUpd n j => (* the caller writes through its handle *)
          Some (goto (match ram s with
                      | Some it => if Nat.eqb (iid it) j
                                   then setRam s (Some {| iid := iid it; ver := n; clean := clean it; evicted := evicted it; excl := excl it |})
                                   else s
                      | None => s
                      end) i TIdle, [MutRet n])
      | WSpur => Some (goto s i TIdle, [])
      end
  end.

(** Result of an insert job in the flash cache. *)
Inductive insres := InsOk | InsFailEmpty | InsFailKeep.
Inductive action :=
| ASpawn (c : call) | AThread (i : nat) (b : bool)
| AExec (r : insres) | ACb (b : bool) | ADrop | AInval | AMark | ADisable.

(** The job at the head of the queue does its work ([r]: outcome of an insert; a lookup may also
    fail and count as a miss: [r] other than [InsOk]). *)
Definition execJob (s : state) (r : insres) : option (state * list event) :=
  match phase s, queue s with
  | PIdle, JIns v :: _ =>
      Some (setPhase (setContent s (match r with InsOk => Some v | InsFailEmpty => None | InsFailKeep => content s end)) PInsDone, [])
  | PIdle, JLook :: _ => Some (setPhase s (PRead (match r with InsOk => content s | _ => None end)), [])
  | PIdle, JRem :: _ => Some (setPhase (setContent s None) PRemDone, [])
  | _, _ => None
  end.
(** The callbacks of the head job. [b]: the item could be created and is not expired. *)
Definition callback (s : state) (b : bool) : option (state * list event) :=
  match phase s with
  | PIdle => None
  (* NvmCache.h:1287-1305 *)
  | PInsDone => Some (setPhase (setQueue (setPutctx s (putctx s - 1)) (tl (queue s))) PIdle, [])
  (* NvmCache.h:1653-1669 delCleanup *)
  | PRemDone => Some (setPhase (setQueue (setTombs s (tombs s - 1)) (tl (queue s))) PIdle, [])
  (* NvmCache.h:1347-1388 *)
  | PRead None => Some (setPhase s PErase, [])
  | PRead (Some v) => if enabled s && b then Some (setPhase s (PGot v), []) else Some (setPhase s PErase, [])
  (* NvmCache.h:1390-1398: takes the fill lock *)
  | PGot v => if Nat.eqb (tombs s) 0 && ctxValid s then Some (setPhase s (PLocked v), [])
              else Some (setPhase s PErase, [])
  (* NvmCache.h:1420-1427 insertFromNvm, setWriteHandle; the lock is released *)
  | PLocked v =>
      match ram s with
      | Some _ => Some (setPhase s PErase, [])
      | None =>
          let it := {| iid := nexti s; ver := v; clean := true; evicted := false; excl := false |} in
          let s1 := setNext (setRam s (Some it)) (nextm s) (S (nexti s)) (nextf s) in
          Some (setPhase (setFill s1 (match fill s with
                                      | Some c => Some {| cvalid := cvalid c; cit := Some v; cwait := cwait c |}
                                      | None => None end)) PErase, [Filled])
      end
  (* NvmCache.h:499-512 removeFromFillMap; 471-490 wakeUpWaiters *)
  | PErase =>
      let evs := match fill s with Some c => map (fun f => FindRet f (cit c)) (cwait c) | None => [] end in
      Some (setPhase (setQueue (setFill s None) (tl (queue s))) PIdle, Erased :: evs)
  end.

Definition step (s : state) (a : action) : option (state * list event) :=
  match a with
  | ASpawn c => spawn s c
  | AThread i b => match nth_error (thr s) i with Some t => tstep s i t b | None => None end
  | AExec r => execJob s r
  | ACb b => callback s b
  (* the engine evicts the entry *)
  | ADrop => match content s with Some _ => Some (setContent s None, [Dropped]) | None => None end
  (* evictCB: invalidateFill, under the fill lock (may also come from other entries' events) *)
  | AInval =>
      if lockFree s then
        Some (setFill s (match fill s with
                         | Some c => Some {| cvalid := false; cit := cit c; cwait := cwait c |}
                         | None => None end), [Notified])
      else None
  (* evictCB: markNvmEvicted on the clean item in RAM *)
  | AMark =>
      match findRam s with
      | Some it => if clean it then Some (setRam s (Some {| iid := iid it; ver := ver it; clean := true; evicted := true; excl := false |}), [])
                   else None
      | None => None
      end
  (* disableNavy *)
  | ADisable => Some (setEnabled s false, [Disabled])
  end.

Fixpoint run (s : state) (l : list action) : option (state * list event) :=
  match l with
  | [] => Some (s, [])
  | a :: r => match step s a with
              | Some (s1, e1) => match run s1 r with Some (s2, e2) => Some (s2, e1 ++ e2) | None => None end
              | None => None
              end
  end.
