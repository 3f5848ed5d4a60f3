(** Model of expiry: util::isExpired with its thread-local stale time, the
    allocate/extendTTL/updateExpiryTime arithmetic, and the lookup, eviction,
    flash and reaper paths that consult it.

    /repo/cachelib/common/Time.h, /repo/cachelib/allocator/CacheItem.h,
    /repo/cachelib/allocator/CacheAllocator.h,
    /repo/cachelib/allocator/nvmcache/NvmCache.h,
    /repo/cachelib/allocator/nvmcache/NvmItem.cpp, /repo/cachelib/allocator/Reaper.h.

    Simplifications: operations are atomic (the races between them are C03 and
    C17); keys, threads and values are numbers; a value stands for the item.
    Every clock reading an operation makes is a parameter, so the clock may do
    anything unless a theorem says otherwise. *)
From Verif Require Import Bytes.
Local Open Scope N_scope.

Definition u32 (x : N) : N := x mod 4294967296.

(** Time.h:56-72 util::isExpired: [stale] is the thread's staleTime, [clk] what
    getCurrentTimeSec() returns if called.  Result and new staleTime. *)
Definition isExpiredTL (stale clk expiry : N) : bool * N :=
  if expiry =? 0 then (false, stale)
  else if expiry <? stale then (true, stale)
  else (expiry <? clk, clk).

(** CacheItem.h:736-746 isExpired(currentTimeSec) and NvmItem.cpp:122-125 *)
Definition isExpiredAt (clk expiry : N) : bool := (0 <? expiry) && (expiry <? clk).

(** CacheAllocator.h:3098-3110 allocate: creation time and expiry time *)
Definition newCreation (clk creation : N) : N := if creation =? 0 then clk else creation.
Definition newExpiry (clk creation ttl : N) : N :=
  if ttl =? 0 then 0 else u32 (newCreation clk creation + ttl).
(** CacheItem.h:1011-1014 extendTTL: time_t plus seconds, converted to uint32_t *)
Definition extendedExpiry (clk ttl : N) : N := u32 (clk + ttl).

(** An item in RAM: value, expiryTime_, NvmClean, NvmEvicted.
    An item on flash: value, expTime_. *)
Record ritem := { r_val : N; r_exp : N; r_clean : bool; r_evicted : bool }.
Record fitem := { f_val : N; f_exp : N }.

Record st := { ram : N -> option ritem; flash : N -> option fitem; stale : N -> N }.
Definition init : st :=
  {| ram := fun _ => None; flash := fun _ => None; stale := fun _ => 0 |}.

Definition upd {A} (f : N -> A) (k : N) (a : A) : N -> A :=
  fun k' => if k' =? k then a else f k'.

Inductive op :=
| OInsert (k v ttl creation clk : N)          (* allocate + insertOrReplace *)
| OInsertIfAbsent (k v ttl creation clk : N)  (* allocate + insert (no flash) *)
| OFind (t k clk clkFlash : N)                (* find: RAM, then flash *)
| OFindFast (t k clk : N)                     (* findFast, peek *)
| OInspect (k : N)                            (* inspectCache, RAM part *)
| OSetExpiry (t k e clk clkFlash : N) (allowed : bool)  (* findToWrite + updateExpiryTime *)
| OExtend (t k ttl clk clkFlash clkNow : N) (allowed : bool) (* findToWrite + extendTTL *)
| ORemove (k : N)
| OEvict (t k clk : N) (admit : bool)         (* RAM eviction *)
| OFlashDrop (k : N) (notify : bool)          (* flash eviction *)
| OReap (t k clk0 clk : N).                   (* reaper visiting k's item *)

Inductive res := RNone | RHit (v : N) | RMiss | RExpired | RBool (b : bool).

(** CacheAllocator.h:4620-4669 findInternalWithExpiration *)
Definition findRam (s : st) (t k clk : N) : res * st :=
  match ram s k with
  | None => (RMiss, s)
  | Some it =>
      let '(x, tl) := isExpiredTL (stale s t) clk (r_exp it) in
      let s' := {| ram := ram s; flash := flash s; stale := upd (stale s) t tl |} in
      if x then (RExpired, s') else (RHit (r_val it), s')
  end.

(** CacheAllocator.h:4700-4716 findImpl with NvmCache.h:735-752 (a RAM item found
    there is expired again, a miss) and 1366-1425 (fill; the new RAM item is
    NvmClean and carries the stored expiry). *)
Definition findFull (s : st) (t k clk clkF : N) : res * st :=
  let '(r, s1) := findRam s t k clk in
  match r with
  | RMiss =>
      match flash s1 k with
      | None => (RMiss, s1)
      | Some f =>
          if isExpiredAt clkF (f_exp f) then (RExpired, s1)
          else (RHit (f_val f),
                {| ram := upd (ram s1) k (Some {| r_val := f_val f; r_exp := f_exp f;
                                                  r_clean := true; r_evicted := false |});
                   flash := flash s1; stale := stale s1 |})
      end
  | _ => (r, s1)
  end.

(** CacheAllocator.h:4718-4727 findToWrite and 4543-4557 invalidateNvm *)
Definition findToWrite (s : st) (t k clk clkF : N) : res * st :=
  let '(r, s1) := findFull s t k clk clkF in
  match r with
  | RHit v =>
      match ram s1 k with
      | Some it =>
          if r_clean it then
            (r, {| ram := upd (ram s1) k (Some {| r_val := r_val it; r_exp := r_exp it;
                                                  r_clean := false; r_evicted := r_evicted it |});
                   flash := upd (flash s1) k None; stale := stale s1 |})
          else (r, s1)
      | None => (r, s1)
      end
  | _ => (r, s1)
  end.

(** CacheItem.h:989-1008 updateExpiryTime ([allowed]: the state test) *)
Definition setExp (s : st) (k e : N) (allowed : bool) : res * st :=
  match ram s k with
  | Some it =>
      if allowed then
        (RBool true,
         {| ram := upd (ram s) k (Some {| r_val := r_val it; r_exp := e;
                                          r_clean := r_clean it; r_evicted := r_evicted it |});
            flash := flash s; stale := stale s |})
      else (RBool false, s)
  | None => (RBool false, s)
  end.

(** One operation. [hasFlash]: nvmCache_ is configured. *)
Definition step (hasFlash : bool) (s : st) (o : op) : res * st :=
  match o with
  | OInsert k v ttl cr clk =>
      (* CacheAllocator.h:3881-3940 insertOrReplace removes the key from flash *)
      (RNone, {| ram := upd (ram s) k (Some {| r_val := v; r_exp := newExpiry clk cr ttl;
                                               r_clean := false; r_evicted := false |});
                 flash := upd (flash s) k None; stale := stale s |})
  | OInsertIfAbsent k v ttl cr clk =>
      (* CacheAllocator.h:3848-3878: throws with flash; fails if the key is linked *)
      if hasFlash then (RNone, s) else
      match ram s k with
      | Some _ => (RBool false, s)
      | None => (RBool true,
          {| ram := upd (ram s) k (Some {| r_val := v; r_exp := newExpiry clk cr ttl;
                                           r_clean := false; r_evicted := false |});
             flash := flash s; stale := stale s |})
      end
  | OFind t k clk clkF => if hasFlash then findFull s t k clk clkF else findRam s t k clk
  | OFindFast t k clk => findRam s t k clk
  | OInspect k =>
      (* CacheAllocator.h:4611-4617: findInternal, no expiry test *)
      (match ram s k with Some it => RHit (r_val it) | None => RMiss end, s)
  | OSetExpiry t k e clk clkF allowed =>
      let '(r, s1) := if hasFlash then findToWrite s t k clk clkF else findRam s t k clk in
      match r with RHit _ => setExp s1 k e allowed | _ => (r, s1) end
  | OExtend t k ttl clk clkF clkNow allowed =>
      let '(r, s1) := if hasFlash then findToWrite s t k clk clkF else findRam s t k clk in
      match r with RHit _ => setExp s1 k (extendedExpiry clkNow ttl) allowed | _ => (r, s1) end
  | ORemove k =>
      (RNone, {| ram := upd (ram s) k None; flash := upd (flash s) k None; stale := stale s |})
  | OEvict t k clk admit =>
      (* eviction unlinks the item; CacheAllocator.h:4308-4330 shouldWriteToNvmCache *)
      match ram s k with
      | None => (RNone, s)
      | Some it =>
          let '(x, tl) := isExpiredTL (stale s t) clk (r_exp it) in
          (RNone, {| ram := upd (ram s) k None;
             flash := if hasFlash && negb x && (negb (r_clean it) || r_evicted it) && admit
                      then upd (flash s) k (Some {| f_val := r_val it; f_exp := r_exp it |})
                      else flash s;
             stale := if hasFlash then upd (stale s) t tl else stale s |})
      end
  | OFlashDrop k notify =>
      (* flash eviction; NvmCache marks the RAM item NvmEvicted when it sees it *)
      (RNone, {| ram := match ram s k with
                        | Some it => if notify && r_clean it
                            then upd (ram s) k (Some {| r_val := r_val it; r_exp := r_exp it;
                                                        r_clean := r_clean it; r_evicted := true |})
                            else ram s
                        | None => ram s end;
                 flash := upd (flash s) k None; stale := stale s |})
  | OReap t k clk0 clk =>
      (* Reaper.h: findFromRawAlloc(currentTimeSec), then removeIfExpired
         (CacheAllocator.h:2363-2366, 5648-5664) *)
      match ram s k with
      | None => (RNone, s)
      | Some it =>
          if isExpiredAt clk0 (r_exp it) then
            let '(x, tl) := isExpiredTL (stale s t) clk (r_exp it) in
            (RBool x, {| ram := if x then upd (ram s) k None else ram s;
                         flash := flash s; stale := upd (stale s) t tl |})
          else (RNone, s)
      end
  end.

Fixpoint run (hf : bool) (s : st) (os : list op) : st :=
  match os with [] => s | o :: r => run hf (snd (step hf s o)) r end.
