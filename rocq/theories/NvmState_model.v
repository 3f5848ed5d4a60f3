(** Model of the decision to keep or drop the flash cache at start
    (/repo/cachelib/allocator/NvmCacheState.h and .cpp, CacheAllocator::initNvmCache
    and saveNvmCache, createNavyCache, Driver::persist/recover/reset).

    Instances run one after the other on one cache directory and one device
    (the shared-memory manager's lock, C41, keeps two from running together; an
    instance without shared memory cannot call shutDown).  Every file and device
    operation is one step, and a crash may follow any of them.

    Simplifications: the engines' contents are one number (0 = empty) and the
    data area of the device another one, bumped by every write; the device's
    metadata area holds either a complete description of a content or none
    (C43 models how that description is written and read); a torn or empty
    state file holds no record (folly::RecordIO checksums its records). *)
From Coq Require Import List Bool Arith.
Import ListNotations.

(** What an instance is started with. *)
Record ncfg := mkCfg {
  nVer : nat;        (* kCacheNvmFormatVersion of the binary *)
  nEnc : bool;       (* isNvmCacheEncryptionEnabled *)
  nTrunc : bool;     (* isNvmCacheTruncateAllocSizeEnabled *)
  nHas : bool;       (* config_.nvmConfig.has_value() *)
  nDropNew : bool;   (* dropNvmCacheOnShmNew *)
  nAttached : bool   (* dramCacheAttached *)
}.

(** serialization::NvmCacheMetadata; safeShutDown is always true when written
    (NvmCacheState.cpp:159-168). *)
Record nrec := mkRec { rVer : nat; rTime : nat; rEnc : bool; rTrunc : bool }.

Inductive npc :=
| NStat     (* fileExists(IceRoll), :104 *)
| NLoad     (* fileExists / loadMetadata, :106-131 *)
| NOpen     (* open with O_CREAT|O_TRUNC, :97-98 *)
| NInit     (* initNvmCache up to reset / the engines' recovery,
               CacheAllocator.h:2942-2969, NavySetup.cpp:481-489, Driver.cpp:273-294 *)
| NInval    (* invalidate the metadata after recovery, Driver.cpp:295-299 *)
| NUnlink   (* clearPrevState: unlink IceRoll, :151-155 *)
| NFtrunc   (* clearPrevState: ftruncate, :157 *)
| NRun
| NMark     (* persisted: about to write the record *)
| NGone.

Record inst := mkInst {
  ipc : npc;
  icfg : ncfg;
  iDrop : bool;      (* shouldDropNvmCache_ *)
  iClean : bool;     (* wasCleanshutDown_ *)
  iTime : nat;       (* creationTime_ *)
  iCont : nat;       (* contents of the flash cache *)
  iOn : bool         (* navyEnabled_ *)
}.

Record nw := mkNw {
  ice : bool;                         (* the IceRoll file *)
  sfile : option (option nrec);       (* NvmCacheState: no file / no record / record *)
  dmeta : option (nat * nat);         (* metadata on the device: contents, data version *)
  ddata : nat;                        (* version of the device's data area *)
  clk : nat;
  cur : option (nat * inst)
}.

Inductive nevent :=
| NEStart (p : nat) (c : ncfg)
| NELooked (p : nat) (iceSeen : bool)
| NEResumed (p v t : nat) (sound : bool)  (* started with contents v; sound: the
                           recovered description matches the device's data *)
| NEFresh (p t : nat)                     (* started empty *)
| NEPut (p v : nat)
| NEDisabled (p : nat)
| NESilent (p : nat)                      (* a metadata write failed unnoticed *)
| NEMarked (p : nat)
| NEShut (p : nat) (saved : option bool)  (* saveNvmCache's result *)
| NECrash (p : nat)
| NEIce                                   (* somebody created IceRoll *)
| NEIceGone (p : nat).                    (* the starting instance removed it *)

(** Outcome of the device operations. *)
Inductive outcome :=
| OK
| Fail (keep : bool)     (* failed and reported; keep: the old metadata is still there *)
| Silent (keep : bool).  (* failed without being reported *)

Inductive naction :=
| NaStart (p : nat) (c : ncfg)
| NaNext (o : outcome)
| NaPut (v : nat)
| NaDisable
| NaShut (o : outcome)
| NaTorn          (* the record is written incompletely, then the process dies *)
| NaCrash
| NaIce
| NaTick.

Definition set_ipc (x : npc) (i : inst) : inst :=
  mkInst x (icfg i) (iDrop i) (iClean i) (iTime i) (iCont i) (iOn i).
Definition set_drop (b : bool) (i : inst) : inst :=
  mkInst (ipc i) (icfg i) b (iClean i) (iTime i) (iCont i) (iOn i).
Definition set_clean (b : bool) (i : inst) : inst :=
  mkInst (ipc i) (icfg i) (iDrop i) b (iTime i) (iCont i) (iOn i).
Definition set_time (t : nat) (i : inst) : inst :=
  mkInst (ipc i) (icfg i) (iDrop i) (iClean i) t (iCont i) (iOn i).
Definition set_cont (v : nat) (i : inst) : inst :=
  mkInst (ipc i) (icfg i) (iDrop i) (iClean i) (iTime i) v (iOn i).
Definition set_on (b : bool) (i : inst) : inst :=
  mkInst (ipc i) (icfg i) (iDrop i) (iClean i) (iTime i) (iCont i) b.

Definition w_cur (w : nw) (c : option (nat * inst)) : nw :=
  mkNw (ice w) (sfile w) (dmeta w) (ddata w) (clk w) c.
Definition w_file (w : nw) (f : option (option nrec)) : nw :=
  mkNw (ice w) f (dmeta w) (ddata w) (clk w) (cur w).
Definition w_ice (w : nw) (b : bool) : nw :=
  mkNw b (sfile w) (dmeta w) (ddata w) (clk w) (cur w).
Definition w_dmeta (w : nw) (m : option (nat * nat)) : nw :=
  mkNw (ice w) (sfile w) m (ddata w) (clk w) (cur w).
Definition w_ddata (w : nw) (d : nat) : nw :=
  mkNw (ice w) (sfile w) (dmeta w) d (clk w) (cur w).

(** shouldStartFresh (NvmCacheState.cpp:140-142). *)
Definition startFresh (i : inst) : bool := iDrop i || negb (iClean i).

(** restoreState once IceRoll was looked for (NvmCacheState.cpp:106-137). *)
Definition restore (i : inst) (f : option (option nrec)) : inst :=
  match f with
  | None => i
  | Some None => set_drop true i                     (* loadMetadata throws *)
  | Some (Some r) =>
      let i1 := set_clean true i in
      if startFresh i1 then i1
      else if (rVer r =? nVer (icfg i)) && Bool.eqb (nEnc (icfg i)) (rEnc r)
              && Bool.eqb (nTrunc (icfg i)) (rTrunc r)
           then set_time (rTime r) i1
           else set_drop true i1
  end.

(** markTruncated (NvmCacheState.cpp:183-186). *)
Definition markTruncated (now : nat) (i : inst) : inst :=
  set_time now (set_clean false i).

Definition nstep (w : nw) (a : naction) : option (nw * list nevent) :=
  match a, cur w with
  | NaStart p c, None =>
      Some (w_cur w (Some (p, mkInst NStat c false false (clk w) 0 true)),
            [NEStart p c])
  | NaNext o, Some (p, i) =>
      match ipc i with
      | NStat =>
          Some (w_cur w (Some (p, set_ipc NLoad (set_drop (ice w) i))),
                [NELooked p (ice w)])
      | NLoad =>
          Some (w_cur w (Some (p, set_ipc NOpen (restore i (sfile w)))), [])
      | NOpen =>
          Some (w_cur (w_file w (Some None)) (Some (p, set_ipc NInit i)), [])
      | NInit =>
          if nHas (icfg i) then
            let shouldDrop := nDropNew (icfg i) && negb (nAttached (icfg i)) in
            if startFresh i || shouldDrop then
              let i' := markTruncated (clk w) i in
              Some (w_cur w (Some (p, set_ipc NUnlink (set_cont 0 i'))),
                    [NEFresh p (iTime i')])
            else
              match dmeta w, o with
              | Some (v, d), OK =>
                  Some (w_cur w (Some (p, set_ipc NInval (set_cont v i))),
                        [NEResumed p v (iTime i) (d =? ddata w)])
              | _, _ =>
                  (* no metadata, or an engine cannot recover: reset; the
                     metadata area is not touched *)
                  Some (w_cur w (Some (p, set_ipc NUnlink (set_cont 0 i))),
                        [NEFresh p (iTime i)])
              end
          else Some (w_cur w (Some (p, set_ipc NRun i)), [])
      | NInval =>
          match o with
          | OK => Some (w_cur (w_dmeta w None) (Some (p, set_ipc NUnlink i)), [])
          | _ => Some (w_cur w (Some (p, set_ipc NUnlink i)), [])
          end
      | NUnlink =>
          Some (w_cur (w_ice w false) (Some (p, set_ipc NFtrunc i)), [NEIceGone p])
      | NFtrunc =>
          Some (w_cur (w_file w (Some None)) (Some (p, set_ipc NRun i)), [])
      | NMark =>
          Some (w_cur (w_file w (Some (Some (mkRec (nVer (icfg i)) (iTime i)
                   (nEnc (icfg i)) (nTrunc (icfg i)))))) None,
                [NEMarked p; NEShut p (Some true)])
      | _ => None
      end
  | NaPut v, Some (p, i) =>
      match ipc i with
      | NRun => if nHas (icfg i)
                then Some (w_cur (w_ddata w (S (ddata w))) (Some (p, set_cont v i)),
                           [NEPut p v])
                else None
      | _ => None
      end
  | NaDisable, Some (p, i) =>
      match ipc i with
      | NRun => Some (w_cur w (Some (p, set_on false i)), [NEDisabled p])
      | _ => None
      end
  | NaShut o, Some (p, i) =>
      (* saveNvmCache, up to the mark (CacheAllocator.h:6009-6028,
         NvmCache.h:1706-1727, Driver.cpp:264-271) *)
      match ipc i with
      | NRun =>
          if nHas (icfg i) then
            let m := match o with
                     | OK => Some (iCont i, ddata w)
                     | Fail keep | Silent keep => if keep then dmeta w else None
                     end in
            let sil := match o with Silent _ => [NESilent p] | _ => [] end in
            if iOn i then
              match o with
              | Fail _ => Some (w_cur (w_dmeta w m) None, [NEShut p (Some false)])
              | _ => Some (w_cur (w_dmeta w m) (Some (p, set_ipc NMark i)), sil)
              end
            else Some (w_cur (w_dmeta w m) None, sil ++ [NEShut p None])
          else Some (w_cur w None, [NEShut p None])
      | _ => None
      end
  | NaTorn, Some (p, i) =>
      match ipc i with
      | NMark => Some (w_cur (w_file w (Some None)) None, [NECrash p])
      | _ => None
      end
  | NaCrash, Some (p, i) => Some (w_cur w None, [NECrash p])
  | NaIce, _ => Some (w_ice w true, [NEIce])
  | NaTick, _ => Some (mkNw (ice w) (sfile w) (dmeta w) (ddata w) (S (clk w)) (cur w), [])
  | _, _ => None
  end.

Definition nw0 : nw := mkNw false None None 0 0 None.

Fixpoint nrun (w : nw) (l : list naction) : option (nw * list nevent) :=
  match l with
  | [] => Some (w, [])
  | a :: r =>
      match nstep w a with
      | Some (w1, e1) =>
          match nrun w1 r with
          | Some (w2, e2) => Some (w2, e1 ++ e2)
          | None => None
          end
      | None => None
      end
  end.
