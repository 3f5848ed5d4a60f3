(** Model of the shared-memory manager that decides, at every start, whether
    the RAM cache of the previous process may be attached again
    (/repo/cachelib/shm/ShmManager.h and .cpp).

    Any number of processes run against ONE cache directory; every file-system
    or shared-memory call they make is one step, so a schedule (a list of
    [action]) covers every interleaving of starts, runs, shutdowns and every
    crash point.  The processes, users deleting files, and someone creating the
    drop file are all actions.

    Simplifications, each also noted at its definition:
    - segment contents are one number, bumped by [AWrite]; sizes, addresses,
      mapping failures and huge pages are not modelled (a failing attach or
      create throws and changes nothing more);
    - the directory and file permission errors are not modelled;
    - [createShm] is one step (unlink the old name, create the new one): its
      crash point in the middle is [ARemove] followed by [ACrash];
    - the thrift reader rejects unknown fields instead of skipping them (no
      version of this code writes any). *)
From Verif Require Import Bytes.
Local Open Scope nat_scope.

(** ** The metadata file: serialization::ShmManagerObject in thrift's binary
    protocol (shm.thrift:24-29; BinarySerializer in ShmManager.cpp:126-146,
    190-193).  Field 1: byte shmVal; field 3: map<string,string>. *)

Definition name := list byte.

(** i32, big endian. *)
Definition be4 (n : nat) : list byte := rev (le_enc 4 (N.of_nat n)).

Definition enc_str (s : list byte) : list byte := be4 (length s) ++ s.

Fixpoint enc_pairs (l : list (name * list byte)) : list byte :=
  match l with
  | [] => []
  | (k, v) :: r => enc_str k ++ enc_str v ++ enc_pairs r
  end.

(** ShmVal::SHM_SYS_V = 1, SHM_POSIX = 2 (ShmManager.h:171). *)
Definition shmVal (posix : bool) : byte := if posix then 2%N else 1%N.

Definition enc_obj (posix : bool) (m : list (name * list byte)) : list byte :=
  [3; 0; 1; shmVal posix]%N ++ [13; 0; 3; 11; 11]%N ++ be4 (length m)
    ++ enc_pairs m ++ [0%N].

(** The reader: every function returns the bytes it did not consume. *)
Definition rd_be4 (l : list byte) : option (N * list byte) :=
  match l with
  | a :: b :: c :: d :: r => Some (le_dec [d; c; b; a], r)
  | _ => None
  end.

Definition rd_str (l : list byte) : option (list byte * list byte) :=
  match rd_be4 l with
  | Some (n, r) =>
      if (n <=? N.of_nat (length r))%N
      then Some (firstn (N.to_nat n) r, skipn (N.to_nat n) r)
      else None
  | None => None
  end.

Fixpoint rd_pairs (n : nat) (l : list byte)
  : option (list (name * list byte) * list byte) :=
  match n with
  | O => Some ([], l)
  | S n' =>
      match rd_str l with
      | Some (k, r1) =>
          match rd_str r1 with
          | Some (v, r2) =>
              match rd_pairs n' r2 with
              | Some (m, r3) => Some ((k, v) :: m, r3)
              | None => None
              end
          | None => None
          end
      | None => None
      end
  end.

Definition rd_map (l : list byte)
  : option (list (name * list byte) * list byte) :=
  match l with
  | kt :: vt :: r =>
      if (kt =? 11)%N && (vt =? 11)%N then
        match rd_be4 r with
        | Some (n, r') =>
            if (n <=? N.of_nat (length r'))%N
            then rd_pairs (N.to_nat n) r'
            else None
        | None => None
        end
      else None
  | _ => None
  end.

(** The field loop; the struct ends with a STOP byte (0), and a missing
    required field throws (here: None). *)
Fixpoint rd_fields (fuel : nat) (sv : option byte)
  (mp : option (list (name * list byte))) (l : list byte)
  : option (byte * list (name * list byte) * list byte) :=
  match fuel with
  | O => None
  | S fuel' =>
      match l with
      | [] => None
      | t :: r =>
          if (t =? 0)%N then
            match sv, mp with
            | Some s, Some m => Some (s, m, r)
            | _, _ => None
            end
          else
            match r with
            | i1 :: i0 :: r2 =>
                if (t =? 3)%N && (i1 =? 0)%N && (i0 =? 1)%N then
                  match r2 with
                  | b :: r3 => rd_fields fuel' (Some b) mp r3
                  | [] => None
                  end
                else if (t =? 13)%N && (i1 =? 0)%N && (i0 =? 3)%N then
                  match rd_map r2 with
                  | Some (m, r3) => rd_fields fuel' sv (Some m) r3
                  | None => None
                  end
                else None
            | _ => None
            end
      end
  end.

(** deserialize(buf, object): None = it throws. *)
Definition dec_obj (l : list byte) : option (byte * list (name * list byte)) :=
  match rd_fields (S (length l)) None None l with
  | Some (s, m, _) => Some (s, m)
  | None => None
  end.

(** ** Processes *)

Inductive shutres := kSuccess | kFileDeleted | kFailedWrite.

(** Where a process is: the constructor (ShmManager.cpp:42-108), running, the
    steps of shutDown (ShmManager.cpp:156-216), or gone. *)
Inductive pcT :=
| PNone                       (* not started *)
| PStatDir                    (* about to stat the directory, :58 *)
| PStatDrop                   (* about to stat the drop file, :75-76 *)
| PStatMeta                   (* about to stat the metadata file, :90-91 *)
| PCreate2                    (* about to create an empty one, :63 and :94 *)
| PLock2                      (* about to lock it, :65 and :96 *)
| PRead                       (* initFromFile, :104 *)
| PLock                       (* lockMetadataFile, :109 *)
| PTrunc                      (* truncate it, :113 *)
| PExit (ok : bool)           (* SCOPE_EXIT of the constructor, :78-88 *)
| PRun
| PWrite                      (* file exists: about to write it, :170-198 *)
| PUnlock (r : shutres)       (* :208-209 *)
| PRmUn (r : shutres)         (* removeUnAttachedSegments, :213 *)
| PDead.

Record proc := mkProc {
  pc : pcT;
  legacy : bool;    (* built before the xxhash3 switch: only knows the old id *)
  posix : bool;     (* usePosix_ *)
  dropSeen : bool;  (* dropSegments *)
  names : list (name * list byte);       (* nameToKey_ *)
  segs : list (name * (bool * nat));     (* segments_: which id, which object *)
  lockIno : nat;    (* inode behind metaDataLockFile_ *)
  strIno : nat      (* inode behind metadataStream_ *)
}.

Record world := mkWorld {
  dir : bool;
  meta : option nat;               (* directory entry of the metadata file *)
  fdata : nat -> list byte;        (* file contents, by inode *)
  flock : nat -> option nat;       (* exclusive flock holder, by inode *)
  nextIno : nat;
  dropf : bool;                    (* the ColdRoll file *)
  bound : name -> bool -> option nat;  (* kernel segment names: (name, old id?) *)
  objv : nat -> nat;               (* contents of a segment object *)
  nextObj : nat;
  procs : nat -> proc
}.

(** What can be observed of a run. *)
Inductive event :=
| EStart (p : nat)                 (* a process starts constructing *)
| ELooked (p : nat) (seen : bool)  (* it looked for the drop file *)
| ERead (p : nat)                  (* it read, or created, the metadata file *)
| ELocked (p : nat)                (* it got the exclusive lock *)
| ERunning (p : nat) (leg : bool)  (* its constructor returned *)
| EThrow (p : nat)                 (* its constructor threw *)
| EAttached (p : nat) (n : name) (v : nat)  (* attachShm returned; contents *)
| ECreated (p : nat) (n : name)    (* createShm returned; contents 0 *)
| ERemoved (p : nat) (n : name)    (* removeShm on a segment it had *)
| EWrote (p : nat) (n : name) (v : nat)
| ESaved (p : nat)                 (* shutDown finished writing the record *)
| EReleased (p : nat)              (* the lock is released *)
| EShut (p : nat) (r : shutres)    (* shutDown returned *)
| ECrashed (p : nat)
| EDropMade                        (* somebody created the drop file *)
| EDropGone                        (* the drop file was removed *)
| EMetaDeleted                     (* somebody deleted the metadata file *)
| ESegDeleted (n : name).          (* somebody deleted a segment *)

Inductive action :=
| AStart (p : nat) (leg pos : bool)
| ANext (p : nat)                   (* next constructor/shutdown step *)
| AAttach (p : nat) (n : name)
| ACreate (p : nat) (n : name)
| ARemove (p : nat) (n : name)
| AWrite (p : nat) (n : name) (v : nat)
| AShut (p : nat)                   (* call shutDown *)
| AWriteCut (p : nat) (k : nat)     (* the write stops after k bytes *)
| ADestroy (p : nat)                (* destructor without shutDown *)
| ACrash (p : nat)
| AMakeDrop
| ADelMeta
| ADelSeg (n : name) (old : bool).

(** ** Helpers *)

Fixpoint afind {V} (l : list (name * V)) (n : name) : option V :=
  match l with
  | [] => None
  | (k, v) :: r => if bytes_eqb k n then Some v else afind r n
  end.

Definition aerase {V} (l : list (name * V)) (n : name) : list (name * V) :=
  filter (fun kv => negb (bytes_eqb (fst kv) n)) l.

Definition updN {V} (f : nat -> V) (i : nat) (v : V) : nat -> V :=
  fun j => if j =? i then v else f j.

Definition updB (f : name -> bool -> option nat) (n : name) (o : bool)
  (v : option nat) : name -> bool -> option nat :=
  fun m o' => if bytes_eqb m n && Bool.eqb o' o then v else f m o'.

Definition set_pc (x : pcT) (q : proc) : proc :=
  mkProc x (legacy q) (posix q) (dropSeen q) (names q) (segs q)
    (lockIno q) (strIno q).
Definition set_names (l : list (name * list byte)) (q : proc) : proc :=
  mkProc (pc q) (legacy q) (posix q) (dropSeen q) l (segs q)
    (lockIno q) (strIno q).
Definition set_segs (l : list (name * (bool * nat))) (q : proc) : proc :=
  mkProc (pc q) (legacy q) (posix q) (dropSeen q) (names q) l
    (lockIno q) (strIno q).
Definition set_drop (b : bool) (q : proc) : proc :=
  mkProc (pc q) (legacy q) (posix q) b (names q) (segs q)
    (lockIno q) (strIno q).
Definition set_lockIno (i : nat) (q : proc) : proc :=
  mkProc (pc q) (legacy q) (posix q) (dropSeen q) (names q) (segs q)
    i (strIno q).
Definition set_strIno (i : nat) (q : proc) : proc :=
  mkProc (pc q) (legacy q) (posix q) (dropSeen q) (names q) (segs q)
    (lockIno q) i.

Definition w_proc (w : world) (p : nat) (q : proc) : world :=
  mkWorld (dir w) (meta w) (fdata w) (flock w) (nextIno w) (dropf w)
    (bound w) (objv w) (nextObj w) (updN (procs w) p q).
Definition w_dir (w : world) : world :=
  mkWorld true (meta w) (fdata w) (flock w) (nextIno w) (dropf w)
    (bound w) (objv w) (nextObj w) (procs w).
Definition w_meta (w : world) (m : option nat) : world :=
  mkWorld (dir w) m (fdata w) (flock w) (nextIno w) (dropf w)
    (bound w) (objv w) (nextObj w) (procs w).
Definition w_fdata (w : world) (f : nat -> list byte) : world :=
  mkWorld (dir w) (meta w) f (flock w) (nextIno w) (dropf w)
    (bound w) (objv w) (nextObj w) (procs w).
Definition w_flock (w : world) (f : nat -> option nat) : world :=
  mkWorld (dir w) (meta w) (fdata w) f (nextIno w) (dropf w)
    (bound w) (objv w) (nextObj w) (procs w).
Definition w_nextIno (w : world) (i : nat) : world :=
  mkWorld (dir w) (meta w) (fdata w) (flock w) i (dropf w)
    (bound w) (objv w) (nextObj w) (procs w).
Definition w_dropf (w : world) (b : bool) : world :=
  mkWorld (dir w) (meta w) (fdata w) (flock w) (nextIno w) b
    (bound w) (objv w) (nextObj w) (procs w).
Definition w_bound (w : world) (b : name -> bool -> option nat) : world :=
  mkWorld (dir w) (meta w) (fdata w) (flock w) (nextIno w) (dropf w)
    b (objv w) (nextObj w) (procs w).
Definition w_objv (w : world) (v : nat -> nat) : world :=
  mkWorld (dir w) (meta w) (fdata w) (flock w) (nextIno w) (dropf w)
    (bound w) v (nextObj w) (procs w).
Definition w_nextObj (w : world) (o : nat) : world :=
  mkWorld (dir w) (meta w) (fdata w) (flock w) (nextIno w) (dropf w)
    (bound w) (objv w) o (procs w).

(** ** System calls *)

(** createEmptyMetadataFile: open with O_CREAT|O_TRUNC by path
    (ShmManager.h:176-186). *)
Definition openTrunc (w : world) : world * nat :=
  match meta w with
  | Some i => (w_fdata w (updN (fdata w) i []), i)
  | None =>
      let i := nextIno w in
      (w_nextIno (w_meta (w_fdata w (updN (fdata w) i [])) (Some i)) (S i), i)
  end.

(** lockMetadataFile: open read-only by path, then try_lock
    (ShmManager.h:191-196).  None = it throws (no file, or EBUSY). *)
Definition tryLock (w : world) (p : nat) : option (world * nat) :=
  match meta w with
  | None => None
  | Some i =>
      match flock w i with
      | Some _ => None
      | None => Some (w_flock w (updN (flock w) i (Some p)), i)
      end
  end.

(** Closing the descriptor (or the process dying) drops the lock p holds. *)
Definition unlockAll (w : world) (p : nat) : world :=
  w_flock w (fun i => match flock w i with
                      | Some q => if q =? p then None else Some q
                      | None => None
                      end).

(** removeSegByName: shm_unlink one kernel name; true if it existed
    (ShmManager.cpp:220-226, PosixShmSegment.cpp:309-330). *)
Definition unlinkId (b : name -> bool -> option nat) (n : name) (old : bool)
  : name -> bool -> option nat := updB b n old None.

(** uniqueIdForName, and if that did not exist oldUniqueIdForName
    (ShmManager.cpp:276-279, 290-293, 401-405).  A process built before the
    switch knows only the old one. *)
Definition unlinkAny (b : name -> bool -> option nat) (leg : bool) (n : name)
  : name -> bool -> option nat :=
  if leg then unlinkId b n true
  else match b n false with
       | Some _ => unlinkId b n false
       | None => unlinkId b n true
       end.

Definition anyBound (b : name -> bool -> option nat) (leg : bool) (n : name)
  : bool :=
  match (if leg then None else b n false), b n true with
  | None, None => false
  | _, _ => true
  end.

(** removeAllSegments (ShmManager.cpp:273-283) on the kernel names. *)
Fixpoint unlinkAll (b : name -> bool -> option nat) (leg : bool)
  (l : list (name * list byte)) : name -> bool -> option nat :=
  match l with
  | [] => b
  | (n, _) :: r => unlinkAll (unlinkAny b leg n) leg r
  end.

(** removeUnAttachedSegments (ShmManager.cpp:285-300): known but not attached. *)
Definition unattached (q : proc) : list (name * list byte) :=
  filter (fun kv => match afind (segs q) (fst kv) with
                    | Some _ => false | None => true end) (names q).

(** The map written to the file: names with an active attached segment
    (ShmManager.cpp:179-187).  Segments in segments_ are active: removeShm
    erases the ones it marks for removal. *)
Definition attached (q : proc) : list (name * list byte) :=
  filter (fun kv => match afind (segs q) (fst kv) with
                    | Some _ => true | None => false end) (names q).

(** removeShm (ShmManager.cpp:388-418).  Attached: unlink the kernel name the
    segment was attached by, forget it.  Not attached: unlink by name; if
    nothing was there, nothing is forgotten either (the DCHECKs at :407-408 are
    no-ops in release builds). *)
Definition doRemove (w : world) (p : nat) (n : name) : world * bool :=
  let q := procs w p in
  match afind (segs q) n with
  | Some (old, _) =>
      (w_proc (w_bound w (unlinkId (bound w) n old)) p
         (set_names (aerase (names q) n) (set_segs (aerase (segs q) n) q)), true)
  | None =>
      if anyBound (bound w) (legacy q) n
      then (w_proc (w_bound w (unlinkAny (bound w) (legacy q) n)) p
              (set_names (aerase (names q) n) q), true)
      else (w, false)
  end.

Definition kNameMax : N := 2147483648%N.

(** A step: None = the action is not possible now. *)
Definition step (w : world) (a : action) : option (world * list event) :=
  match a with
  | AStart p leg pos =>
      match pc (procs w p) with
      | PNone => Some (w_proc w p (mkProc PStatDir leg pos false [] [] 0 0),
                       [EStart p])
      | _ => None
      end
  | ANext p =>
      let q := procs w p in
      match pc q with
      | PStatDir =>
          if dir w then Some (w_proc w p (set_pc PStatDrop q), [])
          else Some (w_proc (w_dir w) p (set_pc PCreate2 q), [])
      | PStatDrop =>
          Some (w_proc w p (set_pc PStatMeta (set_drop (dropf w) q)),
                [ELooked p (dropf w)])
      | PStatMeta =>
          match meta w with
          | None => Some (w_proc w p (set_pc PCreate2 q), [])
          | Some _ =>
              if dropSeen q then Some (w_proc w p (set_pc PLock q), [])
              else Some (w_proc w p (set_pc PRead q), [])
          end
      | PCreate2 =>
          let '(w', i) := openTrunc w in
          Some (w_proc w' p (set_pc PLock2 (set_strIno i q)), [ERead p])
      | PLock2 =>
          match tryLock w p with
          | Some (w', i) =>
              Some (w_proc w' p (set_pc (PExit true) (set_lockIno i q)),
                    [ELocked p])
          | None => Some (w_proc w p (set_pc (PExit false) q), [])
          end
      | PRead =>
          match meta w with
          | None => Some (w_proc w p (set_pc (PExit false) q), [])
          | Some i =>
              match fdata w i with
              | [] => Some (w_proc w p (set_pc PLock q), [ERead p])
              | d =>
                  match dec_obj d with
                  | None => Some (w_proc w p (set_pc (PExit false) q), [ERead p])
                  | Some (s, m) =>
                      if xorb (posix q) (s =? shmVal true)%N
                      then Some (w_proc w p (set_pc (PExit false) q), [ERead p])
                      else Some (w_proc w p (set_pc PLock (set_names m q)),
                                 [ERead p])
                  end
              end
          end
      | PLock =>
          match tryLock w p with
          | Some (w', i) =>
              Some (w_proc w' p (set_pc PTrunc (set_lockIno i q)), [ELocked p])
          | None => Some (w_proc w p (set_pc (PExit false) q), [])
          end
      | PTrunc =>
          let '(w', i) := openTrunc w in
          Some (w_proc w' p (set_pc (PExit true) (set_strIno i q)), [])
      | PExit ok =>
          let w1 := if dropSeen q then w_dropf w false else w in
          let ev := if dropSeen q then [EDropGone] else [] in
          if ok then Some (w_proc w1 p (set_pc PRun q),
                           ev ++ [ERunning p (legacy q)])
          else Some (w_proc (unlockAll w1 p) p (set_pc PDead q), ev ++ [EThrow p])
      | PWrite =>
          (* the whole record reaches the file *)
          Some (w_proc (w_fdata w (updN (fdata w) (strIno q)
                          (enc_obj (posix q) (attached q)))) p
                  (set_pc (PUnlock kSuccess) q), [ESaved p])
      | PUnlock r =>
          Some (w_proc (unlockAll w p) p (set_pc (PRmUn r) q), [EReleased p])
      | PRmUn r =>
          Some (w_proc (w_bound w (unlinkAll (bound w) (legacy q) (unattached q)))
                  p (set_pc PDead q), [EShut p r])
      | _ => None
      end
  | AAttach p n =>
      (* attachShm / attachNewShm (ShmManager.cpp:339-386) *)
      let q := procs w p in
      match pc q with
      | PRun =>
          match afind (segs q) n, afind (names q) n with
          | None, Some _ =>
              match (if legacy q then None else bound w n false) with
              | Some o =>
                  Some (w_proc w p (set_segs ((n, (false, o)) :: segs q) q),
                        [EAttached p n (objv w o)])
              | None =>
                  match bound w n true with
                  | Some o =>
                      Some (w_proc w p (set_segs ((n, (true, o)) :: segs q) q),
                            [EAttached p n (objv w o)])
                  | None => Some (w, [])       (* throws *)
                  end
              end
          | _, _ => Some (w, [])               (* throws *)
          end
      | _ => None
      end
  | ACreate p n =>
      (* createShm (ShmManager.cpp:302-337).  Names of 2^31 bytes or 2^31
         segments (which thrift cannot serialize) are not modelled. *)
      match pc (procs w p) with
      | PRun =>
          if (N.of_nat (length n) <? kNameMax)%N
             && (N.of_nat (S (length (names (procs w p)))) <? kNameMax)%N then
            let '(w1, _) := doRemove w p n in
            let q := procs w1 p in
            match bound w1 n (legacy q) with
            | Some _ => Some (w1, [])          (* EEXIST: throws *)
            | None =>
                let o := nextObj w1 in
                let nm := match afind (names q) n with
                          | Some _ => names q
                          | None => names q ++ [(n, n)]
                          end in
                Some (w_proc (w_nextObj (w_objv (w_bound w1
                         (updB (bound w1) n (legacy q) (Some o)))
                         (updN (objv w1) o 0)) (S o))
                        p (set_names nm (set_segs ((n, (legacy q, o)) :: segs q) q)),
                      [ECreated p n])
            end
          else None
      | _ => None
      end
  | ARemove p n =>
      match pc (procs w p) with
      | PRun => let '(w1, b) := doRemove w p n in
                Some (w1, if b then [ERemoved p n] else [])
      | _ => None
      end
  | AWrite p n v =>
      let q := procs w p in
      match pc q with
      | PRun =>
          match afind (segs q) n with
          | Some (_, o) => Some (w_objv w (updN (objv w) o v), [EWrote p n v])
          | None => None
          end
      | _ => None
      end
  | AShut p =>
      (* writeActiveSegmentsToFile: does the file still exist?
         (ShmManager.cpp:157-168) *)
      let q := procs w p in
      match pc q with
      | PRun =>
          match meta w with
          | Some _ => Some (w_proc w p (set_pc PWrite q), [])
          | None =>
              Some (w_proc (w_bound w (unlinkAll (bound w) (legacy q) (names q)))
                      p (set_pc (PUnlock kFileDeleted) (set_names [] q)), [])
          end
      | _ => None
      end
  | AWriteCut p k =>
      (* the write stops after k bytes: kFailedWrite, or a crash follows
         (ShmManager.cpp:193-200) *)
      let q := procs w p in
      match pc q with
      | PWrite =>
          let d := enc_obj (posix q) (attached q) in
          if k <? length d then
            Some (w_proc (w_fdata w (updN (fdata w) (strIno q) (firstn k d))) p
                    (set_pc (PUnlock kFailedWrite) q), [])
          else None
      | _ => None
      end
  | ADestroy p =>
      (* ~ShmManager without shutDown: removeAllSegments (ShmManager.h:58-63) *)
      let q := procs w p in
      match pc q with
      | PRun =>
          Some (w_proc (unlockAll (w_bound w
                  (unlinkAll (bound w) (legacy q) (names q))) p) p
                  (set_pc PDead (set_names [] q)), [EReleased p])
      | _ => None
      end
  | ACrash p =>
      match pc (procs w p) with
      | PNone | PDead => None
      | _ => Some (w_proc (unlockAll w p) p (set_pc PDead (procs w p)),
                   [ECrashed p])
      end
  | AMakeDrop =>
      if dir w then Some (w_dropf w true, [EDropMade]) else None
  | ADelMeta =>
      match meta w with
      | Some _ => Some (w_meta w None, [EMetaDeleted])
      | None => None
      end
  | ADelSeg n old =>
      Some (w_bound w (unlinkId (bound w) n old), [ESegDeleted n])
  end.

(** Nothing exists yet. *)
Definition proc0 : proc := mkProc PNone false false false [] [] 0 0.
Definition world0 : world :=
  mkWorld false None (fun _ => []) (fun _ => None) 0 false (fun _ _ => None)
    (fun _ => 0) 0 (fun _ => proc0).

(** Running a schedule, collecting what is observed. *)
Fixpoint run (w : world) (l : list action) : option (world * list event) :=
  match l with
  | [] => Some (w, [])
  | a :: r =>
      match step w a with
      | Some (w1, e1) =>
          match run w1 r with
          | Some (w2, e2) => Some (w2, e1 ++ e2)
          | None => None
          end
      | None => None
      end
  end.
