(** Model of persisting an object cache to files and recovering it (cachelib/object_cache/persistence/Persistence.h and the
    thrift types in persistent_data.thrift): the thread in Persistor::run that walks the eviction lists, the bounded queue,
    the persist workers with their files, the restorer and its workers.  Steps of all threads interleave freely.
    The eviction iterators hold their containers' locks until run returns (MMLru-inl.h, getEvictionIterator), so the objects
    do not change meanwhile.  A persist worker is a PeriodicWorker (C50): between two work() calls it is [WIdle], and stop()
    without a time limit returns when it is there and work() never runs again.  Not modelled: thrift's and RecordIO's byte
    formats (a record is read back as written), the failure counters and logs. *)
From Coq Require Import List ZArith Bool.
Import ListNotations.
Open Scope Z_scope.

(** An object in the cache: key, pointer, ObjectCacheItem::objectSize (size_t) and the item's expiry time (uint32_t, 0: never). *)
Record obj := mkO { okey : nat; optr : nat; osize : Z; oexp : Z }.
(** What the user's serialize callback does with an object: a chain of buffers, nullptr, or an exception. *)
Inductive sres := SBuf (chain : list (list nat)) | SNull | SThrow.
(** persistence::Item, persistent_data.thrift:25-30: objectSize and expiryTime are i32. *)
Record rec := mkR { rkey : nat; rpay : list nat; rsize : Z; rexp : Z }.

(** Conversions: to i32 (size_t and uint32_t narrowed), to uint32_t, to size_t. *)
Definition i32 (z : Z) : Z := (z + 2 ^ 31) mod 2 ^ 32 - 2 ^ 31.
Definition u32 (z : Z) : Z := z mod 2 ^ 32.
Definition u64 (z : Z) : Z := z mod 2 ^ 64.

(** Persistence.h:211-218.  length() and data() of the first buffer only: the chain is not followed. *)
Definition recOf (o : obj) (chain : list (list nat)) : rec := mkR (okey o) (hd [] chain) (i32 (osize o)) (i32 (oexp o)).
(** util::isExpired, common/Time.h:56-73 (the remembered stale time never exceeds the current time). *)
Definition expired (e now : Z) : bool := negb (e =? 0) && (e <? now).

(** A persist worker: not in work(); at queue_.read (200); has read a unit (202-219); stopped. *)
Inductive wpc := WIdle | WIn | WGot (o : obj) | WEnd.
Record worker := mkW { wat : wpc; file : list rec }.
(** Persistor::run: in the loop (238-260); waiting for the queue (264-267); stopping worker n (270-274); returned true. *)
Inductive mpc := MLoop | MWait | MStop (n : nat) | MDone.
(** the clock, what each iterator has left, the loop's position, `finished`, the queue, the workers, numExpired_ *)
Record state := mkS { clock : Z; pools : list (list obj); pos : nat; fin : nat; at_ : mpc; que : list obj; wks : list worker; nexp : nat }.
Inductive res := Ok (s : state) | Aborted.

Definition newWorker : worker := mkW WIdle [].
(** 224-236: the constructor has made [w] workers with empty files (94-104), all are started, the iterators stand at the tails. *)
Definition init (now : Z) (ps : list (list obj)) (w : nat) : state := mkS now ps (length ps) 0 MLoop [] (repeat newWorker w) 0.

Fixpoint upd {A} (l : list A) (n : nat) (v : A) : list A :=
  match l, n with [], _ => [] | _ :: l, O => v :: l | x :: l, S n => x :: upd l n v end.
Definition setW (s : state) (n : nat) (w : worker) (q : list obj) : state :=
  mkS (clock s) (pools s) (pos s) (fin s) (at_ s) q (upd (wks s) n w) (nexp s).
Definition setM (s : state) (p f : nat) (m : mpc) : state := mkS (clock s) (pools s) p f m (que s) (wks s) (nexp s).

Inductive event :=
| Tick (d : nat)               (* time passes *)
| Pass                         (* the while condition, 238-239 *)
| Itr                          (* one iterator of the for loop, 240-259 *)
| Check                        (* the queue is empty: 264 *)
| Stop                         (* worker->stop() returns: 271-272; or the loop is over: 276 *)
| WStart (n : nat)             (* work() begins *)
| WRead (n : nat)              (* queue_.read: 200 *)
| WWrite (n : nat) (ok : bool). (* 202-219; [ok]: the write to the file succeeds (else it throws) *)

Section Run.
Variable ser : nat -> sres.
(** kQueueSize_, 134 *)
Variable cap : nat.

Definition step (s : state) (e : event) : option res :=
  match e with
  | Tick d => Some (Ok (mkS (clock s + Z.of_nat d) (pools s) (pos s) (fin s) (at_ s) (que s) (wks s) (nexp s)))
  | Pass => match at_ s with
            | MLoop => if Nat.eqb (pos s) (length (pools s))
                       then Some (Ok (if Nat.ltb (fin s) (length (pools s)) then setM s 0 0 MLoop else setM s (pos s) (fin s) MWait))
                       else None
            | _ => None end
  | Itr => match at_ s, nth_error (pools s) (pos s) with
           | MLoop, Some [] => Some (Ok (setM s (S (pos s)) (S (fin s)) MLoop))
           | MLoop, Some (o :: r) =>
               if expired (oexp o) (clock s)
               then Some (Ok (mkS (clock s) (upd (pools s) (pos s) r) (S (pos s)) (fin s) MLoop (que s) (wks s) (S (nexp s))))
               else if Nat.ltb (length (que s)) cap
               then Some (Ok (mkS (clock s) (upd (pools s) (pos s) r) (S (pos s)) (fin s) MLoop (que s ++ [o]) (wks s) (nexp s)))
               else None                                        (* blockingWrite blocks: 255 *)
           | _, _ => None end
  | Check => match at_ s, que s with MWait, [] => Some (Ok (setM s (pos s) (fin s) (MStop 0))) | _, _ => None end
  | Stop => match at_ s with
            | MStop n => match nth_error (wks s) n with
                         | None => Some (Ok (setM s (pos s) (fin s) MDone))
                         | Some w => match wat w with
                                     | WIdle => Some (Ok (setM (setW s n (mkW WEnd (file w)) (que s)) (pos s) (fin s) (MStop (S n))))
                                     | _ => None end
                         end
            | _ => None end
  | WStart n => match nth_error (wks s) n with
                | Some w => match wat w with WIdle => Some (Ok (setW s n (mkW WIn (file w)) (que s))) | _ => None end
                | None => None end
  | WRead n => match nth_error (wks s) n with
               | Some w => match wat w, que s with
                           | WIn, [] => Some (Ok (setW s n (mkW WIdle (file w)) []))
                           | WIn, o :: q => Some (Ok (setW s n (mkW (WGot o) (file w)) q))
                           | _, _ => None end
               | None => None end
  | WWrite n ok => match nth_error (wks s) n with
                   | Some w => match wat w with
                               | WGot o => match ser (optr o) with
                                           | SNull => Some (Ok (setW s n (mkW WIn (file w)) (que s)))          (* 204-208 *)
                                           | SThrow => Some Aborted                                            (* out of the thread *)
                                           | SBuf c => if ok then Some (Ok (setW s n (mkW WIn (file w ++ [recOf o c])) (que s))) else Some Aborted
                                           end
                               | _ => None end
                   | None => None end
  end.
End Run.

(** ** Restoring *)
(** A call of the deserialize callback and what it inserts: key, payload, objectSize, ttlSecs; when; whether it succeeds.
    insertOrReplace allocates with [ttl] at that time (ObjectCache.h:1112-1115), so the object expires at [iat + ttl], or never. *)
Record ins := mkI { ikey : nat; ipay : list nat; isize : Z; ittl : Z; iat : Z; iok : bool }.
Definition iexp (i : ins) : Z := if ittl i =? 0 then 0 else iat i + ittl i.

(** A restore worker: not running yet; running, currentTime (324); its thread has ended (371). *)
Inductive rpc := RNot | RRun (t : Z) | REnd.
Record rworker := mkRW { rat : rpc; left : list rec; rexpd : nat }.
(** the clock, the workers, the calls made so far (newest last), numExpired_ *)
Record rstate := mkRS { rclock : Z; rws : list rworker; log : list ins; rnexp : nat }.
Inductive revent := RTick (d : nat) | RStart (n : nat) | RStep (n : nat) (ok : bool) | RFin (n : nat).

Definition rinit (now : Z) (fs : list (list rec)) : rstate := mkRS now (map (fun f => mkRW RNot f 0) fs) [] 0.
Definition setR (s : rstate) (n : nat) (w : rworker) (l : list ins) (x : nat) : rstate := mkRS (rclock s) (upd (rws s) n w) l x.

(** Persistence.h:322-357 and 360-381. *)
Definition rstep (s : rstate) (e : revent) : option rstate :=
  match e with
  | RTick d => Some (mkRS (rclock s + Z.of_nat d) (rws s) (log s) (rnexp s))
  | RStart n => match nth_error (rws s) n with
                | Some w => match rat w with RNot => Some (setR s n (mkRW (RRun (rclock s)) (left w) (rexpd w)) (log s) (rnexp s)) | _ => None end
                | None => None end
  | RStep n ok => match nth_error (rws s) n with
                  | Some w => match rat w, left w with
                              | RRun t, r :: rest =>
                                  let e := u32 (rexp r) in
                                  if (0 <? e) && (e <=? t)
                                  then Some (setR s n (mkRW (RRun t) rest (S (rexpd w))) (log s) (rnexp s))
                                  else let ttl := if e =? 0 then 0 else u32 (e - t) in
                                       Some (setR s n (mkRW (RRun t) rest (rexpd w))
                                               (log s ++ [mkI (rkey r) (rpay r) (u64 (rsize r)) (u32 (i32 ttl)) (rclock s) ok]) (rnexp s))
                              | _, _ => None end
                  | None => None end
  | RFin n => match nth_error (rws s) n with
              | Some w => match rat w, left w with
                          | RRun t, [] => Some (setR s n (mkRW REnd [] (rexpd w)) (log s) (rnexp s + rexpd w)%nat)
                          | _, _ => None end
              | None => None end
  end.

(** ** The files *)
(** The base file ([None]: there is none; [Some None]: empty; [Some (Some n)]: threadCount n), and the workers' files. *)
Record disk := mkD { base : option (option nat); files : nat -> option (list rec) }.
(** The Persistor constructor, 79-114: truncates the base file, writes threadCount, truncates the workers' files one by one;
    [k] of these steps done. *)
Definition opening (d : disk) (n k : nat) : disk :=
  mkD (match k with O => base d | S O => Some None | _ => Some (Some n) end)
      (fun i => if Nat.ltb (S (S i)) k && Nat.ltb i n then Some [] else files d i).
(** The disk while run() goes on or after it. *)
Definition running (d : disk) (s : state) : disk :=
  mkD (Some (Some (length (wks s)))) (fun i => match nth_error (wks s) i with Some w => Some (file w) | None => files d i end).
Fixpoint allSome {A} (l : list (option A)) : option (list A) :=
  match l with [] => Some [] | None :: _ => None | Some x :: l => match allSome l with Some r => Some (x :: r) | None => None end end.
(** The Restorer constructor, 280-319: the files to restore from; [None]: recover() returns false. *)
Definition opened (d : disk) : option (list (list rec)) :=
  match base d with None => None | Some None => Some [] | Some (Some n) => allSome (map (files d) (seq 0 n)) end.
