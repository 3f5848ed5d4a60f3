(** Model of the periodic worker (cachelib/common/PeriodicWorker.h, PeriodicWorker.cpp): the class behind the reaper, the
    rebalancer, the resizers and the other background threads.  Any number of threads call start, stop and wakeUp on one
    object, while the worker thread runs loop().  A step is a section of the code under lock_, or the code between two
    such sections.  Time is not modelled: a wait with a time limit may time out at any moment, so every interval and
    timeout is covered; condition-variable waits may also end spuriously.  preWork() runs with lock_ held and is a
    section of its own.  Exceptions from work() (they end the process) and the thread name are not modelled. *)
From Coq Require Import List Arith Bool.
Import ListNotations.

(** The worker thread in loop(), PeriodicWorker.cpp:45-70.
    TNew: created, has not got lock_ (49); TPre: in preWork() with lock_ held (50); TWork: in work() (54);
    TLock: work() is over, wants lock_ (57); TSleep n: in wait_until (58), [n]: a notify_one has chosen it;
    TNote: past 66, about to notify (68); TDone: returned. *)
Inductive tpc := TNew | TPre | TWork | TLock | TSleep (n : bool) | TNote | TDone.

(** A calling thread.  CStart, CStop: wants lock_ in start (80) or stop (102), [f]: stop waits for ever (timeout 0);
    CWait: in wait_until of stop (125); CJoin t: at join, 143; CStartR, CStopR: about to return;
    CWake: wants lock_ in wakeUp (PeriodicWorker.h:90), CWakeN: at its notify_one (93). *)
Inductive cpc := CIdle | CStart | CStartR (b : bool) | CStop (f : bool) | CWait (f n : bool) | CJoin (t : nat) | CStopR (b : bool)
               | CWake | CWakeN | CWakeR.

(** shouldStopWork_ (PeriodicWorker.h:126), wakeUp_ (130), workerThread_ (118; [None]: not joinable, [Some t]: thread t),
    whether lock_ is held across steps (only by preWork); the threads created so far, the callers. *)
Record state := mkS { flag : bool; wake : bool; thr : option nat; held : bool; next : nat; ths : nat -> tpc; nc : nat; ctl : nat -> cpc }.

(** A new object, PeriodicWorker.h:118-136, with [n] threads that may call. *)
Definition init (n : nat) : state := mkS false false None false 0 (fun _ => TDone) n (fun _ => CIdle).

Definition upd {A} (f : nat -> A) (i : nat) (v : A) : nat -> A := fun j => if j =? i then v else f j.
Definition setT (s : state) (t : nat) (p : tpc) : state := mkS (flag s) (wake s) (thr s) (held s) (next s) (upd (ths s) t p) (nc s) (ctl s).
Definition setC (s : state) (c : nat) (p : cpc) : state := mkS (flag s) (wake s) (thr s) (held s) (next s) (ths s) (nc s) (upd (ctl s) c p).
Definition setFlag (s : state) (b : bool) : state := mkS b (wake s) (thr s) (held s) (next s) (ths s) (nc s) (ctl s).
Definition setWake (s : state) (b : bool) : state := mkS (flag s) b (thr s) (held s) (next s) (ths s) (nc s) (ctl s).
Definition setThr (s : state) (o : option nat) : state := mkS (flag s) (wake s) o (held s) (next s) (ths s) (nc s) (ctl s).
Definition setHeld (s : state) (b : bool) : state := mkS (flag s) (wake s) (thr s) b (next s) (ths s) (nc s) (ctl s).

(** Who a notify_one may choose: a thread blocked on cond_ that has not been chosen yet. *)
Inductive who := Nobody | Thread (t : nat) | Caller (c : nat).
Definition blockedT (p : tpc) : bool := match p with TSleep false => true | _ => false end.
Definition blockedC (p : cpc) : bool := match p with CWait _ false => true | _ => false end.
(** cond_.notify_one(): wakes one of the blocked threads, any one; it has no effect only if there is none. *)
Definition notify (s : state) (w : who) : option state :=
  match w with
  | Nobody => if existsb (fun t => blockedT (ths s t)) (seq 0 (next s)) || existsb (fun c => blockedC (ctl s c)) (seq 0 (nc s)) then None else Some s
  | Thread t => if (t <? next s) && blockedT (ths s t) then Some (setT s t (TSleep true)) else None
  | Caller c => match ctl s c with CWait f false => if c <? nc s then Some (setC s c (CWait f true)) else None | _ => None end
  end.

(** Why a wait ended; Straight: it did not block, its predicate held at once. *)
Inductive cause := Straight | Notified | Spurious | TimedOut.

Inductive event :=
| StartCall (c : nat) (zero : bool)      (* start(interval); zero: interval 0 *)
| Launch (c : nat)                       (* start makes a thread *)
| StartOld (c : nat)                     (* start finds one *)
| StartRet (c : nat) (b : bool)
| StopCall (c : nat) (f : bool)          (* stop(timeout), f: timeout 0 *)
| StopDo (c : nat) (w : who)             (* its first section under lock_ *)
| StopAwake (c : nat) (k : cause)        (* a wake-up in its wait, and what follows under lock_ *)
| StopJoin (c : nat)
| StopRet (c : nat) (b : bool)
| WakeCall (c : nat) | WakeSet (c : nat) | WakeNote (c : nat) (w : who) | WakeRet (c : nat)
| Enter (t : nat)                        (* loop() gets lock_, preWork begins *)
| Begin (t : nat) (k : cause)            (* work() begins; k: how the wait before it ended *)
| End (t : nat)                          (* work() returns *)
| Sleep (t : nat)                        (* the worker blocks in wait_until *)
| Resleep (t : nat)                      (* it was woken and blocks again *)
| Exit (t : nat) (k : cause)             (* leaves the loop: 65-66 *)
| Note (t : nat) (w : who).              (* 68 *)

(** Whether the worker's wait_until (58, predicate 47) can end with cause [k]. *)
Definition waitOver (s : state) (p : tpc) (k : cause) : bool :=
  match p, k with
  | TLock, Straight => wake s || flag s
  | TSleep n, Notified => n && (wake s || flag s)
  | TSleep _, Spurious => wake s || flag s
  | TSleep _, TimedOut => true
  | _, _ => false
  end.

(** PeriodicWorker.cpp:138-140: the stopper takes the thread and lets go of lock_. *)
Definition take (s : state) (c : nat) : option state :=
  match thr s with Some t => Some (setC (setThr s None) c (CJoin t)) | None => Some (setC s c (CStopR true)) end.

Definition step (s : state) (e : event) : option state :=
  match e with
  (* PeriodicWorker.cpp:72-76 *)
  | StartCall c zero => match ctl s c with CIdle => if c <? nc s then Some (setC s c (if zero then CStartR false else CStart)) else None | _ => None end
  (* 80, 85-93 *)
  | Launch c => match ctl s c, thr s, held s with
                | CStart, None, false => let t := next s in
                    Some (setC (mkS (flag s) (wake s) (Some t) false (S t) (upd (ths s) t TNew) (nc s) (ctl s)) c (CStartR true))
                | _, _, _ => None end
  (* 80-83 *)
  | StartOld c => match ctl s c, thr s, held s with CStart, Some _, false => Some (setC s c (CStartR true)) | _, _, _ => None end
  | StartRet c b => match ctl s c with CStartR b' => if Bool.eqb b b' then Some (setC s c CIdle) else None | _ => None end
  | StopCall c f => match ctl s c with CIdle => if c <? nc s then Some (setC s c (CStop f)) else None | _ => None end
  (* 102-125: the first check, the flag, notify_one, and the wait's first check of its predicate (it is false) *)
  | StopDo c w => match ctl s c, held s with
                  | CStop f, false =>
                      if flag s then Some (setC s c (CStopR false))
                      else match thr s with
                           | None => Some (setC s c (CStopR true))
                           | Some _ => match notify (setFlag s true) w with Some s1 => Some (setC s1 c (CWait f false)) | None => None end
                           end
                  | _, _ => None end
  (* 124-140 *)
  | StopAwake c k => match ctl s c, held s with
                     | CWait f n, false =>
                         match k with
                         | Straight => None
                         | Notified => if n then (if flag s then Some (setC s c (CWait f false)) else take s c) else None
                         | Spurious => if flag s then Some (setC s c (CWait f false)) else take s c
                         | TimedOut => if f then None else if flag s then Some (setC (setFlag s false) c (CStopR false)) else take s c
                         end
                     | _, _ => None end
  (* 142-146 *)
  | StopJoin c => match ctl s c with CJoin t => match ths s t with TDone => Some (setC s c (CStopR true)) | _ => None end | _ => None end
  | StopRet c b => match ctl s c with CStopR b' => if Bool.eqb b b' then Some (setC s c CIdle) else None | _ => None end
  (* PeriodicWorker.h:88-94 *)
  | WakeCall c => match ctl s c with CIdle => if c <? nc s then Some (setC s c CWake) else None | _ => None end
  | WakeSet c => match ctl s c, held s with CWake, false => Some (setC (setWake s true) c CWakeN) | _, _ => None end
  | WakeNote c w => match ctl s c with CWakeN => match notify s w with Some s1 => Some (setC s1 c CWakeR) | None => None end | _ => None end
  | WakeRet c => match ctl s c with CWakeR => Some (setC s c CIdle) | _ => None end
  (* PeriodicWorker.cpp:49-50 *)
  | Enter t => match ths s t, held s with TNew, false => Some (setHeld (setT s t TPre) true) | _, _ => None end
  (* 52-54: first time; or 58-59 and then 52-54 *)
  | Begin t k => match ths s t with
                 | TPre => match k with Straight => if flag s then None else Some (setHeld (setT s t TWork) false) | _ => None end
                 | p => if waitOver s p k && negb (held s) && negb (flag s) then Some (setWake (setT s t TWork) false) else None end
  (* 54-57 *)
  | End t => match ths s t with TWork => Some (setT s t TLock) | _ => None end
  | Sleep t => match ths s t, held s with TLock, false => if wake s || flag s then None else Some (setT s t (TSleep false)) | _, _ => None end
  | Resleep t => match ths s t, held s with TSleep _, false => if wake s || flag s then None else Some (setT s t (TSleep false)) | _, _ => None end
  (* 52, 65-66 *)
  | Exit t k => match ths s t with
                | TPre => match k with Straight => if flag s then Some (setHeld (setFlag (setT s t TNote) false) false) else None | _ => None end
                | p => if waitOver s p k && negb (held s) && flag s then Some (setWake (setFlag (setT s t TNote) false) false) else None end
  | Note t w => match ths s t with TNote => match notify s w with Some s1 => Some (setT s1 t TDone) | None => None end | _ => None end
  end.
