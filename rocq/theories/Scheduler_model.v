(** Model of the flash request scheduler.

    /repo/cachelib/navy/scheduler/NavyRequestScheduler.{h,cpp} and
    NavyRequestDispatcher.{h,cpp}.

    One step of the model is one atomic action of the code: a critical section
    of a shard mutex, one atomic access to a dispatcher's submission queue, or
    the work of a fiber between two suspension points.  Any step that is enabled
    may happen next, so every interleaving of client threads, dispatcher threads
    and fibers is covered (fibers of one dispatcher share a thread, so the model
    allows more interleavings than the code).  A job is opaque: each execution
    begins, and ends with "done" or "reschedule" as the environment chooses; jobs
    may themselves enqueue.  Counters other than numOutstanding_, the health
    thread and memory reclamation are not modelled. *)
From Coq Require Export List Arith NArith Bool Lia Permutation.
Export ListNotations.

(** NavyRequestDispatcher.h:32-70 NavyRequest: a number (order of submission),
    the key and whether the type is JobType::Read. *)
Record req := { r_id : nat; r_key : N; r_read : bool }.

(** What an observer sees. *)
Inductive event :=
| ESubmit (r : req)   (* enqueueWithKey accepted the job *)
| EStart (r : req)    (* the job's function is entered *)
| EYield (r : req)    (* it returned Reschedule *)
| EDone (r : req).    (* it returned Done *)

(** Where a request's own fiber is: NavyRequestDispatcher.cpp:107-125. *)
Inductive tphase := TReady | TRunning | TExec | TNotified.

(** Where a dispatch loop is: NavyRequestDispatcher.cpp:57-105.
    [LPoll]: about to exchange the queue head; [LDisp l]: dispatching [l];
    [LWait r l]: waiting on the baton with [r] in hand. *)
Inductive loopst := LPoll | LDisp (l : list req) | LWait (r : req) (l : list req).

(** A dispatcher.  [d_in]: the submitted requests, newest first;
    [d_claimed]: the list ends in the sentinel instead of null. *)
Record disp := {
  d_in : list req; d_claimed : bool;
  d_loops : list loopst;
  d_tasks : list (req * tphase);
  d_out : nat; (* numOutstanding_ *)
  d_max : nat; (* maxOutstanding_ *)
  d_baton : bool
}.

(** A shard: shouldSpool_ and pendingReqs_ (NavyRequestScheduler.h:117-122). *)
Record shard := { sh_spool : bool; sh_pending : list req }.

Record sched := {
  s_shards : list shard;
  s_nread : nat; s_nwrite : nat;   (* numReaderThreads_, numWriterThreads_ *)
  s_disps : list disp;             (* readers, then writers *)
  s_stopped : bool;
  s_next : nat;                    (* number of jobs accepted so far *)
  s_log : list event               (* oldest first *)
}.

Fixpoint upd {A} (i : nat) (x : A) (l : list A) : list A :=
  match l, i with
  | [], _ => []
  | _ :: r, O => x :: r
  | y :: r, S j => y :: upd j x r
  end.
Fixpoint del {A} (i : nat) (l : list A) : list A :=
  match l, i with
  | [], _ => []
  | _ :: r, O => r
  | y :: r, S j => y :: del j r
  end.

(** NavyRequestScheduler.cpp:43-72: numShards_ = 2^power; per-dispatcher limits. *)
Definition mkDisp (mx : nat) : disp :=
  {| d_in := []; d_claimed := false; d_loops := []; d_tasks := []; d_out := 0;
     d_max := mx; d_baton := false |}.
Definition init (power nread nwrite maxReads maxWrites : nat) : sched :=
  {| s_shards := repeat {| sh_spool := false; sh_pending := [] |} (2 ^ power);
     s_nread := nread; s_nwrite := nwrite;
     s_disps := repeat (mkDisp (Nat.max maxReads nread / nread)) nread ++
                repeat (mkDisp (Nat.max maxWrites nwrite / nwrite)) nwrite;
     s_stopped := false; s_next := 0; s_log := [] |}.

(** NavyRequestScheduler.h:87-92 getDispatcher *)
Definition dispOf (s : sched) (r : req) : nat :=
  if r_read r then N.to_nat (r_key r mod N.of_nat (s_nread s))
  else s_nread s + N.to_nat (r_key r mod N.of_nat (s_nwrite s)).
Definition shardOf (s : sched) (k : N) : nat :=
  N.to_nat (k mod N.of_nat (length (s_shards s))).

Definition setShards s x := {| s_shards := x; s_nread := s_nread s; s_nwrite := s_nwrite s;
  s_disps := s_disps s; s_stopped := s_stopped s; s_next := s_next s; s_log := s_log s |}.
Definition setDisps s x := {| s_shards := s_shards s; s_nread := s_nread s; s_nwrite := s_nwrite s;
  s_disps := x; s_stopped := s_stopped s; s_next := s_next s; s_log := s_log s |}.
Definition logEv s e := {| s_shards := s_shards s; s_nread := s_nread s; s_nwrite := s_nwrite s;
  s_disps := s_disps s; s_stopped := s_stopped s; s_next := s_next s; s_log := s_log s ++ [e] |}.

(** NavyRequestDispatcher.cpp:127-151 submitReq: push on the atomic list; the
    first one starts a loop.  (The push and the start of the loop are one step;
    the loop does nothing before its own first step.) *)
Definition submitReq (d : disp) (r : req) : disp :=
  {| d_in := r :: d_in d; d_claimed := d_claimed d;
     d_loops := match d_in d with
                | [] => if d_claimed d then d_loops d else d_loops d ++ [LPoll]
                | _ => d_loops d
                end;
     d_tasks := d_tasks d; d_out := d_out d; d_max := d_max d; d_baton := d_baton d |}.

Definition submitTo (s : sched) (r : req) : option sched :=
  match nth_error (s_disps s) (dispOf s r) with
  | None => None
  | Some d => Some (setDisps s (upd (dispOf s r) (submitReq d r) (s_disps s)))
  end.

(** NavyRequestScheduler.cpp:101-123 enqueueWithKey *)
Definition enqueue (s : sched) (k : N) (rd : bool) : option sched :=
  if s_stopped s then Some s
  else
    let r := {| r_id := s_next s; r_key := k; r_read := rd |} in
    let i := shardOf s k in
    match nth_error (s_shards s) i with
    | None => None
    | Some sh =>
        let s1 := {| s_shards := s_shards s; s_nread := s_nread s; s_nwrite := s_nwrite s;
                     s_disps := s_disps s; s_stopped := s_stopped s; s_next := S (s_next s);
                     s_log := s_log s ++ [ESubmit r] |} in
        if sh_spool sh then
          Some (setShards s1 (upd i {| sh_spool := true; sh_pending := sh_pending sh ++ [r] |} (s_shards s)))
        else
          submitTo (setShards s1 (upd i {| sh_spool := true; sh_pending := sh_pending sh |} (s_shards s))) r
    end.

(** NavyRequestScheduler.cpp:126-141 notifyCompletion *)
Definition notify (s : sched) (k : N) : option sched :=
  let i := shardOf s k in
  match nth_error (s_shards s) i with
  | None => None
  | Some sh =>
      match sh_pending sh with
      | [] => Some (setShards s (upd i {| sh_spool := false; sh_pending := [] |} (s_shards s)))
      | r :: rest =>
          let s1 := setShards s (upd i {| sh_spool := sh_spool sh; sh_pending := rest |} (s_shards s)) in
          if s_stopped s then Some s1 else submitTo s1 r
      end
  end.

(** NavyRequestDispatcher.cpp:72-79: reversing the claimed list. *)
Fixpoint reverse (incoming pending : list req) : list req :=
  match incoming with
  | [] => pending
  | r :: next => reverse next (r :: pending)
  end.

(** NavyRequestDispatcher.cpp:107-109 scheduleReq: count and add a fiber. *)
Definition scheduleReq (d : disp) (r : req) (j : nat) (l : loopst) : disp :=
  {| d_in := d_in d; d_claimed := d_claimed d; d_loops := upd j l (d_loops d);
     d_tasks := d_tasks d ++ [(r, TReady)]; d_out := S (d_out d); d_max := d_max d;
     d_baton := d_baton d |}.

(** NavyRequestDispatcher.cpp:57-105: one step of the [j]-th loop.
    [None]: not enabled. *)
Definition loopStep (d : disp) (j : nat) : option disp :=
  match nth_error (d_loops d) j with
  | None => None
  | Some LPoll => (* exchange with the sentinel, reverse *)
      Some {| d_in := []; d_claimed := true; d_loops := upd j (LDisp (reverse (d_in d) [])) (d_loops d);
              d_tasks := d_tasks d; d_out := d_out d; d_max := d_max d; d_baton := d_baton d |}
  | Some (LDisp (r :: l)) =>
      if d_out d =? d_max d then (* baton_.reset(); baton_.wait() *)
        Some {| d_in := d_in d; d_claimed := d_claimed d; d_loops := upd j (LWait r l) (d_loops d);
                d_tasks := d_tasks d; d_out := d_out d; d_max := d_max d; d_baton := false |}
      else Some (scheduleReq d r j (LDisp l))
  | Some (LWait r l) =>
      if d_baton d then Some (scheduleReq d r j (LDisp l)) else None
  | Some (LDisp []) => (* compare-exchange sentinel -> null *)
      match d_in d, d_claimed d with
      | [], true =>
          Some {| d_in := []; d_claimed := false; d_loops := del j (d_loops d);
                  d_tasks := d_tasks d; d_out := d_out d; d_max := d_max d; d_baton := d_baton d |}
      | _, _ =>
          Some {| d_in := d_in d; d_claimed := d_claimed d; d_loops := upd j LPoll (d_loops d);
                  d_tasks := d_tasks d; d_out := d_out d; d_max := d_max d; d_baton := d_baton d |}
      end
  end.

Definition setTasks (d : disp) (t : list (req * tphase)) : disp :=
  {| d_in := d_in d; d_claimed := d_claimed d; d_loops := d_loops d; d_tasks := t;
     d_out := d_out d; d_max := d_max d; d_baton := d_baton d |}.

(** NavyRequestDispatcher.cpp:111-124: one step of the [j]-th request fiber of
    dispatcher [i]; [done]: what the job returns. *)
Definition taskStep (s : sched) (i : nat) (d : disp) (j : nat) (done : bool) : option sched :=
  let put x := setDisps s (upd i x (s_disps s)) in
  match nth_error (d_tasks d) j with
  | None => None
  | Some (r, TReady) => Some (logEv (put (setTasks d (upd j (r, TRunning) (d_tasks d)))) (EStart r))
  | Some (r, TRunning) =>
      if done then Some (logEv (put (setTasks d (upd j (r, TExec) (d_tasks d)))) (EDone r))
      else Some (logEv (put (setTasks d (upd j (r, TReady) (d_tasks d)))) (EYield r))
  | Some (r, TExec) => notify (put (setTasks d (upd j (r, TNotified) (d_tasks d)))) (r_key r)
  | Some (r, TNotified) =>
      Some (put {| d_in := d_in d; d_claimed := d_claimed d; d_loops := d_loops d;
                   d_tasks := del j (d_tasks d);
                   d_out := d_out d - 1; d_max := d_max d;
                   d_baton := if d_out d - 1 + 1 =? d_max d then true else d_baton d |})
  end.

(** Labels: what happens next. *)
Inductive label :=
| LEnq (k : N) (rd : bool)            (* a client (or a running job) enqueues *)
| LStop                               (* ~NavyRequestScheduler: stopped_ = true *)
| LLoop (i j : nat)                   (* dispatcher i, loop j *)
| LTask (i j : nat) (done : bool).    (* dispatcher i, request fiber j *)

Definition step (s : sched) (l : label) : option sched :=
  match l with
  | LEnq k rd => enqueue s k rd
  | LStop => Some {| s_shards := s_shards s; s_nread := s_nread s; s_nwrite := s_nwrite s;
                     s_disps := s_disps s; s_stopped := true; s_next := s_next s; s_log := s_log s |}
  | LLoop i j =>
      match nth_error (s_disps s) i with
      | None => None
      | Some d => match loopStep d j with
                  | None => None
                  | Some d' => Some (setDisps s (upd i d' (s_disps s)))
                  end
      end
  | LTask i j done =>
      match nth_error (s_disps s) i with
      | None => None
      | Some d => taskStep s i d j done
      end
  end.

Fixpoint run (s : sched) (ls : list label) : option sched :=
  match ls with
  | [] => Some s
  | l :: r => match step s l with None => None | Some s' => run s' r end
  end.

(** NavyThread.h:95-101 drain: a dispatcher is drained when no task is left on
    its thread (NavyThread.h:61-93: every loop and request fiber counts). *)
Definition drained (d : disp) : Prop := d_loops d = [] /\ d_tasks d = [].
