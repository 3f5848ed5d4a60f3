(** Model of a compact cache that is resized while it is in use
    (/repo/cachelib/compact_cache/CCache.h, /repo/cachelib/common/Cohort.h,
    /repo/cachelib/allocator/CCacheAllocator.h, .cpp).

    One key is followed; the entries of other keys show only in that an entry may be evicted at any time.  Any
    number of calls to get, set and del for the key run, each step one shared access: the word of the cohorts,
    numChunks_, pendingNumChunks_, a bucket under its lock.  A set writes the number of its call (the time it began)
    for its value.  The buckets themselves are C36.  Not modelled: promotion in the LRU of a bucket, callbacks,
    statistics, errors of a bucket (an entry that is too large), chunks_ kept in two vectors (a chunk is found and numChunks read at
    once), the packing of the two counts into a word (fewer than 2^31 calls at a time). *)
From Coq Require Import List Arith Bool Lia.
Import ListNotations.

Inductive kind := Get | Set_ | Del.
(** A pointer to the bucket of the key in a chunk: the number of the chunk and how often a chunk of that number has
    been released so far. *)
Definition ptr := (nat * nat)%type.

(** Where a call is (callBucketFn, CCache.h:955-1038; incrActiveReqs, Cohort.h:114-134). *)
Inductive pcT :=
| PLoad                       (* load the cohort (116) *)
| PAdd (t : bool)             (* fetch_add (113-117) *)
| PUndo (t : bool)            (* the cohort was switched: fetch_sub (132) *)
| PNum                        (* tableFindBucket: load numChunks_ (969, 1055) *)
| PApply (p : ptr)            (* the bucket under its lock (980-998) *)
| PPend                       (* load pendingNumChunks_ (1027, 1066) *)
| PNum2 (n : nat)             (* load numChunks_ again (1070-1074) *)
| PDbl (p : ptr)              (* the second bucket (1029-1034) *)
| PDrop (ok : bool)           (* the token goes: decrActiveReqs (144-146) *)
| PDone.
Record op := mkOp {
  kd : kind; st : nat;        (* when the call began *)
  pc : pcT;
  sd : bool;                  (* the cohort of its token *)
  te : nat;                   (* seen: how many switches there had been when it got the token *)
  ap : list nat               (* seen: the chunks it has written to *)
}.

(** Where a resize is (resize, CCache.h:792-865; switchCohorts, Cohort.h:84-104). *)
Inductive phase :=
| APend | ASw1x | ASw1w (old : bool) | ACopy (n : nat) | ANum | ASw2x | ASw2w (old : bool)
| AUnp | ASw3x | ASw3w (old : bool) | ADel (n : nat) | AFree
| ZNum | ZSwx | ZSww (old : bool).

Record state := mkS {
  now : nat;
  num : nat;                  (* numChunks_ *)
  pend : nat;                 (* pendingNumChunks_ *)
  na : nat;                   (* the chunks the allocator has *)
  rel : nat -> nat;           (* how often a chunk of this number has been released *)
  conf : nat;                 (* configured size of the pool, in chunks *)
  ent : nat -> option nat;    (* the entry of the key in a chunk *)
  act : bool; cnt : bool -> nat;   (* cohortVal_ *)
  xors : nat;                 (* seen: how many switches there were *)
  ops : list op;
  calls : list (nat * nat);   (* resize: oldNumChunks and numChunksWanted read, resizeLock_ not yet held *)
  cur : option (nat * nat * phase);  (* the resize that holds resizeLock_: oldNumChunks, newNumChunks *)
  t1 : nat; t2 : nat;         (* seen: when pendingNumChunks_ and numChunks_ were set *)
  done : list (nat * nat);    (* seen: sets and dels that have returned (not with a timeout): begin and end *)
  gets : list (nat * option nat)   (* seen: gets that have read: begin and what was found *)
}.

Definition upd {A} (f : nat -> A) (k : nat) (v : A) : nat -> A := fun x => if x =? k then v else f x.
Definition updB (f : bool -> nat) (k : bool) (v : nat) : bool -> nat := fun x => if Bool.eqb x k then v else f x.
Fixpoint setNth {A} (i : nat) (v : A) (l : list A) : list A :=
  match l, i with [], _ => [] | _ :: l, O => v :: l | a :: l, S i => a :: setNth i v l end.

Section Model.
(** furcHash (tableFindChunk, CCache.h:1041-1051): the chunk of the key when there are n; 0 for no chunk. *)
Variable home : nat -> nat.

Inductive res := Bad | Ok (s : state).

Definition withOp (s : state) (i : nat) (o : op) : state :=
  mkS (now s) (num s) (pend s) (na s) (rel s) (conf s) (ent s) (act s) (cnt s) (xors s) (setNth i o (ops s)) (calls s) (cur s) (t1 s) (t2 s) (done s) (gets s).
Definition withCnt (s : state) (b : bool) (v : nat) : state :=
  mkS (now s) (num s) (pend s) (na s) (rel s) (conf s) (ent s) (act s) (updB (cnt s) b v) (xors s) (ops s) (calls s) (cur s) (t1 s) (t2 s) (done s) (gets s).
Definition withEnt (s : state) (c : nat) (v : option nat) : state :=
  mkS (now s) (num s) (pend s) (na s) (rel s) (conf s) (upd (ent s) c v) (act s) (cnt s) (xors s) (ops s) (calls s) (cur s) (t1 s) (t2 s) (done s) (gets s).
Definition withCur (s : state) (c : option (nat * nat * phase)) : state :=
  mkS (now s) (num s) (pend s) (na s) (rel s) (conf s) (ent s) (act s) (cnt s) (xors s) (ops s) (calls s) c (t1 s) (t2 s) (done s) (gets s).
Definition withDone (s : state) (d : list (nat * nat)) (g : list (nat * option nat)) : state :=
  mkS (now s) (num s) (pend s) (na s) (rel s) (conf s) (ent s) (act s) (cnt s) (xors s) (ops s) (calls s) (cur s) (t1 s) (t2 s) d g.
Definition tick (s : state) : state :=
  mkS (S (now s)) (num s) (pend s) (na s) (rel s) (conf s) (ent s) (act s) (cnt s) (xors s) (ops s) (calls s) (cur s) (t1 s) (t2 s) (done s) (gets s).

Definition at_ (o : op) (p : pcT) : op := mkOp (kd o) (st o) p (sd o) (te o) (ap o).
Definition wrote (o : op) (p : pcT) (c : nat) : op := mkOp (kd o) (st o) p (sd o) (te o) (c :: ap o).

(** getChunk (CCacheAllocator.h:64-71): an exception if there is no such chunk. *)
Definition ptrTo (s : state) (c : nat) : option ptr := if c <? na s then Some (c, rel s c) else None.
(** The bucket function: bad if the chunk has been released meanwhile. *)
Definition live (s : state) (p : ptr) : bool := snd p =? rel s (fst p).
Definition put (s : state) (o : op) (c : nat) : state :=
  withEnt s c (match kd o with Set_ => Some (st o) | _ => None end).

(** One step of call i.  [b]: it does not get the lock in time (timeout). *)
Definition opStep (s : state) (i : nat) (o : op) (b : bool) : option res :=
  match pc o with
  | PLoad => Some (Ok (withOp s i (at_ o (PAdd (act s)))))
  | PAdd t =>
    let s1 := withCnt s t (S (cnt s t)) in
    if Bool.eqb (act s) t then Some (Ok (withOp s1 i (mkOp (kd o) (st o) PNum t (xors s) (ap o))))
    else Some (Ok (withOp s1 i (at_ o (PUndo t))))
  | PUndo t => Some (Ok (withOp (withCnt s t (cnt s t - 1)) i (at_ o PLoad)))
  | PNum =>
    match ptrTo s (home (num s)) with
    | Some p => Some (Ok (withOp s i (at_ o (PApply p))))
    | None => Some (Ok (withOp s i (at_ o (PDrop false))))       (* exception *)
    end
  | PApply p =>
    if b then Some (Ok (withOp s i (at_ o (PDrop false))))
    else if negb (live s p) then Some Bad
    else match kd o with
         | Get => Some (Ok (withOp (withDone s (done s) ((st o, ent s (fst p)) :: gets s)) i (at_ o (PDrop true))))
         | _ => Some (Ok (withOp (put s o (fst p)) i (wrote o PPend (fst p))))
         end
  | PPend =>
    if pend s =? 0 then Some (Ok (withOp s i (at_ o (PDrop true))))
    else Some (Ok (withOp s i (at_ o (PNum2 (pend s)))))
  | PNum2 n =>
    match ptrTo s (home (num s)), ptrTo s (home n) with
    | Some p, Some q => if fst p =? fst q then Some (Ok (withOp s i (at_ o (PDrop true))))
                        else Some (Ok (withOp s i (at_ o (PDbl q))))
    | _, _ => Some (Ok (withOp s i (at_ o (PDrop false))))
    end
  | PDbl p =>
    if negb (live s p) then Some Bad
    else Some (Ok (withOp (put s o (fst p)) i (wrote o (PDrop true) (fst p))))
  | PDrop ok =>
    let s1 := withCnt s (sd o) (cnt s (sd o) - 1) in
    let s2 := withDone s1 (if ok && (match kd o with Get => false | _ => true end) then (st o, now s) :: done s else done s) (gets s) in
    Some (Ok (withOp s2 i (at_ o PDone)))
  | PDone => None
  end.

(** CCacheAllocator::resize (CCacheAllocator.cpp:50-90).  [x]: how many chunks it has when it cannot get all.  New chunks are zeroed. *)
Definition allocTo (s : state) (x : nat) : nat := if conf s <? na s then conf s else Nat.min (conf s) (Nat.max (na s) x).
Definition alloc (s : state) (n : nat) : state :=
  mkS (now s) (num s) (pend s) n (fun c => if (n <=? c) && (c <? na s) then S (rel s c) else rel s c) (conf s)
      (fun c => if (na s <=? c) && (c <? n) then None else ent s c)
      (act s) (cnt s) (xors s) (ops s) (calls s) (cur s) (t1 s) (t2 s) (done s) (gets s).

(** The part of resize under the lock, up to the first switch (800-827). *)
Definition lockStep (s : state) (o w x : nat) : state :=
  let s1 := if o <? w then alloc s (allocTo s x) else s in
  let m := if o <? w then allocTo s x else w in
  if m =? o then s1
  else if (m =? 0) || (o =? 0) then withCur s1 (Some (o, m, ZNum)) else withCur s1 (Some (o, m, APend)).

Definition doXor (s : state) (c : option (nat * nat * phase)) : state :=
  mkS (now s) (num s) (pend s) (na s) (rel s) (conf s) (ent s) (negb (act s)) (cnt s) (S (xors s)) (ops s) (calls s) c (t1 s) (t2 s) (done s) (gets s).
Definition setNum (s : state) (m : nat) (c : option (nat * nat * phase)) : state :=
  mkS (now s) m (pend s) (na s) (rel s) (conf s) (ent s) (act s) (cnt s) (xors s) (ops s) (calls s) c (t1 s) (now s) (done s) (gets s).
Definition setPend (s : state) (m : nat) (c : option (nat * nat * phase)) (tt : nat) : state :=
  mkS (now s) (num s) m (na s) (rel s) (conf s) (ent s) (act s) (cnt s) (xors s) (ops s) (calls s) c tt (t2 s) (done s) (gets s).

(** A step of the resize.  [b]: an entry is copied (it is valid and not too many have been: 708-755).  [x]: as above. *)
Definition resStep (s : state) (o m : nat) (ph : phase) (b : bool) (x : nat) : option res :=
  let go p := Some (o, m, p) in
  match ph with
  | APend => Some (Ok (setPend s m (go ASw1x) (now s)))
  | ASw1x => Some (Ok (doXor s (go (ASw1w (act s)))))
  | ASw1w old => if cnt s old =? 0 then Some (Ok (withCur s (go (ACopy 0)))) else Some (Ok s)
  | ACopy n =>                       (* tableRehash, COPY *)
    if n <? o then
      if n <? na s then
        match ent s n with
        | None => Some (Ok (withCur s (go (ACopy (S n)))))
        | Some v =>
          if home m <? na s then
            if home m =? n then Some (Ok (withCur s (go (ACopy (S n)))))
            else Some (Ok (withCur (if b then withEnt s (home m) (Some v) else s) (go (ACopy (S n)))))
          else Some (Ok (withCur s None))                     (* exception *)
        end
      else Some (Ok (withCur s None))
    else Some (Ok (withCur s (go ANum)))
  | ANum => Some (Ok (setNum s m (go ASw2x)))
  | ASw2x => Some (Ok (doXor s (go (ASw2w (act s)))))
  | ASw2w old => if cnt s old =? 0 then Some (Ok (withCur s (go AUnp))) else Some (Ok s)
  | AUnp => Some (Ok (setPend s 0 (go ASw3x) (t1 s)))
  | ASw3x => Some (Ok (doXor s (go (ASw3w (act s)))))
  | ASw3w old => if cnt s old =? 0 then Some (Ok (withCur s (go (ADel 0)))) else Some (Ok s)
  | ADel n =>                        (* tableRehash, DELETE *)
    if n <? o then
      if n <? na s then
        match ent s n with
        | None => Some (Ok (withCur s (go (ADel (S n)))))
        | Some v =>
          if home m <? na s then
            if home m =? n then Some (Ok (withCur s (go (ADel (S n)))))
            else Some (Ok (withCur (withEnt s n None) (go (ADel (S n)))))
          else Some (Ok (withCur s None))
        end
      else Some (Ok (withCur s None))
    else Some (Ok (withCur s (go AFree)))
  | AFree => Some (Ok (withCur (if m <? o then alloc s (allocTo s x) else s) None))
  | ZNum => Some (Ok (setNum s m (go ZSwx)))
  | ZSwx => Some (Ok (doXor s (go (ZSww (act s)))))
  | ZSww old => if cnt s old =? 0 then Some (Ok (withCur s (go AFree))) else Some (Ok s)
  end.

Inductive event :=
| EStart (k : kind)                 (* a call begins *)
| EStep (i : nat) (timeout : bool)  (* a call goes on *)
| EEvict (c : nat)                  (* other keys push the entry out *)
| EConf (n : nat)                   (* the pool is resized *)
| ERead                             (* resize is called (793-800) *)
| ELock (j x : nat)                 (* the j-th of the waiting resizes takes resizeLock_ *)
| ERes (b : bool) (x : nat).        (* the resize goes on *)

Definition step0 (s : state) (e : event) : option res :=
  match e with
  | EStart k =>
    if num s =? 0 then None         (* 961-963 *)
    else Some (Ok (mkS (now s) (num s) (pend s) (na s) (rel s) (conf s) (ent s) (act s) (cnt s) (xors s)
                       (ops s ++ [mkOp k (now s) PLoad false 0 []]) (calls s) (cur s) (t1 s) (t2 s) (done s) (gets s)))
  | EStep i b => match nth_error (ops s) i with Some o => opStep s i o b | None => None end
  | EEvict c => Some (Ok (withEnt s c None))
  | EConf n => Some (Ok (mkS (now s) (num s) (pend s) (na s) (rel s) n (ent s) (act s) (cnt s) (xors s) (ops s) (calls s) (cur s) (t1 s) (t2 s) (done s) (gets s)))
  | ERead =>
    if num s =? conf s then None
    else Some (Ok (mkS (now s) (num s) (pend s) (na s) (rel s) (conf s) (ent s) (act s) (cnt s) (xors s) (ops s) (calls s ++ [(num s, conf s)]) (cur s) (t1 s) (t2 s) (done s) (gets s)))
  | ELock j x =>
    match cur s, nth_error (calls s) j with
    | None, Some (o, w) =>
      let s1 := mkS (now s) (num s) (pend s) (na s) (rel s) (conf s) (ent s) (act s) (cnt s) (xors s) (ops s) (firstn j (calls s) ++ skipn (S j) (calls s)) (cur s) (t1 s) (t2 s) (done s) (gets s) in
      Some (Ok (lockStep s1 o w x))
    | _, _ => None
    end
  | ERes b x => match cur s with Some (o, m, ph) => resStep s o m ph b x | None => None end
  end.
Definition step (s : state) (e : event) : option res :=
  match step0 s e with Some (Ok s') => Some (Ok (tick s')) | r => r end.
End Model.

(** A new cache of n chunks. *)
Definition init (n : nat) : state :=
  mkS 1 n 0 n (fun _ => 0) n (fun _ => None) false (fun _ => 0) 0 [] [] None 0 0 [] [].
