(** * MMLru: the LRU eviction container with an optional insertion point.
    Models /repo/cachelib/allocator/MMLru.h on top of the pointer-level DList model.
    Each public call runs its body under lruMutex_, so a concurrent execution is a sequence of
    these critical sections; recordAccess' unlocked pre-check is a separate step
    ([accessCheck]) and its critical section ([accessLocked]) may run on a node that has
    left the container in the meantime.  Item flags are modelled as separate maps (their
    independence inside the word is C01).  Times are uint32 ([wrap32]).
    Not modelled: reconfigureLocked's recomputation of the refresh time (the refresh time is
    any value, changed by [setRefresh]), statistics, saveState. *)
From Verif Require Import Bytes DList_model.

Record lru := mkLru {
  hp : heap;                (* hooks *)
  dl : dlist;               (* lru_ *)
  inMM : node -> bool;      (* isInMMContainer *)
  tailm : node -> bool;     (* kMMFlag0 *)
  accm : node -> bool;      (* kMMFlag1 *)
  utime : node -> N;        (* updateTime_ *)
  ip : ptr;                 (* insertionPoint_ *)
  tailSize : nat;
  ipSpec : nat;             (* config_.lruInsertionPointSpec *)
  refresh : N;              (* lruRefreshTime_ *)
  updOnWrite : bool;
  updOnRead : bool
}.

Definition updb (f : node -> bool) (n : node) (v : bool) : node -> bool :=
  fun x => if x =? n then v else f x.
Definition updt (f : node -> N) (n : node) (v : N) : node -> N :=
  fun x => if x =? n then v else f x.

Definition setList (s : lru) (p : heap * dlist) : lru :=
  {| hp := fst p; dl := snd p; inMM := inMM s; tailm := tailm s; accm := accm s; utime := utime s;
     ip := ip s; tailSize := tailSize s; ipSpec := ipSpec s; refresh := refresh s;
     updOnWrite := updOnWrite s; updOnRead := updOnRead s |}.
Definition setInMM (s : lru) (n : node) (b : bool) : lru :=
  {| hp := hp s; dl := dl s; inMM := updb (inMM s) n b; tailm := tailm s; accm := accm s; utime := utime s;
     ip := ip s; tailSize := tailSize s; ipSpec := ipSpec s; refresh := refresh s;
     updOnWrite := updOnWrite s; updOnRead := updOnRead s |}.
Definition setAcc (s : lru) (n : node) (b : bool) : lru :=
  {| hp := hp s; dl := dl s; inMM := inMM s; tailm := tailm s; accm := updb (accm s) n b; utime := utime s;
     ip := ip s; tailSize := tailSize s; ipSpec := ipSpec s; refresh := refresh s;
     updOnWrite := updOnWrite s; updOnRead := updOnRead s |}.
Definition setTime (s : lru) (n : node) (t : N) : lru :=
  {| hp := hp s; dl := dl s; inMM := inMM s; tailm := tailm s; accm := accm s; utime := updt (utime s) n t;
     ip := ip s; tailSize := tailSize s; ipSpec := ipSpec s; refresh := refresh s;
     updOnWrite := updOnWrite s; updOnRead := updOnRead s |}.
(** The three fields of the insertion point machinery. *)
Definition setIp (s : lru) (m : node -> bool) (p : ptr) (k : nat) : lru :=
  {| hp := hp s; dl := dl s; inMM := inMM s; tailm := m; accm := accm s; utime := utime s;
     ip := p; tailSize := k; ipSpec := ipSpec s; refresh := refresh s;
     updOnWrite := updOnWrite s; updOnRead := updOnRead s |}.

(** MMLru.h:254-264: an empty container. *)
Definition initLru (k : nat) (r : N) (w rd : bool) : lru :=
  {| hp := {| nxt := fun _ => None; prv := fun _ => None |}; dl := emptyDL; inMM := fun _ => false;
     tailm := fun _ => false; accm := fun _ => false; utime := fun _ => 0%N; ip := None; tailSize := 0;
     ipSpec := k; refresh := r; updOnWrite := w; updOnRead := rd |}.

Definition ptr_eqb (a b : ptr) : bool :=
  match a, b with Some x, Some y => x =? y | None, None => true | _, _ => false end.

(** MMLru.h:687-691: grow the tail towards the head. *)
Fixpoint growLoop (fuel : nat) (h : heap) (d : dlist) (e : nat) (m : node -> bool) (c : node) (k : nat)
  : option ((node -> bool) * node * nat) :=
  if (k <? e) && negb (isPtr (head d) c) then
    match fuel with
    | O => None
    | S f =>
      match prv h c with
      | None => None (* null dereference *)
      | Some p => growLoop f h d e (updb m p true) p (S k)
      end
    end
  else Some (m, c, k).
(** MMLru.h:693-697: shrink it towards the tail. *)
Fixpoint shrinkLoop (fuel : nat) (h : heap) (d : dlist) (e : nat) (m : node -> bool) (c : node) (k : nat)
  : option ((node -> bool) * node * nat) :=
  if (e <? k) && negb (isPtr (tail d) c) then
    match fuel with
    | O => None
    | S f =>
      match nxt h c with
      | None => None (* null dereference at the next turn *)
      | Some p => shrinkLoop f h d e (updb m c false) p (k - 1)
      end
    end
  else Some (m, c, k).

(** MMLru.h:660-700 updateLruInsertionPoint. *)
Definition updateIp (s : lru) : option lru :=
  if ipSpec s =? 0 then Some s
  else
    let s1 := match ip s with
              | Some _ => s
              | None => match tail (dl s) with
                        | None => setIp s (tailm s) None 0
                        | Some t => setIp s (updb (tailm s) t true) (Some t) 1
                        end
              end in
    if size (dl s1) <=? 1 then Some s1
    else
      let e := Nat.shiftr (size (dl s1)) (ipSpec s1) in
      match ip s1 with
      | None => None
      | Some c =>
        let* (m1, c1, k1) := growLoop (S (size (dl s1))) (hp s1) (dl s1) e (tailm s1) c (tailSize s1) in
        let* (m2, c2, k2) := shrinkLoop (S (size (dl s1))) (hp s1) (dl s1) e m1 c1 k1 in
        Some (setIp s1 m2 (Some c2) k2)
      end.

(** MMLru.h:751-763 ensureNotInsertionPoint. *)
Definition ensureNotIp (s : lru) (n : node) : lru :=
  if isPtr (ip s) n then
    match prv (hp s) n with
    | Some p => setIp s (updb (tailm s) p true) (Some p) (S (tailSize s))
    | None => setIp s (tailm s) None (tailSize s)
    end
  else s.

(** MMLru.h:702-722 add at time [now]. *)
Definition add (s : lru) (n : node) (now : N) : option (lru * bool) :=
  if inMM s n then Some (s, false)
  else
    let s1 := match (if ipSpec s =? 0 then None else ip s) with
              | None => setList s (linkAtHead (hp s) (dl s) n)
              | Some p => setList s (insertBefore (hp s) (dl s) p n)
              end in
    let s2 := setAcc (setTime (setInMM s1 n true) n now) n false in
    let* s3 := updateIp s2 in Some (s3, true).

(** tailSize_-- is on size_t; reaching it with 0 would wrap: [None]. *)
Definition decTail (s : lru) (n : node) : option lru :=
  match tailSize s with
  | O => None
  | S k => Some (setIp s (updb (tailm s) n false) (ip s) k)
  end.

(** MMLru.h:766-779 removeLocked. *)
Definition removeLocked (s : lru) (n : node) : option lru :=
  let s1 := ensureNotIp s n in
  let s2 := setList s1 (DList_model.remove (hp s1) (dl s1) n) in
  let s3 := setAcc s2 n false in
  let* s4 := (if tailm s3 n then decTail s3 n else Some s3) in
  updateIp (setInMM s4 n false).

(** MMLru.h:781-790 remove. *)
Definition remove (s : lru) (n : node) : option (lru * bool) :=
  if negb (inMM s n) then Some (s, false)
  else let* s1 := removeLocked s n in Some (s1, true).

(** MMLru.h:792-798 remove(Iterator&): the iterator (from the tail, so ++ follows prev) is
    advanced first; returns its new position. *)
Definition removeIt (s : lru) (n : node) : option (lru * ptr) :=
  let nx := prv (hp s) n in let* s1 := removeLocked s n in Some (s1, nx).

(** MMLru.h:800-830 replace. *)
Definition replace (s : lru) (o n : node) : lru * bool :=
  if negb (inMM s o) || inMM s n then (s, false)
  else
    let t := utime s o in
    let s1 := setList s (DList_model.replace (hp s) (dl s) o n) in
    let s2 := setTime (setInMM (setInMM s1 o false) n true) n t in
    let s3 := setAcc s2 n (accm s2 o) in
    let m := if tailm s3 o then updb (updb (tailm s3) n true) o false else updb (tailm s3) n false in
    (setIp s3 m (if isPtr (ip s3) o then Some n else ip s3) (tailSize s3), true).

(** MMLru.h:533-547 the unlocked part of recordAccess: whether the critical section runs,
    and the accessed mark. [write]: the access mode. *)
Definition accessCheck (s : lru) (n : node) (write : bool) (now : N) : lru * bool :=
  if (write && negb (updOnWrite s)) || (negb write && negb (updOnRead s)) then (s, false)
  else if inMM s n && ((wrap32 (utime s n + refresh s) <=? now)%N || negb (accm s n))
       then ((if accm s n then s else setAcc s n true), true)
       else (s, false).

(** MMLru.h:549-562 the critical section of recordAccess. *)
Definition accessLocked (s : lru) (n : node) (now : N) : option lru :=
  let s1 := ensureNotIp s n in
  let s2 := if inMM s1 n then setTime (setList s1 (moveToHead (hp s1) (dl s1) n)) n now else s1 in
  if tailm s2 n then let* s3 := decTail s2 n in updateIp s3 else Some s2.

(** MMLru.h:529-580 recordAccess without interference (lock obtained). *)
Definition recordAccess (s : lru) (n : node) (write : bool) (now : N) : option (lru * bool) :=
  let (s1, go) := accessCheck s n write now in
  if go then let* s2 := accessLocked s1 n now in Some (s2, true) else Some (s1, false).

(** MMLru.h:616-625: clear the tail marks. *)
Fixpoint clearLoop (k : nat) (h : heap) (m : node -> bool) (p : ptr) : option (node -> bool) :=
  match k with
  | O => Some m
  | S k' => match p with
            | None => None (* null dereference *)
            | Some c => clearLoop k' h (updb m c false) (nxt h c)
            end
  end.
(** MMLru.h:611-633 setConfig (the fields used here). *)
Definition setConfig (s : lru) (k : nat) (r : N) (w rd : bool) : option lru :=
  let s1 := {| hp := hp s; dl := dl s; inMM := inMM s; tailm := tailm s; accm := accm s; utime := utime s;
               ip := ip s; tailSize := tailSize s; ipSpec := k; refresh := r;
               updOnWrite := w; updOnRead := rd |} in
  match (if k =? 0 then ip s else None) with
  | None => Some s1
  | Some c => let* m := clearLoop (tailSize s) (hp s) (tailm s) (Some c) in Some (setIp s1 m None 0)
  end.

(** MMLru.h:724-740: the order in which an eviction iterator offers items. *)
Definition evictionOrder (s : lru) : option (list node) :=
  walkPrev (size (dl s)) (hp s) (tail (dl s)).

(** The calls. *)
Inductive mcall :=
| MAdd (n : node) (now : N) | MRemove (n : node) | MRemoveIt (n : node) | MReplace (o n : node)
| MAccessCheck (n : node) (write : bool) (now : N)   (* unlocked pre-check *)
| MAccessLocked (n : node) (now : N)                 (* critical section of an access *)
| MRecordAccess (n : node) (write : bool) (now : N)
| MSetConfig (k : nat) (r : N) (w rd : bool).
Inductive mout := MBool (b : bool) | MPtr (p : ptr) | MUnit.

Definition mexec (s : lru) (c : mcall) : option (lru * mout) :=
  match c with
  | MAdd n now => let* (s1, b) := add s n now in Some (s1, MBool b)
  | MRemove n => let* (s1, b) := remove s n in Some (s1, MBool b)
  | MRemoveIt n => let* (s1, p) := removeIt s n in Some (s1, MPtr p)
  | MReplace o n => let (s1, b) := replace s o n in Some (s1, MBool b)
  | MAccessCheck n w now => let (s1, b) := accessCheck s n w now in Some (s1, MBool b)
  | MAccessLocked n now => let* s1 := accessLocked s n now in Some (s1, MUnit)
  | MRecordAccess n w now => let* (s1, b) := recordAccess s n w now in Some (s1, MBool b)
  | MSetConfig k r w rd => let* s1 := setConfig s k r w rd in Some (s1, MUnit)
  end.
Fixpoint mexecs (s : lru) (cs : list mcall) : option (lru * list mout) :=
  match cs with
  | [] => Some (s, [])
  | c :: r => let* (s1, o) := mexec s c in let* (s2, os) := mexecs s1 r in Some (s2, o :: os)
  end.
