(** * ChainedHashTable: the RAM index from key to item.
    Models /repo/cachelib/allocator/ChainedHashTable.h (Impl and Container) at pointer level:
    an array of bucket heads and one next link per item.
    Items are identified by [node] (their address); compressed pointers are modelled as the
    item itself (their losslessness is C08).  Every operation below is one critical section
    under the exclusive (find, iteration: shared) lock of its bucket; calls of different
    threads are therefore interleaved at this granularity.  The reads of isAccessible() that
    insert / insertOrReplace make before locking are separate calls ([CIsAccessible]), so the
    critical section may run with a stale answer.
    The hash function is a parameter.  The handle maker is outside this file; whether it throws is
    a parameter of each call.  Chain walks are bounded by [F] steps; a walk that would not stop
    is [None]. *)
From Verif Require Import Bytes.

Definition node := nat.
Definition ptr := option node.
Definition key := list byte.

Record table := mkT {
  heads : N -> ptr;        (* hashTable_ *)
  hnext : node -> ptr;     (* Hook::next_ *)
  nkey : node -> key;      (* getKey() of the memory at this address *)
  acc : node -> bool;      (* isAccessible() *)
  numKeys : N              (* numKeys_, uint64 *)
}.

Definition updN {A} (f : N -> A) (k : N) (v : A) : N -> A := fun x => if (x =? k)%N then v else f x.
Definition upd {A} (f : node -> A) (k : node) (v : A) : node -> A := fun x => if x =? k then v else f x.

Definition setHead (t : table) (b : N) (p : ptr) : table :=
  {| heads := updN (heads t) b p; hnext := hnext t; nkey := nkey t; acc := acc t; numKeys := numKeys t |}.
(** ChainedHashTable.h:98-104 setHashNext. *)
Definition setNext (t : table) (n : node) (p : ptr) : table :=
  {| heads := heads t; hnext := upd (hnext t) n p; nkey := nkey t; acc := acc t; numKeys := numKeys t |}.
Definition setAcc (t : table) (n : node) (v : bool) : table :=
  {| heads := heads t; hnext := hnext t; nkey := nkey t; acc := upd (acc t) n v; numKeys := numKeys t |}.
Definition setKey (t : table) (n : node) (k : key) : table :=
  {| heads := heads t; hnext := hnext t; nkey := upd (nkey t) n k; acc := acc t; numKeys := numKeys t |}.
Definition setNum (t : table) (v : N) : table :=
  {| heads := heads t; hnext := hnext t; nkey := nkey t; acc := acc t; numKeys := v |}.

(** ChainedHashTable.h:850-876: fresh table, all buckets null. *)
Definition initT (keys : node -> key) : table :=
  {| heads := fun _ => None; hnext := fun _ => None; nkey := keys; acc := fun _ => false; numKeys := 0 |}.

Section Table.
Variable hash : key -> N.      (* the configured hasher on (data, size) : uint32 *)
Variable power : N.            (* config_.getBucketsPower() *)

(** ChainedHashTable.h:847-848: mask = 2^power - 1. *)
Definition mask : N := (N.shiftl 1 power - 1)%N.
(** ChainedHashTable.h:914-919 getBucket. *)
Definition getBucket (k : key) : N := N.land (hash k) mask.

(** ChainedHashTable.h:945-953, 996-999, 1007-1013: walk the chain to the first node with this
    key; also returns the node before it. *)
Fixpoint walk (F : nat) (t : table) (k : key) (prev curr : ptr) : option (ptr * ptr) :=
  match curr with
  | None => Some (prev, None)
  | Some c =>
    if bytes_eqb k (nkey t c) then Some (prev, curr)
    else match F with O => None | S f => walk f t k curr (hnext t c) end
  end.

(** ChainedHashTable.h:991-1000 findInBucket. *)
Definition findInBucket (F : nat) (t : table) (k : key) (b : N) : option ptr :=
  let* (_, c) := walk F t k None (heads t b) in Some c.

(** ChainedHashTable.h:921-936 insertInBucket. *)
Definition insertInBucket (F : nat) (t : table) (n : node) (b : N) : option (table * bool) :=
  let* e := findInBucket F t (nkey t n) b in
  match e with
  | Some _ => Some (t, false)
  | None => let head := heads t b in
            Some (setNext (setHead t b (Some n)) n head, true)
  end.

(** ChainedHashTable.h:938-970 insertOrReplaceInBucket. *)
Definition insertOrReplaceInBucket (F : nat) (t : table) (n : node) (b : N) : option (table * ptr) :=
  let* (prev, curr) := walk F t (nkey t n) None (heads t b) in
  match curr with
  | None => let head := heads t b in
            Some (setNext (setHead t b (Some n)) n head, None)
  | Some c =>
    let t1 := match prev with
              | Some p => setNext t p (Some n)
              | None => setHead t b (Some n)
              end in
    Some (setNext t1 n (hnext t1 c), Some c)
  end.

(** ChainedHashTable.h:972-989 removeFromBucket with findPrevInBucket (1002-1018). *)
Definition removeFromBucket (F : nat) (t : table) (n : node) (b : N) : option table :=
  let* (prev, _) := walk F t (nkey t n) None (heads t b) in
  match prev with
  | Some p => Some (setNext t p (hnext t n))
  | None => Some (setHead t b (hnext t n))
  end.

Definition incKeys (t : table) : table := setNum t (wrap64 (numKeys t + 1)).
Definition decKeys (t : table) : table := setNum t (wrap64 (numKeys t + (two64 - 1))).

(** ChainedHashTable.h:1164-1180 insert, from the lock on. *)
Definition insert (F : nat) (t : table) (n : node) : option (table * bool) :=
  let* (t1, r) := insertInBucket F t n (getBucket (nkey t n)) in
  if r then Some (incKeys (setAcc t1 n true), true) else Some (t1, false).

Inductive result := RBool (b : bool) | RNode (p : ptr) | RThrow | RNodes (l : list node) | RNone.

(** ChainedHashTable.h:1186-1221 insertOrReplace, from the lock on; [throws]: the handle maker
    throws (it is given null without throwing when there was no old node). *)
Definition insertOrReplace (F : nat) (t : table) (n : node) (throws : bool) : option (table * result) :=
  let b := getBucket (nkey t n) in
  let* (t1, old) := insertOrReplaceInBucket F t n b in
  match old with
  | Some o =>
    if throws then
      let* (t2, _) := insertOrReplaceInBucket F t1 o b in Some (t2, RThrow)
    else Some (setAcc (setAcc t1 n true) o false, RNode (Some o))
  | None => Some (incKeys (setAcc t1 n true), RNode None)
  end.

(** ChainedHashTable.h:1226-1249 replaceIf (replaceIfAccessible: predicate true). *)
Definition replaceIf (F : nat) (t : table) (o n : node) (pred : bool) : option (table * bool) :=
  let b := getBucket (nkey t n) in
  if acc t o && pred then
    let* (t1, _) := insertOrReplaceInBucket F t n b in
    Some (setAcc (setAcc t1 o false) n true, true)
  else Some (t, false).

(** ChainedHashTable.h:1254-1270 remove. *)
Definition remove (F : nat) (t : table) (n : node) : option (table * bool) :=
  let b := getBucket (nkey t n) in
  if negb (acc t n) then Some (t, false)
  else let* t1 := removeFromBucket F t n b in
       Some (decKeys (setAcc t1 n false), true).

(** ChainedHashTable.h:1275-1297 removeIf. *)
Definition removeIf (F : nat) (t : table) (n : node) (pred throws : bool) : option (table * result) :=
  let b := getBucket (nkey t n) in
  if acc t n && pred then
    if throws then Some (t, RThrow)
    else let* t1 := removeFromBucket F t n b in
         Some (decKeys (setAcc t1 n false), RNode (Some n))
  else Some (t, RNode None).

(** ChainedHashTable.h:1302-1307 find. *)
Definition find (F : nat) (t : table) (k : key) : option ptr := findInBucket F t k (getBucket k).

(** ChainedHashTable.h:1019-1030 forEachBucketElem. *)
Fixpoint elems (F : nat) (t : table) (p : ptr) : option (list node) :=
  match p with
  | None => Some []
  | Some c => match F with
              | O => None
              | S f => let* r := elems f t (hnext t c) in Some (c :: r)
              end
  end.
(** ChainedHashTable.h:1335-1358 getBucketElems (all handles granted). *)
Definition bucketElems (F : nat) (t : table) (b : N) : option (list node) := elems F t (heads t b).

(** The calls. *)
Inductive call :=
| CIsAccessible (n : node)
| CInsert (n : node)
| CInsertOrReplace (n : node) (throws : bool)
| CReplaceIf (o n : node) (pred : bool)
| CRemove (n : node)
| CRemoveIf (n : node) (pred throws : bool)
| CFind (k : key)
| CBucket (b : N)               (* an iterator reads bucket b *)
| CReuse (n : node) (k : key).  (* the memory of an unindexed item is reused for key k *)

Definition exec (F : nat) (t : table) (c : call) : option (table * result) :=
  match c with
  | CIsAccessible n => Some (t, RBool (acc t n))
  | CInsert n => let* (t1, r) := insert F t n in Some (t1, RBool r)
  | CInsertOrReplace n th => insertOrReplace F t n th
  | CReplaceIf o n p => let* (t1, r) := replaceIf F t o n p in Some (t1, RBool r)
  | CRemove n => let* (t1, r) := remove F t n in Some (t1, RBool r)
  | CRemoveIf n p th => removeIf F t n p th
  | CFind k => let* r := find F t k in Some (t, RNode r)
  | CBucket b => let* l := bucketElems F t b in Some (t, RNodes l)
  | CReuse n k => Some (setKey t n k, RNone)
  end.
Fixpoint execs (F : nat) (t : table) (cs : list call) : option (table * list result) :=
  match cs with
  | [] => Some (t, [])
  | c :: r => let* (t1, o) := exec F t c in let* (t2, os) := execs F t1 r in Some (t2, o :: os)
  end.

(** ChainedHashTable.h:1363-1392, 1475-1487: a full iteration over an unchanging table
    (for the interleaved case see [CBucket]). *)
Fixpoint iterate (F : nat) (t : table) (bs : list N) : option (list node) :=
  match bs with
  | [] => Some []
  | b :: r => let* l := bucketElems F t b in let* l' := iterate F t r in Some (l ++ l')
  end.
End Table.

(** Mutex.h:276-299 and 316: the lock of a bucket, and the buckets a lock-group iteration visits for
    lock [i] ([fuel] turns of `for (b = i; b < numBuckets; b += numLocks)`). *)
Definition lockOf (locksPower : N) (b : N) : N := N.land b (N.shiftl 1 locksPower - 1).
Fixpoint groupBuckets (fuel : nat) (numBuckets numLocks b : N) : list N :=
  match fuel with
  | O => []
  | S f => if (b <? numBuckets)%N then b :: groupBuckets f numBuckets numLocks (b + numLocks) else []
  end.
