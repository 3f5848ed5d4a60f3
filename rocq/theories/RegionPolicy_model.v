(** * Region eviction policies of the large-object flash engine.
    Models /repo/cachelib/navy/block_cache/{FifoPolicy,LruPolicy}.{h,cpp}.
    Every method runs under the policy's mutex, so calls are sequential.  Region ids are [nat]
    (valid ones are below 2^32-1); times and hit counters are statistics: the track time is kept
    for FIFO (it is persisted), LRU's are dropped.  [None] in an operation = out-of-range array
    access (undefined behaviour). *)
From Coq Require Import List Arith Bool Lia NArith ZArith.
Import ListNotations.
From Verif Require Import DList_model.

(** ** FifoPolicy.  FifoPolicy.h:31-40 detail::Node *)
Record fnode := mkNode { rid : nat; trackTime : nat }.
Definition fifo := list fnode.
(** FifoPolicy.cpp:39-42 *)
Definition fifoTrack (q : fifo) (r now : nat) : fifo := q ++ [mkNode r now].
(** FifoPolicy.cpp:44-52: [None] is the invalid RegionId. *)
Definition fifoEvict (q : fifo) : fifo * option nat :=
  match q with [] => ([], None) | n :: q' => (q', Some (rid n)) end.
(** FifoPolicy.cpp:54-57 *)
Definition fifoReset (_ : fifo) : fifo := [].
(** objects.thrift:54-61: i32 idx, i64 trackTime.  FifoPolicy.cpp:59-71 *)
Definition toI32 (n : N) : Z := if (n <? 2147483648)%N then Z.of_N n else (Z.of_N n - 4294967296)%Z.
Definition ofI32 (z : Z) : N := Z.to_N (z mod 4294967296)%Z.
Definition fifoPersist (q : fifo) : list (Z * nat) :=
  map (fun n => (toI32 (N.of_nat (rid n)), trackTime n)) q.
(** FifoPolicy.cpp:73-86 *)
Definition fifoRecover (_ : fifo) (d : list (Z * nat)) : fifo :=
  map (fun p => mkNode (N.to_nat (ofI32 (fst p))) (snd p)) d.

(** ** SegmentedFifoPolicy.  [gprio] is a ghost: the priority given to track(); the code does not
    store it and nothing here reads it. *)
Record snode := mkSNode { srid : nat; strackTime : nat; gprio : nat }.
(** FifoPolicy.h: segmentRatio_, segments_ (index 0 = lowest priority). *)
Record sfifo := mkSF { ratios : list nat; segs : list (list snode) }.
(** FifoPolicy.cpp:25-35 detail::accumulate and :95-105 the constructor: throws ([None]) on a zero
    ratio or no segment.  (The sum is assumed below 2^32.) *)
Definition sfifoNew (r : list nat) : option sfifo :=
  if existsb (Nat.eqb 0) r then None
  else match r with [] => None | _ => Some (mkSF r (map (fun _ => []) r)) end.
Definition weight (r : list nat) : nat := fold_left Nat.add r 0.
(** FifoPolicy.cpp:154-160 numElementsLocked *)
Definition numElements (s : list (list snode)) : nat := fold_left (fun a g => a + length g) s 0.
(** FifoPolicy.cpp:142-145: move the front of the current segment to the back of the next lower
    one while the current one is over its limit. *)
Fixpoint spill (limit : nat) (cur next : list snode) : list snode * list snode :=
  match cur with
  | [] => (cur, next)
  | x :: cur' => if limit <? length cur then spill limit cur' (next ++ [x]) else (cur, next)
  end.
(** FifoPolicy.cpp:127-152 rebalanceLocked: from the highest segment down; both lists are given in
    reverse order (rbegin). *)
Fixpoint rebalRev (total w : nat) (rs : list nat) (cur : list snode) (rest : list (list snode)) {struct rest}
  : list (list snode) :=
  match rest, rs with
  | next :: rest', r :: rs' =>
      let '(cur', next') := spill (total * r / w) cur next in
      cur' :: rebalRev total w rs' next' rest'
  | _, _ => cur :: rest
  end.
Definition rebalance (r : list nat) (s : list (list snode)) : list (list snode) :=
  match rev s with
  | [] => s
  | cur :: rest => rev (rebalRev (numElements s) (weight r) (rev r) cur rest)
  end.
Fixpoint pushAt (s : list (list snode)) (p : nat) (x : snode) : option (list (list snode)) :=
  match s, p with
  | [], _ => None
  | g :: s', O => Some ((g ++ [x]) :: s')
  | g :: s', S p' => option_map (cons g) (pushAt s' p' x)
  end.
(** FifoPolicy.cpp:107-114 *)
Definition sfifoTrack (s : sfifo) (r prio now : nat) : option sfifo :=
  match pushAt (segs s) prio (mkSNode r now prio) with
  | None => None
  | Some g => Some (mkSF (ratios s) (rebalance (ratios s) g))
  end.
(** FifoPolicy.cpp:116-126 *)
Definition sfifoEvict (s : sfifo) : sfifo * option snode :=
  match segs s with
  | (x :: g) :: r => (mkSF (ratios s) (rebalance (ratios s) (g :: r)), Some x)
  | _ => (s, None)
  end.
(** FifoPolicy.cpp:162-167 *)
Definition sfifoReset (s : sfifo) : sfifo := mkSF (ratios s) (map (fun _ => []) (segs s)).

(** ** LruPolicy.  LruPolicy.h: array_ (links only; an index is a pointer, kInvalidIndex is [None]),
    head_, tail_.  Entries past [asize] are not allocated; a resize appends default nodes, which is
    what the heap already holds there. *)
Record lru := mkLru { asize : nat; lheap : heap; lhead : ptr; ltail : ptr }.
Definition lruNew : lru := mkLru 0 (mkHeap (fun _ => None) (fun _ => None)) None None.
Definition inList (h : heap) (i : nat) : bool :=
  match prv h i, nxt h i with None, None => false | _, _ => true end.
(** LruPolicy.cpp:100-119 unlink *)
Definition lruUnlink (s : lru) (i : nat) : option lru :=
  if i <? asize s then
    let h := lheap s in
    match (if isPtr (ltail s) i then Some (h, prv h i)
           else match nxt h i with
                | Some n => if n <? asize s then Some (setPrev h n (prv h i), ltail s) else None
                | None => None end) with
    | None => None
    | Some (h1, tl) =>
        match (if isPtr (lhead s) i then Some (h1, nxt h1 i)
               else match prv h1 i with
                    | Some p => if p <? asize s then Some (setNext h1 p (nxt h1 i), lhead s) else None
                    | None => None end) with
        | None => None
        | Some (h2, hd) => Some (mkLru (asize s) (setPrev (setNext h2 i None) i None) hd tl)
        end
    end
  else None.
(** LruPolicy.cpp:121-132 linkAtHead *)
Definition lruLinkAtHead (s : lru) (i : nat) : option lru :=
  if i <? asize s then
    if isPtr (lhead s) i then Some s
    else
      match (match lhead s with
             | Some x => if x <? asize s then Some (setPrev (lheap s) x (Some i)) else None
             | None => Some (lheap s) end) with
      | None => None
      | Some h1 => Some (mkLru (asize s) (setNext h1 i (lhead s)) (Some i)
                           (match ltail s with None => Some i | t => t end))
      end
  else None.
(** array_.resize(i + 1) *)
Definition grow (s : lru) (i : nat) : lru :=
  if asize s <=? i then mkLru (S i) (lheap s) (lhead s) (ltail s) else s.
(** LruPolicy.cpp:33-46 touch *)
Definition lruTouch (s : lru) (i : nat) : option lru :=
  let s := grow s i in
  if inList (lheap s) i then
    match lruUnlink s i with None => None | Some s1 => lruLinkAtHead s1 i end
  else Some s.
(** LruPolicy.cpp:48-62 track *)
Definition lruTrack (s : lru) (i : nat) : option lru :=
  let s := grow s i in
  if inList (lheap s) i then Some s else lruLinkAtHead s i.
(** LruPolicy.cpp:64-87 evict *)
Definition lruEvict (s : lru) : option (lru * option nat) :=
  match ltail s with
  | None => Some (s, None)
  | Some t => match lruUnlink s t with None => None | Some s1 => Some (s1, Some t) end
  end.
(** LruPolicy.cpp:89-94 reset *)
Definition lruReset (_ : lru) : lru := lruNew.

Inductive lcall := Touch (r : nat) | Track (r : nat) | Evict | Reset.
Definition lruCall (s : lru) (c : lcall) : option (lru * option nat) :=
  match c with
  | Touch r => option_map (fun s => (s, None)) (lruTouch s r)
  | Track r => option_map (fun s => (s, None)) (lruTrack s r)
  | Evict => lruEvict s
  | Reset => Some (lruReset s, None)
  end.
Fixpoint lruCalls (s : lru) (cs : list lcall) : option (lru * list (option nat)) :=
  match cs with
  | [] => Some (s, [])
  | c :: r => match lruCall s c with
              | None => None
              | Some (s1, o) => match lruCalls s1 r with
                                | None => None
                                | Some (s2, os) => Some (s2, o :: os)
                                end
              end
  end.

Inductive scall := STrack (r prio now : nat) | SEvict | SReset.
Definition sfifoCall (s : sfifo) (c : scall) : option (sfifo * option snode) :=
  match c with
  | STrack r p now => option_map (fun s => (s, None)) (sfifoTrack s r p now)
  | SEvict => Some (sfifoEvict s)
  | SReset => Some (sfifoReset s, None)
  end.
Fixpoint sfifoCalls (s : sfifo) (cs : list scall) : option (sfifo * list (option snode)) :=
  match cs with
  | [] => Some (s, [])
  | c :: r => match sfifoCall s c with
              | None => None
              | Some (s1, o) => match sfifoCalls s1 r with
                                | None => None
                                | Some (s2, os) => Some (s2, o :: os)
                                end
              end
  end.

Inductive fcall := FTrack (r now : nat) | FEvict | FReset | FRestart.
Definition fifoCall (q : fifo) (c : fcall) : fifo * option nat :=
  match c with
  | FTrack r now => (fifoTrack q r now, None)
  | FEvict => fifoEvict q
  | FReset => (fifoReset q, None)
  | FRestart => (fifoRecover [] (fifoPersist q), None) (* persist, then recover into a new object *)
  end.
Fixpoint fifoCalls (q : fifo) (cs : list fcall) : fifo * list (option nat) :=
  match cs with
  | [] => (q, [])
  | c :: r => let '(q1, o) := fifoCall q c in let '(q2, os) := fifoCalls q1 r in (q2, o :: os)
  end.
