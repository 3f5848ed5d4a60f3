(** Model of the access tracker (cachelib/common/AccessTracker.h), which remembers for the last numBuckets spans of time
    which keys were accessed, and of the reinsertion policy built on it
    (cachelib/navy/block_cache/ReuseTimeReinsertionPolicy.cpp).  Keys are their hashes.  A bucket is the list of the hashes
    put into its sketch since the sketch was last reset; what the sketch answers is a parameter [est] (count-min sketch:
    C24; Bloom filter: C23).  Counters and statistics are not modelled. *)
From Coq Require Import List Arith Bool.
Import ListNotations.

(** mostRecentAccessedBucket_ (AccessTracker.h:161) and the buckets (167-170), by index. *)
Record tracker := mkT { recent : nat; bks : nat -> list nat }.
(** AccessTracker.h:161, 182-205. *)
Definition fresh : tracker := mkT 0 (fun _ => []).
Definition put (f : nat -> list nat) (i : nat) (l : list nat) : nat -> list nat := fun j => if j =? i then l else f j.

Section Tracker.
(** config_.numBuckets, config_.numTicksPerBucket, the sketch. *)
Variables (N T : nat) (est : list nat -> nat -> nat).

(** getCurrentBucketIndex and rotatedIdx, AccessTracker.h:130-136. *)
Definition idx (tick : nat) : nat := (tick / T) mod N.

(** updateMostRecentAccessedBucket, AccessTracker.h:244-257: whether the compare-exchange is made (the loop ends when it
    succeeds or when the first test holds, so it is one atomic step), and 281-284. *)
Definition moves (s : tracker) (i : nat) : bool := negb ((i =? recent s) || ((i + 1) mod N =? recent s)).
Definition cas (s : tracker) (i : nat) : tracker := if moves s i then mkT i (bks s) else s.
Definition reset (s : tracker) (i : nat) : tracker := mkT (recent s) (put (bks s) i []).
(** AccessTracker.h:244-263, without other threads. *)
Definition update (s : tracker) (tick : nat) : tracker := if moves s (idx tick) then reset (cas s (idx tick)) (idx tick) else s.
(** 274-278 *)
Definition add (s : tracker) (i h : nat) : tracker := mkT (recent s) (put (bks s) i (bks s i ++ [h])).
(** recordAccess, AccessTracker.h:209-216. *)
Definition record (s : tracker) (tick h : nat) : tracker := let s := update s tick in add s (recent s) h.
(** getAccesses, AccessTracker.h:220-237. *)
Definition features (s : tracker) (h : nat) : list nat := map (fun i => est (bks s ((recent s + N - i) mod N)) h) (seq 0 N).
Definition get (s : tracker) (tick h : nat) : tracker * list nat := let s := update s tick in (s, features s h).

(** Calls, one after the other. *)
Inductive op := Rec (tick h : nat) | Get (tick h : nat).
Definition at_ (o : op) : nat := match o with Rec t _ | Get t _ => t end.
Definition exec (s : tracker) (o : op) : tracker := match o with Rec t h => record s t h | Get t h => fst (get s t h) end.
Definition run (ops : list op) : tracker := fold_left exec ops fresh.
Definition answer (ops : list op) (tick h : nat) : list nat := snd (get (run ops) tick h).

(** Two threads in recordAccess, interleaved: before the compare-exchange; past it, before 258; before 213; past 213. *)
Inductive pc := PCas (tick h : nat) | PReset (i h : nat) | PLoad (h : nat) | PAdd (i h : nat) | PDone.
Definition cstep (s : tracker) (p : pc) : tracker * pc :=
  match p with
  | PCas t h => (cas s (idx t), if moves s (idx t) then PReset (idx t) h else PLoad h)
  | PReset i h => (reset s i, PLoad h)
  | PLoad h => (s, PAdd (recent s) h)
  | PAdd i h => (add s i h, PDone)
  | PDone => (s, PDone)
  end.
(** [true]: the first thread moves. *)
Fixpoint conc (s : tracker) (p q : pc) (w : list bool) : tracker * pc * pc :=
  match w with
  | [] => (s, p, q)
  | true :: w => let (s', p') := cstep s p in conc s' p' q w
  | false :: w => let (s', q') := cstep s q in conc s' p q' w
  end.
End Tracker.

(** ** ReuseTimeReinsertionPolicy *)
(** getPrevAccessBuckets, ReuseTimeReinsertionPolicy.cpp:165-192; -1 is [None]. *)
Fixpoint firstPos (i : nat) (l : list nat) : option (nat * list nat) :=
  match l with [] => None | a :: l => if 0 <? a then Some (i, l) else firstPos (S i) l end.
Definition prevBuckets (l : list nat) : option nat * option nat :=
  match firstPos 0 l with
  | None => (None, None)
  | Some (i, r) => (Some i, match firstPos (S i) r with Some (j, _) => Some j | None => None end)
  end.
(** getReuseTime, ReuseTimeReinsertionPolicy.cpp:135-163.  (The local is an int: numBuckets * bucketSize is taken to be below 2^31.) *)
Definition reuseTime (bucketSize : nat) (l : list nat) : nat :=
  match prevBuckets l with
  | (Some a, Some b) => Nat.max (bucketSize * (a + 1)) ((b - a) * bucketSize)
  | (Some a, None) => bucketSize * (a + 1)
  | _ => 0
  end.
(** shouldReinsert, ReuseTimeReinsertionPolicy.cpp:50-81: [found]: the index has the key; [expired]: the item has. *)
Definition shouldReinsert (bucketSize threshold : nat) (found expired : bool) (l : list nat) : bool :=
  found && negb expired && (let r := reuseTime bucketSize l in negb ((r =? 0) || (threshold <? r))).
