(** * ApproxSplitSet / DropSet: "seen before" set used by the reject-first admission policy.
    Models /repo/cachelib/common/ApproxSplitSet.h.  UInt = uint32_t, as ApproxSplitSet uses it.
    An access outside the table (or a loop that would not end) is [None].  The creation times
    are not modelled. *)
From Verif Require Import Bytes.

Fixpoint upd {A} (l : list A) (i : nat) (v : A) : list A :=
  match l, i with
  | [], _ => []
  | _ :: r, O => v :: r
  | x :: r, S j => x :: upd r j v
  end.

Record dset := mkD { plimit : N; cap : N; dsize : N; tab : list N }.

(** ApproxSplitSet.h:119-123: private constructor, zeroed table of capacity + probeLimit. *)
Definition newD (pl c : N) : dset :=
  {| plimit := pl; cap := c; dsize := 0; tab := repeat 0%N (N.to_nat (wrap32 (c + pl))) |}.
(** ApproxSplitSet.h:129-131. *)
Definition rehashSize (d : dset) : N := (wrap32 (cap d * 9) / 10)%N.
Definition rehashCapacity (d : dset) : N := N.max (wrap32 (cap d * 3) / 2) 16.
(** ApproxSplitSet.h:133-137 bucketOf: (uint64{key} * capacity_) >> 32. *)
Definition bucketOf (d : dset) (k : N) : N := wrap32 (wrap64 (k * cap d) / two32).
Definition rdT (d : dset) (i : N) : option N := nth_error (tab d) (N.to_nat i).
Definition setT (d : dset) (i v : N) : dset :=
  {| plimit := plimit d; cap := cap d; dsize := dsize d; tab := upd (tab d) (N.to_nat i) v |}.
Definition incSize (d : dset) : dset :=
  {| plimit := plimit d; cap := cap d; dsize := wrap32 (dsize d + 1); tab := tab d |}.
(** ApproxSplitSet.h:139-142 probeDistance of the key [v] found at [pos] (uint32 subtraction). *)
Definition probeDistance (d : dset) (pos v : N) : N := wrap32 (pos + two32 - bucketOf d v).

(** ApproxSplitSet.h:144-162 insertNoResize. *)
Fixpoint insFrom (fuel : nat) (d : dset) (key i dist : N) : option dset :=
  match fuel with
  | O => None
  | S f =>
    if (dist <? plimit d)%N then
      let* v := rdT d i in
      if (v =? 0)%N then Some (incSize (setT d i key))
      else
        let cd := probeDistance d i v in
        if (cd <=? dist)%N then insFrom f (setT d i key) v (i + 1) (cd + 1)
        else insFrom f d key (i + 1) (dist + 1)
    else Some d
  end.
Definition insertNoResize (d : dset) (key : N) : option dset :=
  insFrom (S (length (tab d))) d key (bucketOf d key) 0.

(** ApproxSplitSet.h:67-73: the rehash loop re-inserts the first capacity_ cells only. *)
Fixpoint reinsert (dst : dset) (l : list N) : option dset :=
  match l with
  | [] => Some dst
  | v :: r => if (v =? 0)%N then reinsert dst r
              else let* dst1 := insertNoResize dst v in reinsert dst1 r
  end.
(** ApproxSplitSet.h:61-77 insert. *)
Definition insertD (d : dset) (key : N) : option dset :=
  let* d1 := (if (rehashSize d <=? dsize d)%N
              then reinsert (newD (plimit d) (rehashCapacity d)) (firstn (N.to_nat (cap d)) (tab d))
              else Some d) in
  insertNoResize d1 key.

(** ApproxSplitSet.h:79-105 lookup. *)
Fixpoint lookFrom (fuel : nat) (d : dset) (key i dist : N) : option bool :=
  match fuel with
  | O => Some false
  | S f =>
    let* v := rdT d i in
    if (v =? key)%N then Some true
    else if ((v =? 0) || (probeDistance d i v <? dist))%N then Some false
    else lookFrom f d key (i + 1) (dist + 1)
  end.
Definition lookupD (d : dset) (key : N) : option bool :=
  lookFrom (N.to_nat (plimit d)) d key (bucketOf d key) 0.

(** ApproxSplitSet.h:107-111 reset. *)
Definition resetD (d : dset) : dset :=
  {| plimit := plimit d; cap := cap d; dsize := 0; tab := repeat 0%N (length (tab d)) |}.

(** ** ApproxSplitSet *)
Definition kProbeLimit : N := 10.
Definition kInitialCapacity : N := 4.

Record sset := mkS { numSplits : N; maxSplit : N; splits : list dset }.
Definition setSplits (s : sset) (l : list dset) : sset :=
  {| numSplits := numSplits s; maxSplit := maxSplit s; splits := l |}.

(** ApproxSplitSet.h:252-262 addNewSplit. *)
Definition addNewSplit (s : sset) : option sset :=
  if (N.of_nat (length (splits s)) <? numSplits s)%N
  then Some (setSplits s (splits s ++ [newD kProbeLimit kInitialCapacity]))
  else match splits s with
       | [] => None
       | f :: r => Some (setSplits s (r ++ [resetD f]))
       end.
(** ApproxSplitSet.h:188-196; [None]: division by zero or throw. *)
Definition createS (numEntries nsplits : N) : option sset :=
  if (nsplits =? 0)%N then None
  else if (numEntries =? 0)%N then None
  else addNewSplit {| numSplits := nsplits; maxSplit := wrap32 (numEntries / nsplits); splits := [] |}.

(** ApproxSplitSet.h:243-250 lookupLocked: the 64-bit key is truncated on the call. *)
Fixpoint lookupAll (l : list dset) (key : N) : option bool :=
  match l with
  | [] => Some false
  | d :: r => let* b := lookupD d (wrap32 key) in if b then Some true else lookupAll r key
  end.
Definition lookupS (s : sset) (key : N) : option bool := lookupAll (splits s) key.

(** splits_.back() and replacing it. *)
Fixpoint lastD (l : list dset) : option dset :=
  match l with [] => None | [x] => Some x | _ :: r => lastD r end.

(** ApproxSplitSet.h:199-212 insert: true if the key already existed. *)
Definition insertS (s : sset) (key : N) : option (sset * bool) :=
  let* ex := lookupS s key in
  if ex then Some (s, true)
  else
    let* b := lastD (splits s) in
    let* s1 := (if (maxSplit s <=? dsize b)%N then addNewSplit s else Some s) in
    let* b1 := lastD (splits s1) in
    let* b2 := insertD b1 (wrap32 key) in
    Some (setSplits s1 (removelast (splits s1) ++ [b2]), false).

(** ApproxSplitSet.h:214-218 reset. *)
Definition resetS (s : sset) : option sset := addNewSplit (setSplits s []).
(** ApproxSplitSet.h:224-229 numKeysTracked. *)
Definition numKeysTracked (s : sset) : N := fold_left (fun a d => wrap64 (a + dsize d)) (splits s) 0%N.

Inductive scall := SInsert (k : N) | SReset.
Fixpoint runS (s : sset) (cs : list scall) : option (sset * list bool) :=
  match cs with
  | [] => Some (s, [])
  | SInsert k :: r => let* (s1, b) := insertS s k in let* (s2, bs) := runS s1 r in Some (s2, b :: bs)
  | SReset :: r => let* s1 := resetS s in let* (s2, bs) := runS s1 r in Some (s2, bs)
  end.
