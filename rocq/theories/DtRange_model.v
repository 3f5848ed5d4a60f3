(** * RangeMap: a sorted map inside a cache item.
    Models /repo/cachelib/datatype/RangeMap.h on top of BufferManager (DtBuffer_model.v).
    Keys and values are numbers, [ks] the key size, [vsize] the size of a value, [maxIndex] the largest
    index capacity an item can hold (a larger request makes allocate throw invalid_argument).
    [None]: undefined behaviour (an access outside the index, a range walked past its end, a division
    by zero).  XDCHECKs are not executed. *)
From Verif Require Import Bytes DtBuffer_model.

Section Range.
Variables (ks : N) (vsize : N -> N) (maxIndex : nat).

(** ** BinaryIndex, RangeMap.h:229-289 *)
Record index := mkI { icap : nat; inum : nat; iarr : nat -> N * N }.
Definition newIndex (c : nat) : index := mkI c 0 (fun _ => (0%N, nullAddr)).
(** RangeMap.h:356-363: std::lower_bound, halving as libstdc++ does *)
Fixpoint lbFrom (fuel : nat) (a : nat -> N * N) (k : N) (first len : nat) : nat :=
  match fuel with
  | O => first
  | S f =>
    if len =? 0 then first
    else let half := len / 2 in
         let mid := first + half in
         if (fst (a mid) <? k)%N then lbFrom f a k (S mid) (len - half - 1) else lbFrom f a k first half
  end.
Definition lower (x : index) (k : N) : nat := lbFrom (S (inum x)) (iarr x) k 0 (inum x).
(** RangeMap.h:340-348; the end is [inum] *)
Definition ilookup (x : index) (k : N) : nat :=
  let r := lower x k in if (r =? inum x) || negb (fst (iarr x r) =? k)%N then inum x else r.
(** memmove of entries: n entries from src to dst *)
Definition move (a : nat -> N * N) (dst src n : nat) : nat -> N * N := fun i => if (dst <=? i) && (i <? dst + n) then a (i - dst + src) else a i.
Definition put (a : nat -> N * N) (i : nat) (e : N * N) : nat -> N * N := fun j => if j =? i then e else a j.
(** RangeMap.h:429-445; writing past the capacity is [None] *)
Definition insertInternal (x : index) (k a : N) : option index :=
  let r := lower x k in
  if icap x <=? inum x then None
  else let a1 := if r <? inum x then move (iarr x) (S r) r (inum x - r) else iarr x in
       Some (mkI (icap x) (S (inum x)) (put a1 r (k, a))).
(** RangeMap.h:375-385 *)
Definition insertOrReplace (x : index) (k a : N) : option (index * option N) :=
  let e := ilookup x k in
  if e =? inum x then let* x' := insertInternal x k a in Some (x', None)
  else Some (mkI (icap x) (inum x) (put (iarr x) e (k, a)), Some (snd (iarr x e))).
(** RangeMap.h:387-405 *)
Definition iremove (x : index) (k : N) : index * option N :=
  let e := ilookup x k in
  if e =? inum x then (x, None)
  else let n := inum x - 1 in
       (mkI (icap x) n (if e <? n then move (iarr x) e (S e) (n - e) else iarr x), Some (snd (iarr x e))).
(** RangeMap.h:407-427: the addresses handed to the callback, and the index *)
Fixpoint beforeFrom (fuel : nat) (x : index) (k : N) (cur : nat) : nat :=
  match fuel with
  | O => cur
  | S f => if negb (cur =? inum x) && (fst (iarr x cur) <? k)%N then beforeFrom f x k (S cur) else cur
  end.
Definition iremoveBefore (x : index) (k : N) : index * list N :=
  let c := beforeFrom (S (inum x)) x k 0 in
  (if c =? 0 then x
   else mkI (icap x) (inum x - c) (if c =? inum x then iarr x else move (iarr x) 0 c (inum x - c)),
   map (fun i => snd (iarr x i)) (seq 0 c)).
(** RangeMap.h:273-277 (capacity - 1 wraps for capacity 0; n > 0.5 c iff 2 n > c) *)
Definition ioverLimit (x : index) : bool := (if icap x =? 0 then false else icap x - 1 <=? inum x) || (icap x <? 2 * inum x).
(** RangeMap.h:321-328 *)
Definition cloneIndex (x : index) (c : nat) : option index := if c <? inum x then None else Some (mkI c (inum x) (iarr x)).

(** ** RangeMap *)
Record rmap := mkR { ix : index; rbufs : mgr; rpub : bool }.
Inductive rout := RBool (b : bool) | RReplaced (b : bool) | RCount (n : nat) | RList (l : list (N * N)) | ROk | RBadAlloc | RInvalid.
(** RangeMap.h:672-695 *)
Fixpoint reindexR (l : list (N * (N * N))) (x : index) : option index :=
  match l with
  | [] => Some x
  | (a, (k, _)) :: r => let* (x', _) := insertOrReplace x k a in reindexR r x'
  end.
Definition compactR (m : rmap) : option rmap :=
  let* b := mCompact (rbufs m) in
  let* l := mIterate b in
  let* x := reindexR l (ix m) in Some (mkR x b (rpub m)).
(** RangeMap.h:743-796; inl: the new map and the address, inr: what is thrown *)
Definition cloneAlloc (m : rmap) (size : N) (grow : bool) (al : list bool) : option (rmap * N + rout) :=
  let c := if grow then icap (ix m) * 2 else icap (ix m) in
  if maxIndex <? c then Some (inr RInvalid)
  else
    let (ok, al1) := take al in
    if negb ok then Some (inr RBadAlloc)
    else
      let* x := cloneIndex (ix m) c in
      match mClone (rbufs m) al1 with
      | (None, _) => Some (inr RBadAlloc)
      | (Some b, al2) =>
        match mAllocate b size with
        | Some (b', a) => Some (inl (mkR x b' (rpub m), a))
        | None =>
          match mExpand b size al2 with
          | (None, _) => Some (inr RBadAlloc)
          | (Some b1, _) =>
            match mAllocate b1 size with
            | Some (b', a) => Some (inl (mkR x b' (rpub m), a))
            | None => Some (inr RBadAlloc)
            end
          end
        end
      end.
(** RangeMap.h:706-741 *)
Definition insertR (m : rmap) (k v : N) (al : list bool) : option (rmap * rout) :=
  let* w := wastedPct (rbufs m) in
  let* m1 := (if (50 <? w)%N then compactR m else Some m) in
  let size := u32 (ks + vsize v) in
  let* r := (if ioverLimit (ix m1) then cloneAlloc m1 size true al
             else match mAllocate (rbufs m1) size with
                  | Some (b, a) => Some (inl (mkR (ix m1) b (rpub m1), a))
                  | None => cloneAlloc m1 size false al
                  end) in
  match r with
  | inr o => Some (m1, o)
  | inl (m2, a) =>
    let* b := mWrite (rbufs m2) a (u32 (ks + vsize v)) (k, v) in
    let* (x, old) := insertOrReplace (ix m2) k a in
    match old with
    | Some o => let* b' := mRemove b o in Some (mkR x b' (rpub m2), RReplaced true)
    | None => Some (mkR x b (rpub m2), RReplaced false)
    end
  end.
(** Walking an iterator from entry [i], n steps: RangeMap.h:291-318, 454-472 *)
Fixpoint readFrom (b : mgr) (a : nat -> N * N) (i n : nat) : option (list (N * N)) :=
  match n with
  | O => Some []
  | S p => let* e := mRead b (snd (a i)) in let* r := readFrom b a (S i) p in Some (e :: r)
  end.
Definition walk (m : rmap) (i j : nat) : option (list (N * N)) := if j <? i then None else readFrom (rbufs m) (iarr (ix m)) i (j - i).
Fixpoint removeAll (b : mgr) (l : list N) : option mgr :=
  match l with [] => Some b | a :: r => let* b' := mRemove b a in removeAll b' r end.
Definition maybeCompact (m : rmap) : option rmap :=
  let* w := wastedPct (rbufs m) in if (50 <? w)%N then compactR m else Some m.
Inductive rcall :=
| RLookup (k : N)                            (* lookup, then iterate to the end *)
| RInsert (k v : N) (al : list bool) | RUpsert (k v : N) (al : list bool) | RErase (k : N) | RRemoveBefore (k : N)
| RRange (k1 k2 : N) | RApprox (k1 k2 : N) | RIterate | RSize | RCompact | RPublish.
Definition rexec (m : rmap) (c : rcall) : option (rmap * rout) :=
  let n := inum (ix m) in
  match c with
  | RLookup k => let* l := walk m (ilookup (ix m) k) n in Some (m, RList l)                      (* 592-602 *)
  | RInsert k v al =>                                                                             (* 544-552 *)
    if negb (ilookup (ix m) k =? n) then Some (m, RBool false)
    else let* (m', o) := insertR m k v al in Some (m', match o with RReplaced _ => RBool true | _ => o end)
  | RUpsert k v al => insertR m k v al                                                            (* 554-560 *)
  | RErase k =>                                                                                   (* 562-575 *)
    let (x, r) := iremove (ix m) k in
    match r with
    | None => Some (mkR x (rbufs m) (rpub m), RBool false)
    | Some a => let* b := mRemove (rbufs m) a in
                let* m' := maybeCompact (mkR x b (rpub m)) in Some (m', RBool true)
    end
  | RRemoveBefore k =>                                                                            (* 577-586 *)
    let (x, l) := iremoveBefore (ix m) k in
    let* b := removeAll (rbufs m) l in
    let* m' := maybeCompact (mkR x b (rpub m)) in Some (m', RCount (length l))
  | RRange k1 k2 =>                                                                               (* 604-620 *)
    let i := ilookup (ix m) k1 in let j := ilookup (ix m) k2 in
    if (i =? n) || (j =? n) then Some (m, RList []) else let* l := walk m i (S j) in Some (m, RList l)
  | RApprox k1 k2 =>                                                                              (* 631-650 *)
    if n =? 0 then Some (m, RList [])
    else let i := lower (ix m) k1 in
         if i =? n then Some (m, RList [])
         else let j := lower (ix m) k2 in
              let* l := walk m i (if negb (j =? n) && (fst (iarr (ix m) j) =? k2)%N then S j else j) in Some (m, RList l)
  | RIterate => let* l := walk m 0 n in Some (m, RList l)                                         (* 661-671 *)
  | RSize => Some (m, RCount n)
  | RCompact => let* m' := compactR m in Some (m', ROk)
  | RPublish => Some (mkR (ix m) (rbufs m) true, ROk)
  end.
Fixpoint rexecs (m : rmap) (cs : list rcall) : option (rmap * list rout) :=
  match cs with
  | [] => Some (m, [])
  | c :: r => let* (m1, o) := rexec m c in let* (m2, os) := rexecs m1 r in Some (m2, o :: os)
  end.
(** RangeMap.h:479-522: create *)
Definition rcreate (numEntries : nat) (numBytes : N) : rmap := mkR (newIndex numEntries) [newBuffer numBytes] false.
End Range.
