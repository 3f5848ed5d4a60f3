(** * Map: a hash map inside a cache item.
    Models /repo/cachelib/datatype/Map.h.  Keys and values are numbers; [hash] is the hash of a key,
    [ks] the key size, [vsize] the size of a value, [maxIndex] the largest capacity whose table fits
    in an item (Map.h:297-313).
    [None]: undefined behaviour or an endless loop. *)
From Verif Require Import Bytes DtBuffer_model.

Section Map.
Variables (hash : N -> N) (ks : N) (vsize : N -> N) (maxIndex : nat).

(** ** Hash table, Map.h:37-275 *)
Record table := mkT { tcap : nat; tnum : nat; ents : nat -> option (N * N) }.     (* None: null address *)
Definition updt (f : nat -> option (N * N)) (i : nat) (e : option (N * N)) : nat -> option (N * N) := fun x => if x =? i then e else f x.
Definition newTable (c : nat) : table := mkT c 0 (fun _ => None).
(** Map.h:255-260 *)
Definition desired (c : nat) (k : N) : nat := N.to_nat ((u32 (hash k) * N.of_nat c) / 2 ^ 32)%N.
(** Map.h:267-277 *)
Definition probe (c home i : nat) : nat := if home <=? i then i - home else i + c - home.
Definition nextIx (c i : nat) : nat := let j := S i in if j =? c then 0 else j.
Definition rd (t : table) (i : nat) : option (option (N * N)) := if i <? tcap t then Some (ents t i) else None.
(** Map.h:135-166 find: index and address *)
Fixpoint findFrom (fuel : nat) (t : table) (k : N) (i d : nat) : option (option (nat * N)) :=
  match fuel with
  | O => None
  | S f =>
    let* e := rd t i in
    match e with
    | None => Some None
    | Some (k', a) =>
      if (k' =? k)%N then Some (Some (i, a))
      else if probe (tcap t) (desired (tcap t) k') i <? d then Some None
      else findFrom f t k (nextIx (tcap t) i) (S d)
    end
  end.
Definition tFind (t : table) (k : N) : option (option (nat * N)) := findFrom (S (tcap t)) t k (desired (tcap t) k) 0.
(** Map.h:168-218 insertOrReplace.  [IFull]: bad_alloc. *)
Inductive ires := IFull | IDone (t : table) (old : option N).
Fixpoint insFrom (fuel : nat) (t : table) (k a : N) (i d : nat) : option ires :=
  match fuel with
  | O => None
  | S f =>
    let* e := rd t i in
    match e with
    | None => Some (IDone (mkT (tcap t) (S (tnum t)) (updt (ents t) i (Some (k, a)))) None)
    | Some (k', a') =>
      if (k' =? k)%N then Some (IDone (mkT (tcap t) (tnum t) (updt (ents t) i (Some (k, a)))) (Some a'))
      else
        let c := probe (tcap t) (desired (tcap t) k') i in
        if c <? d then insFrom f (mkT (tcap t) (tnum t) (updt (ents t) i (Some (k, a)))) k' a' (nextIx (tcap t) i) (S c)
        else insFrom f t k a (nextIx (tcap t) i) (S d)
    end
  end.
Definition tInsert (t : table) (k a : N) : option ires :=
  if (a =? nullAddr)%N then None
  else if S (tnum t) =? tcap t then Some IFull
  else insFrom (S (tcap t)) t k a (desired (tcap t) k) 0.
(** Map.h:220-253 remove *)
Fixpoint shiftFrom (fuel : nat) (t : table) (i : nat) : option table :=
  match fuel with
  | O => None
  | S f =>
    let j := if i =? tcap t - 1 then 0 else S i in
    let* e := rd t j in
    match e with
    | Some (k', a') =>
      if probe (tcap t) (desired (tcap t) k') j =? 0
      then Some (mkT (tcap t) (tnum t - 1) (updt (ents t) i None))
      else shiftFrom f (mkT (tcap t) (tnum t) (updt (ents t) i (Some (k', a')))) j
    | None => Some (mkT (tcap t) (tnum t - 1) (updt (ents t) i None))
    end
  end.
Definition tRemove (t : table) (k : N) : option (table * option N) :=
  let* r := tFind t k in
  match r with
  | None => Some (t, None)
  | Some (i, a) => let* t' := shiftFrom (S (tcap t)) t i in Some (t', Some a)
  end.
(** Map.h:90-93 overLimit (capacity_ - 1 wraps for capacity 0; the product with 0.9 is exact enough:
    n > 0.9 c  iff  10 n > 9 c for 32 bit numbers). *)
Definition overLimit (t : table) : bool :=
  (if tcap t =? 0 then false else tcap t - 1 <=? tnum t) || (9 * tcap t <? 10 * tnum t).
(** Map.h:115-130: the table of another capacity with the same entries *)
Fixpoint refill (src : list (option (N * N))) (t : table) : option table :=
  match src with
  | [] => Some t
  | None :: r => refill r t
  | Some (k, a) :: r => let* x := tInsert t k a in match x with IDone t' _ => refill r t' | IFull => None end
  end.
(** Map.h:297-335 copyHashTable *)
Inductive cres := CMaxed | CFailed | CTable (t : table).
Definition copyTable (t : table) (c : nat) (al : list bool) : option (cres * list bool) :=
  if maxIndex <? c then Some (CMaxed, al)
  else
    let (ok, al1) := take al in
    if ok then
      if c <? tcap t then None
      else let* t' := refill (map (ents t) (seq 0 (tcap t))) (newTable c) in Some (CTable t', al1)
    else Some (CFailed, al1).

(** ** Map *)
Record hmap := mkMap { tab : table; bufs : mgr; pub : bool }.      (* pub: the parent item is accessible in the cache *)
Inductive out := OBool (b : bool) | OFound (v : option N) | OReplaced (b : bool) | OSize (n : nat) | OList (l : list (N * N)) | OOk
| OBadAlloc | OMaxed | ORuntime.
(** Map.h:700-726 compact; [None] in the inner option: runtime_error. *)
Fixpoint reindex (l : list (N * (N * N))) (t : table) : option (table * bool) :=
  match l with
  | [] => Some (t, true)
  | (a, (k, _)) :: r =>
    let* x := tInsert t k a in
    match x with
    | IFull => Some (t, false)
    | IDone t' (Some _) => reindex r t'
    | IDone t' None => Some (t', false)
    end
  end.
Definition compact (m : hmap) : option (hmap * bool) :=
  let* b := mCompact (bufs m) in
  let* l := mIterate b in
  let* (t, ok) := reindex l (tab m) in Some (mkMap t b (pub m), ok).
(** Map.h:728-747 expandHashTable *)
Inductive xres := XMaxed | XFailed | XDone (m : hmap).
Definition expandTable (m : hmap) (c : nat) (al : list bool) : option (xres * list bool) :=
  let* (r, al1) := copyTable (tab m) c al in
  match r with
  | CMaxed => Some (XMaxed, al1)
  | CFailed => Some (XFailed, al1)
  | CTable t =>
    match mClone (bufs m) al1 with
    | (None, al2) => Some (XFailed, al2)
    | (Some b, al2) => Some (XDone (mkMap t b false), al2)
    end
  end.
(** Map.h:583-664 insertImpl; the flag of the result tells inserted (false) or replaced (true). *)
Definition insertImpl (m : hmap) (k v : N) (al : list bool) : option (hmap * out) :=
  let acc := pub m in
  let size := u32 (ks + vsize v) in
  let* (x, al1) := (if overLimit (tab m) then expandTable m (2 * tcap (tab m)) al else Some (XDone m, al)) in
  match x with
  | XMaxed => Some (m, OMaxed)
  | XFailed => Some (m, OBadAlloc)
  | XDone m1 =>
    let cloned := overLimit (tab m) in
    let* w := wastedPct (bufs m1) in
    let* (m2, ok) := (if (50 <? w)%N then compact m1 else Some (m1, true)) in
    if negb ok then Some (m2, ORuntime)
    else
      let* (y, al2) :=
        (match mAllocate (bufs m2) size with
         | Some (b, a) => Some (inl (mkMap (tab m2) b (pub m2), cloned, Some a), al1)
         | None =>
           let* (z, al2) := (if cloned then Some (XDone m2, al1) else expandTable m2 (tcap (tab m2)) al1) in
           match z with
           | XMaxed => Some (inr OMaxed, al2)
           | XFailed => Some (inr OBadAlloc, al2)
           | XDone m3 =>
             match mExpand (bufs m3) size al2 with
             | (Some b, al3) =>
               match mAllocate b size with
               | Some (b', a) => Some (inl (mkMap (tab m3) b' (pub m3), true, Some a), al3)
               | None => Some (inl (mkMap (tab m3) b (pub m3), true, None), al3)
               end
             | (None, al3) => Some (inl (m3, true, None), al3)
             end
           end
         end) in
      match y with
      | inr o => Some (m2, o)
      | inl (m4, cl, addr) =>
        let m5 := mkMap (tab m4) (bufs m4) (if cl && acc then true else pub m4) in
        match addr with
        | None => Some (m5, OBadAlloc)
        | Some a =>
          let* b := mWrite (bufs m5) a (u32 (ks + vsize v)) (k, v) in
          let* r := tInsert (tab m5) k a in
          match r with
          | IFull => let* b' := mRemove b a in Some (mkMap (tab m5) b' (pub m5), OBadAlloc)
          | IDone t None => Some (mkMap t b (pub m5), OReplaced false)
          | IDone t (Some o) => let* b' := mRemove b o in Some (mkMap t b' (pub m5), OReplaced true)
          end
        end
      end
  end.
Inductive call :=
| Find (k : N) | Insert (k v : N) (al : list bool) | Upsert (k v : N) (al : list bool) | Erase (k : N)
| Size | Iterate | Compact | Publish.          (* Publish: the user inserts the parent item into the cache *)
Definition exec (m : hmap) (c : call) : option (hmap * out) :=
  match c with
  | Find k =>                                    (* Map.h:557-581 *)
    let* r := tFind (tab m) k in
    match r with
    | None => Some (m, OFound None)
    | Some (_, a) => let* p := mRead (bufs m) a in Some (m, OFound (Some (snd p)))
    end
  | Insert k v al =>                             (* Map.h:666-674 *)
    let* r := tFind (tab m) k in
    match r with
    | Some _ => Some (m, OBool false)
    | None => let* (m', o) := insertImpl m k v al in
              Some (m', match o with OReplaced _ => OBool true | _ => o end)
    end
  | Upsert k v al => insertImpl m k v al         (* Map.h:676-680 *)
  | Erase k =>                                   (* Map.h:682-690 *)
    let* (t, r) := tRemove (tab m) k in
    match r with
    | Some a => let* b := mRemove (bufs m) a in Some (mkMap t b (pub m), OBool true)
    | None => Some (mkMap t (bufs m) (pub m), OBool false)
    end
  | Size => Some (m, OSize (tnum (tab m)))
  | Iterate => let* l := mIterate (bufs m) in Some (m, OList (map snd l))
  | Compact => let* (m', ok) := compact m in Some (m', if ok then OOk else ORuntime)
  | Publish => Some (mkMap (tab m) (bufs m) true, OOk)
  end.
(** After runtime_error the map must not be used any more (Map.h:471-475). *)
Fixpoint execs (m : hmap) (cs : list call) : option (hmap * list out) :=
  match cs with
  | [] => Some (m, [])
  | c :: r => let* (m1, o) := exec m c in
              match o with
              | ORuntime => Some (m1, [ORuntime])
              | _ => let* (m2, os) := execs m1 r in Some (m2, o :: os)
              end
  end.
(** Map.h:508-531: create *)
Definition create (numEntries : nat) (numBytes : N) : hmap := mkMap (newTable numEntries) [newBuffer numBytes] false.
End Map.
