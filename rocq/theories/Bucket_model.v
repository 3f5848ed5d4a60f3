(** Model of one BigHash bucket: /repo/cachelib/navy/bighash/Bucket.{h,cpp}.
    Entries are stored as bytes in the modelled BucketStorage; every read goes
    through the byte array and is [None] (undefined behaviour) out of range. *)
From Verif Require Import Bytes BucketStorage_model.

(** common/Hash.h:85-125 HashedKey: key bytes with a 64-bit hash.  The hash is
    whatever the caller supplied ([precomputed]); no relation to the key is used. *)
Record hkey := mkHK { kbytes : list byte; khash : N }.

(** common/Hash.h:101-104 operator==: hash, length and bytes. *)
Definition hkey_eqb (a b : hkey) : bool :=
  (khash a =? khash b)%N && (length (kbytes a) =? length (kbytes b))
  && bytes_eqb (kbytes a) (kbytes b).

(** A decoded BucketEntry (Bucket.h:137-183). *)
Record entry := mkEntry { ekey : hkey; eval : list byte }.

(** navy/common/Types.h DestructorEvent, the two used by Bucket. *)
Inductive devent := Recycled | Removed.

(** Bucket.h:139-141 computeSize = sizeof(BucketEntry)=16 + key + value, 32-bit. *)
Definition computeSize (ks vs : nat) : nat :=
  N.to_nat (wrap32 (16 + N.of_nat ks + N.of_nat vs)).

(** Bucket.h:168-176: the constructor's packed fields followed by key and value. *)
Definition entryBytes (e : entry) : list byte :=
  le_enc 4 (N.of_nat (length (kbytes (ekey e)))) ++
  le_enc 4 (N.of_nat (length (eval e))) ++
  le_enc 8 (khash (ekey e)) ++ kbytes (ekey e) ++ eval e.

(** Bucket.cpp:29-31 getIteratorEntry and the accessors Bucket.h:153-165: read the
    fields through the pointer (no bound other than the memory itself). *)
Definition readEntry (s : storage) (a : allocation) : option entry :=
  let* ks := rd 4 (sdata s) (aoff a) in
  let* vs := rd 4 (sdata s) (aoff a + 4) in
  let* h := rd 8 (sdata s) (aoff a + 8) in
  let* k := rd_bytes (sdata s) (aoff a + 16) (N.to_nat ks) in
  let* v := rd_bytes (sdata s) (aoff a + 16 + N.to_nat ks) (N.to_nat vs) in
  Some {| ekey := {| kbytes := k; khash := h |}; eval := v |}.

(** Bucket.cpp:61-71 find.  Result: [None] = UB/out of fuel. *)
Fixpoint findFrom (fuel : nat) (s : storage) (a : option allocation) (hk : hkey)
  : option (option (list byte)) :=
  match a with
  | None => Some None
  | Some a =>
    match fuel with
    | O => None
    | S fuel' =>
      let* e := readEntry s a in
      if hkey_eqb hk (ekey e) then Some (Some (eval e))
      else let* nx := getNext s a in findFrom fuel' s nx hk
    end
  end.

Definition loop_fuel (s : storage) : nat := S (length (sdata s)).

Definition find (s : storage) (hk : hkey) : option (option (list byte)) :=
  let* f := getFirst s in findFrom (loop_fuel s) s f hk.

(** Bucket.cpp:160-175 remove: the first entry with an equal key; the callback is
    invoked with event Removed.  Returns (storage, number removed, callbacks). *)
Fixpoint removeFrom (fuel : nat) (s : storage) (a : option allocation) (hk : hkey)
  : option (storage * nat * list (entry * devent)) :=
  match a with
  | None => Some (s, 0, [])
  | Some a =>
    match fuel with
    | O => None
    | S fuel' =>
      let* e := readEntry s a in
      if hkey_eqb hk (ekey e) then Some (removeOne s a, 1, [(e, Removed)])
      else let* nx := getNext s a in removeFrom fuel' s nx hk
    end
  end.

Definition remove (s : storage) (hk : hkey) :=
  let* f := getFirst s in removeFrom (loop_fuel s) s f hk.

(** Bucket.cpp:131-158 removeExpired's loop: collects the expired allocations and
    the callbacks; the removal is done after the loop in one call. *)
Fixpoint expiredFrom (fuel : nat) (s : storage) (a : option allocation)
  (expired : list byte -> bool) : option (list allocation * list (entry * devent)) :=
  match a with
  | None => Some ([], [])
  | Some a =>
    match fuel with
    | O => None
    | S fuel' =>
      let* e := readEntry s a in
      let* nx := getNext s a in
      let* r := expiredFrom fuel' s nx expired in
      if expired (eval e) then Some (a :: fst r, (e, Recycled) :: snd r) else Some r
    end
  end.

(** Bucket.cpp:131-158.  [checkExpired] may be absent (line 134-136). *)
Definition removeExpired (s : storage) (checkExpired : option (list byte -> bool))
  : option (storage * nat * list (entry * devent)) :=
  match checkExpired with
  | None => Some (s, 0, [])
  | Some ex =>
    let* f := getFirst s in
    let* r := expiredFrom (loop_fuel s) s f ex in
    Some (removeAll s (fst r), length (fst r), snd r)
  end.

(** Bucket.cpp:110-127: evict from the front until [curFree >= required].  An
    exhausted iterator here is a null dereference (XDCHECK only): [None]. *)
Fixpoint evictFrom (fuel : nat) (s : storage) (a : option allocation)
  (curFree required : nat) : option (storage * nat * list (entry * devent)) :=
  match fuel, a with
  | S fuel', Some a =>
    let* e := readEntry s a in
    let curFree' := curFree + slotSize (asize a) in
    if required <=? curFree' then Some (removeUntil s (Some a), 1, [(e, Recycled)])
    else
      let* nx := getNext s a in
      let* r := evictFrom fuel' s nx curFree' required in
      let '(s', n, evs) := r in Some (s', S n, (e, Recycled) :: evs)
  | _, _ => None
  end.

(** Bucket.cpp:90-129 makeSpace: (storage, evictions, expirations, callbacks). *)
Definition makeSpace (s : storage) (size : nat) (checkExpired : option (list byte -> bool))
  : option (storage * nat * nat * list (entry * devent)) :=
  let required := slotSize size in
  if required <=? remainingCapacity s then Some (s, 0, 0, [])
  else
    let* r := removeExpired s checkExpired in
    let '(s1, nexp, evs1) := r in
    let curFree := remainingCapacity s1 in
    if (0 <? nexp) && (required <=? curFree) then Some (s1, nexp, nexp, evs1)
    else
      let* f := getFirst s1 in
      let* r2 := evictFrom (loop_fuel s1) s1 f curFree required in
      let '(s2, n, evs2) := r2 in
      Some (s2, nexp + n, nexp, evs1 ++ evs2).

(** Bucket.cpp:73-88 insert. *)
Definition insert (s : storage) (e : entry) (checkExpired : option (list byte -> bool))
  : option (storage * nat * nat * list (entry * devent)) :=
  let size := computeSize (length (kbytes (ekey e))) (length (eval e)) in
  let* r := makeSpace s size checkExpired in
  let '(s1, evicted, nexp, evs) := r in
  let* r2 := allocate s1 size in
  match r2 with
  | (s2, Some a) => let* s3 := writeAlloc s2 a (entryBytes e) in Some (s3, evicted, nexp, evs)
  | (_, None) => None (* null view written through: XDCHECK(!alloc.done()) only *)
  end.

(** Iterate the entries (used by bfRebuild, Bucket.cpp:194-200). *)
Fixpoint entriesFrom (fuel : nat) (s : storage) (a : option allocation) : option (list entry) :=
  match a with
  | None => Some []
  | Some a =>
    match fuel with
    | O => None
    | S fuel' =>
      let* e := readEntry s a in
      let* nx := getNext s a in
      let* r := entriesFrom fuel' s nx in Some (e :: r)
    end
  end.
Definition entries (s : storage) : option (list entry) :=
  let* f := getFirst s in entriesFrom (loop_fuel s) s f.

(** Bucket.cpp:177-192 getRandomAlloc for a given random offset.  The key is built
    with std::make_pair(const char*, ...) into std::string, i.e. the bytes from the
    key's first byte up to the first NUL byte of the memory: running past the end
    of the buffer without meeting a NUL is UB ([None]). *)
Fixpoint cstr (l : list byte) : option (list byte) :=
  match l with
  | [] => None
  | b :: r => if (b =? 0)%N then Some [] else let* t := cstr r in Some (b :: t)
  end.
Fixpoint randomFrom (fuel : nat) (s : storage) (a : option allocation) (randOffset : nat)
  : option (option (list byte * list byte)) :=
  match a with
  | None => Some None
  | Some a =>
    match fuel with
    | O => None
    | S fuel' =>
      if randOffset <? aoff a + asize a then
        let* e := readEntry s a in
        let* k := cstr (skipn (aoff a + 16) (sdata s)) in
        Some (Some (k, eval e))
      else let* nx := getNext s a in randomFrom fuel' s nx randOffset
    end
  end.
Definition getRandomAlloc (s : storage) (randOffset : nat) :=
  let* f := getFirst s in randomFrom (loop_fuel s) s f randOffset.
