(** Model of the default flash index, cachelib/navy/block_cache/SparseMapIndex.{h,cpp}:
    an array of hash maps guarded by mutexes.  Every call below runs under the exclusive
    (or shared) lock of the one hash map it touches, so a call on one key is one step;
    reset, computeSize and the iterator take the locks one map after the other and are
    modelled as one step (simplification: no concurrent writer while they run).
    tsl::sparse_map is modelled as an association list: find, try_emplace (append if the
    key is absent) and erase, which is the contract the code uses.  The hits estimator and
    the counter of never-read entries (statistics) are not modelled. *)
From Verif Require Import Bytes.
Open Scope N_scope.

(** Index.h:46-72 ItemRecord.  [irX] is the union of totalHits and itemHistory. *)
Record irec := mkIR { irAddr : N; irHint : N; irX : N; irHits : N }.

Definition smap := list (N * irec).

(** tsl::sparse_map::find *)
Fixpoint mfind (m : smap) (k : N) : option irec :=
  match m with
  | [] => None
  | (k', r) :: m' => if k =? k' then Some r else mfind m' k
  end.
(** writing through it.value() *)
Fixpoint mset (m : smap) (k : N) (r : irec) : smap :=
  match m with
  | [] => []
  | (k', r') :: m' => if k =? k' then (k', r) :: m' else (k', r') :: mset m' k r
  end.
(** tsl::sparse_map::erase *)
Fixpoint merase (m : smap) (k : N) : smap :=
  match m with
  | [] => []
  | (k', r') :: m' => if k =? k' then m' else (k', r') :: merase m' k
  end.
(** tsl::sparse_map::try_emplace: (map, inserted) *)
Definition mtry (m : smap) (k : N) (r : irec) : smap * bool :=
  match mfind m k with Some _ => (m, false) | None => (m ++ [(k, r)], true) end.

(** SparseMapIndex.h:62 ExtraField *)
Inductive xfield := KTotalHits | KItemHitHistory.

(** bucketMaps_, numBucketMaps_ of them (SparseMapIndex.h:236) *)
Definition sidx := list smap.

(** SparseMapIndex.h:206-208 bucketMap: (hash >> 32) & (numBucketMaps_ - 1), a uint32_t. *)
Definition bucketMap (n h : N) : N := N.land (N.shiftr h 32) (n - 1).
(** SparseMapIndex.h:210 subkey: hash & 0xffffffff *)
Definition subkey (h : N) : N := N.land h 4294967295.
(** SparseMapIndex.h:212-220 getMutexOfBucketMap: mutex_[bucketMap & (totalMutexes_ - 1)] *)
Definition mutexOf (nmutex b : N) : N := N.land b (nmutex - 1).

(** SparseMapIndex.h:222 getMap: None is an access past the array. *)
Definition getMap (s : sidx) (h : N) : option smap :=
  nth_error s (N.to_nat (bucketMap (N.of_nat (length s)) h)).
Fixpoint lupd {A} (l : list A) (i : nat) (x : A) : list A :=
  match l, i with
  | [], _ => []
  | _ :: l', O => x :: l'
  | y :: l', S i' => y :: lupd l' i' x
  end.
Definition putMap (s : sidx) (h : N) (m : smap) : sidx :=
  lupd s (N.to_nat (bucketMap (N.of_nat (length s)) h)) m.

(** SparseMapIndex.cpp:29-34 safeInc on uint8_t *)
Definition safeInc (v : N) : N := if v <? 255 then v + 1 else v.

(** SparseMapIndex.cpp:110-124 lookup *)
Definition s_lookup (x : xfield) (s : sidx) (h : N) : option (sidx * option irec) :=
  match getMap s h with None => None | Some m =>
  match mfind m (subkey h) with
  | Some r =>
      let e := match x with KTotalHits => safeInc (irX r) | KItemHitHistory => irX r end in
      Some (putMap s h (mset m (subkey h) (mkIR (irAddr r) (irHint r) e (safeInc (irHits r)))),
            Some r)
  | None => Some (s, None)
  end end.

(** SparseMapIndex.cpp:126-135 peek *)
Definition s_peek (s : sidx) (h : N) : option (option irec) :=
  match getMap s h with None => None | Some m => Some (mfind m (subkey h)) end.

(** SparseMapIndex.cpp:137-159 insert *)
Definition s_insert (s : sidx) (h a z : N) : option (sidx * option irec) :=
  match getMap s h with None => None | Some m =>
  match mfind m (subkey h) with
  | Some r => Some (putMap s h (mset m (subkey h) (mkIR a z 0 0)), Some r)
  | None => Some (putMap s h (fst (mtry m (subkey h) (mkIR a z 0 0))), None)
  end end.

(** SparseMapIndex.cpp:161-171 insertIfNotExists *)
Definition s_insertNew (s : sidx) (h a z : N) : option (sidx * option irec) :=
  match getMap s h with None => None | Some m =>
  let '(m', inserted) := mtry m (subkey h) (mkIR a z 0 0) in
  if inserted then Some (putMap s h m', None) else Some (putMap s h m', mfind m' (subkey h))
  end.

(** SparseMapIndex.cpp:173-195 replaceIfMatch *)
Definition s_replace (x : xfield) (s : sidx) (h new old : N) : option (sidx * bool) :=
  match getMap s h with None => None | Some m =>
  match mfind m (subkey h) with
  | Some r =>
      if irAddr r =? old then
        let e := match x with
                 | KTotalHits => irX r
                 | KItemHitHistory =>
                     let e := N.shiftr (irX r) 1 in
                     if 0 <? irHits r then N.lor e 128 else e
                 end in
        Some (putMap s h (mset m (subkey h) (mkIR new (irHint r) e 0)), true)
      else Some (s, false)
  | None => Some (s, false)
  end end.

(** SparseMapIndex.cpp:220-232 remove *)
Definition s_remove (s : sidx) (h : N) : option (sidx * option irec) :=
  match getMap s h with None => None | Some m =>
  match mfind m (subkey h) with
  | Some r => Some (putMap s h (merase m (subkey h)), Some r)
  | None => Some (s, None)
  end end.

(** SparseMapIndex.cpp:234-245 removeIfMatch *)
Definition s_removeIf (s : sidx) (h a : N) : option (sidx * bool) :=
  match getMap s h with None => None | Some m =>
  match mfind m (subkey h) with
  | Some r => if irAddr r =? a then Some (putMap s h (merase m (subkey h)), true)
              else Some (s, false)
  | None => Some (s, false)
  end end.

(** SparseMapIndex.cpp:247-253 reset *)
Definition s_reset (s : sidx) : sidx := map (fun _ => []) s.
(** SparseMapIndex.cpp:255-262 computeSize *)
Definition s_size (s : sidx) : nat := fold_right (fun m a => (length m + a)%nat) O s.

(** SparseMapIndex.cpp:36-79 the iterator: each map in turn; the entry's token is
    (bucketMap << 32) | subkey. *)
Fixpoint s_iter_from (b : N) (s : list smap) : list (N * irec) :=
  match s with
  | [] => []
  | m :: s' => map (fun e => (N.lor (N.shiftl b 32) (fst e), snd e)) m ++ s_iter_from (b + 1) s'
  end.
Definition s_iter (s : sidx) : list (N * irec) := s_iter_from 0 s.

(** Thrift integers are signed (objects.thrift:24-35): storing a uintW and reading it back
    converts modulo 2^W both ways. *)
Definition to_signed (w : N) (v : N) : Z :=
  if v <? 2 ^ (w - 1) then Z.of_N v else (Z.of_N v - Z.of_N (2 ^ w))%Z.
Definition of_signed (w : N) (z : Z) : N := Z.to_N (z mod Z.of_N (2 ^ w))%Z.

(** objects.thrift:24-35 *)
Record tentry := mkTE { teKey : Z; teAddr : Z; teHint : Z; teTot : Z; teCur : Z }.
Record tbucket := mkTB { tbId : Z; tbEntries : list tentry }.

(** SparseMapIndex.cpp:330-380 persist: one thrift bucket per map, in order. *)
Definition pers_entry (e : N * irec) : tentry :=
  mkTE (to_signed 32 (fst e)) (to_signed 32 (irAddr (snd e))) (to_signed 16 (irHint (snd e)))
       (to_signed 8 (irX (snd e))) (to_signed 8 (irHits (snd e))).
Fixpoint pers_from (b : N) (s : list smap) : list tbucket :=
  match s with
  | [] => []
  | m :: s' => mkTB (to_signed 32 b) (map pers_entry m) :: pers_from (b + 1) s'
  end.
Definition s_persist (s : sidx) : list tbucket := pers_from 0 s.

(** SparseMapIndex.cpp:382-412 recover.  [None]: throws (bucket id out of range, or the
    stream ended).  Returns what is left of the stream too. *)
Definition rec_entry (m : smap) (e : tentry) : smap :=
  fst (mtry m (of_signed 32 (teKey e))
         (mkIR (of_signed 32 (teAddr e)) (of_signed 16 (teHint e)) (of_signed 8 (teTot e))
               (of_signed 8 (teCur e)))).
Fixpoint rec_loop (fuel : nat) (s : sidx) (l : list tbucket) : option (sidx * list tbucket) :=
  match fuel with
  | O => Some (s, l)
  | S f =>
      match l with
      | [] => None
      | b :: l' =>
          let id := of_signed 32 (tbId b) in
          match nth_error s (N.to_nat id) with
          | None => None
          | Some m => rec_loop f (lupd s (N.to_nat id) (fold_left rec_entry (tbEntries b) m)) l'
          end
      end
  end.
Definition s_recover (s : sidx) (l : list tbucket) : option (sidx * list tbucket) :=
  let s0 := if Nat.ltb 0 (s_size s) then s_reset s else s in
  rec_loop (length s0) s0 l.

(** SparseMapIndex.cpp:81-96 initialize *)
Definition s_new (n : nat) : sidx := repeat [] n.

(** One call of the index API (Index.h:300-400).  [ORestart] is persist, a new index of the
    same size, recover. *)
Inductive iop :=
| OLookup (h : N) | OPeek (h : N) | OInsert (h a z : N) | OInsertNew (h a z : N)
| OReplace (h new old : N) | ORemove (h : N) | ORemoveIf (h a : N)
| OReset | OSize | OIter | ORestart.
Inductive ires :=
| RLook (r : option irec) | RBool (b : bool) | RUnit | RSize (n : N) | REnts (l : list (N * irec)).

Definition lk (o : option (sidx * option irec)) : option (sidx * ires) :=
  match o with Some (s, r) => Some (s, RLook r) | None => None end.
Definition bl (o : option (sidx * bool)) : option (sidx * ires) :=
  match o with Some (s, r) => Some (s, RBool r) | None => None end.

Definition s_step (x : xfield) (s : sidx) (o : iop) : option (sidx * ires) :=
  match o with
  | OLookup h => lk (s_lookup x s h)
  | OPeek h => match s_peek s h with Some r => Some (s, RLook r) | None => None end
  | OInsert h a z => lk (s_insert s h a z)
  | OInsertNew h a z => lk (s_insertNew s h a z)
  | OReplace h n o => bl (s_replace x s h n o)
  | ORemove h => lk (s_remove s h)
  | ORemoveIf h a => bl (s_removeIf s h a)
  | OReset => Some (s_reset s, RUnit)
  | OSize => Some (s, RSize (N.of_nat (s_size s)))
  | OIter => Some (s, REnts (s_iter s))
  | ORestart => match s_recover (s_new (length s)) (s_persist s) with
                | Some (s', []) => Some (s', RUnit) | _ => None end
  end.

Fixpoint s_run (x : xfield) (s : sidx) (l : list iop) : option (sidx * list ires) :=
  match l with
  | [] => Some (s, [])
  | o :: l' => match s_step x s o with
               | None => None
               | Some (s', r) => match s_run x s' l' with
                                 | None => None
                                 | Some (s'', rs) => Some (s'', r :: rs) end
               end
  end.

(** What an index record can hold (Index.h:46-72): arguments outside do not exist in C++. *)
Definition op_ok (o : iop) : Prop :=
  match o with
  | OLookup h | OPeek h | ORemove h => h < two64
  | OInsert h a z | OInsertNew h a z => h < two64 /\ a < two32 /\ z < 65536
  | OReplace h n o => h < two64 /\ n < two32 /\ o < two32
  | ORemoveIf h a => h < two64 /\ a < two32
  | _ => True
  end.
