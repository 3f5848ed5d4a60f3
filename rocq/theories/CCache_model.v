(** Model of the two compact-cache bucket layouts and the per-bucket operations.

    /repo/cachelib/compact_cache/CCacheFixedLruBucket.h,
    CCacheVariableLruBucket.h and CCache.h (bucketSet, bucketGet, bucketPromote,
    bucketDel, bucketFind).

    Keys are numbers.  [None] is undefined behaviour: an access outside the
    bucket, or header and data sections running into each other.  Locks, resizing
    and statistics are not modelled; each operation below runs under the bucket's
    lock (get takes the lock once to read and once more to promote, so promotion
    is an operation of its own). *)
From Verif Require Export Bytes.

Inductive op :=
| OSet (k : N) (v : list byte)
| OGet (k : N)
| OPromote (k : N)
| ODel (k : N).

(** FOUND / NOTFOUND with the value copied out / ERROR (CCache.h BucketReturn). *)
Inductive ret := RFound (v : option (list byte)) | RNotFound | RError.

(** The eviction callback is called with each evicted entry in turn. *)
Notation evicted := (list (N * list byte)) (only parsing).

(** ** Fixed-size entries (CCacheFixedLruBucket.h) *)

(** An entry slot; key 0 is the empty key (CCacheFixedLruBucket.h:59-62). *)
Notation fentry := (N * list byte)%type (only parsing).
Notation fbucket := (list (N * list byte)) (only parsing).
Definition zeroEntry (vsz : nat) : fentry := (0%N, repeat 0%N vsz).
(** A fresh, zeroed bucket of [cap] entries. *)
Definition finit (cap vsz : nat) : fbucket := repeat (zeroEntry vsz) cap.

(** CCache.h:1190-1203 bucketFind with the handle's validity test
    (CCacheFixedLruBucket.h:88-91): stop at the first empty entry. *)
Fixpoint ffind (b : fbucket) (k : N) : option nat :=
  match b with
  | [] => None
  | (k', _) :: r =>
      if (k' =? 0)%N then None
      else if (k' =? k)%N then Some 0
      else option_map S (ffind r k)
  end.

(** CCacheFixedLruBucket.h:155-181 insert *)
Definition finsert (b : fbucket) (k : N) (v : list byte) : option (fbucket * evicted) :=
  let* last := nth_error b (length b - 1) in
  let ev := if (fst last =? 0)%N then [] else [last] in
  Some ((k, v) :: firstn (length b - 1) b, ev).

(** CCacheFixedLruBucket.h:192-202 promote *)
Definition fpromote (b : fbucket) (pos : nat) : option fbucket :=
  if pos =? 0 then Some b
  else
    let* w := nth_error b pos in
    (* memmove(entries+1, entries, pos); entries[0] = winner *)
    Some (w :: firstn pos b ++ skipn (pos + 1) b).

(** CCacheFixedLruBucket.h:204-208 needs_promote *)
Definition fneeds (b : fbucket) (pos : nat) : bool := length b / 4 <? pos.

(** CCacheFixedLruBucket.h:220-226 del *)
Definition fdel (vsz : nat) (b : fbucket) (pos : nat) : fbucket :=
  firstn pos b ++ skipn (pos + 1) b ++ [zeroEntry vsz].

(** CCacheFixedLruBucket.h:240-248 updateVal *)
Definition fupdate (b : fbucket) (pos : nat) (v : list byte) : option fbucket :=
  let* e := nth_error b pos in
  Some (firstn pos b ++ (fst e, v) :: skipn (pos + 1) b).

(** CCache.h:1092-1187 bucketSet, bucketGet, bucketPromote, bucketDel on a fixed bucket *)
Definition fstep (vsz : nat) (b : fbucket) (o : op) : option (fbucket * ret * evicted) :=
  match o with
  | OSet k v =>
      match ffind b k with
      | None => let* (b', ev) := finsert b k v in Some (b', RNotFound, ev)
      | Some p => let* b' := fupdate b p v in Some (b', RFound None, [])
      end
  | OGet k =>
      match ffind b k with
      | None => Some (b, RNotFound, [])
      | Some p => let* e := nth_error b p in Some (b, RFound (Some (snd e)), [])
      end
  | OPromote k =>
      match ffind b k with
      | None => Some (b, RNotFound, [])
      | Some p => if fneeds b p then let* b' := fpromote b p in Some (b', RFound None, [])
                  else Some (b, RFound None, [])
      end
  | ODel k =>
      match ffind b k with
      | None => Some (b, RNotFound, [])
      | Some p => let* e := nth_error b p in Some (fdel vsz b p, RFound (Some (snd e)), [])
      end
  end.

(** ** Variable-size entries (CCacheVariableLruBucket.h) *)

(** CCacheVariableLruBucket.h:134-142 EntryHdr *)
Record hdr := { h_key : N; h_size : nat; h_off : nat }.

(** A bucket: the [numEntries] live headers in order, [totalDataSize], and the
    byte array [data] seen as the home of the data section.  The headers live in
    the same array, at its front; instead of their bytes the model keeps them as
    a list and checks that the two sections do not meet ([sections]). *)
Record vbucket := { v_hdrs : list hdr; v_total : nat; v_data : list byte }.

Section Var.
(** sizeof(EntryHdr), kMaxValueSize; sizeof(EntryData) = 1. *)
Variables (hsz maxv : nat).
(** CCacheVariableLruBucket.h:156-157 kBucketDataSize *)
Definition bds : nat := maxv + hsz + 1.

Definition vinit (garbage : list byte) : vbucket :=
  {| v_hdrs := []; v_total := 0; v_data := garbage |}.

(** getFirstEntryDataOffset *)
Definition firstOff (b : vbucket) : nat := bds - v_total b.
(** room for [n] headers before the data section *)
Definition sections (n total : nat) : bool := n * hsz + total <=? bds.

(** Write the headerIndex byte (uint8_t) of the data at [off]. *)
Definition setIndex (m : list byte) (off i : nat) : option (list byte) :=
  wr m off [N.of_nat i mod 256]%N.
Definition getIndex (m : list byte) (off : nat) : option nat :=
  let* x := rd 1 m off in Some (N.to_nat x).

Definition setHdr (hs : list hdr) (i : nat) (h : hdr) : list hdr :=
  firstn i hs ++ h :: skipn (i + 1) hs.

(** CCacheVariableLruBucket.h:724-744 shiftEntriesData: the loop that moves the
    dataOffset of every entry in the window [cur, stop). *)
Fixpoint shiftHdrs (fuel : nat) (m : list byte) (hs : list hdr) (cur stop dist : nat)
  : option (list hdr) :=
  if cur <? stop then
    match fuel with
    | O => None
    | S fuel' =>
        let* i := getIndex m cur in
        let* h := nth_error hs i in
        shiftHdrs fuel' m
          (setHdr hs i {| h_key := h_key h; h_size := h_size h; h_off := h_off h + dist |})
          (cur + 1 + h_size h) stop dist
    end
  else Some hs.
Definition shiftEntriesData (b : vbucket) (src dist chunk : nat) : option vbucket :=
  let* hs := shiftHdrs (S chunk) (v_data b) (v_hdrs b) src (src + chunk) dist in
  let* bytes := rd_bytes (v_data b) src chunk in
  let* m := wr (v_data b) (src + dist) bytes in
  Some {| v_hdrs := hs; v_total := v_total b; v_data := m |}.

Definition valueAt (b : vbucket) (i : nat) : option (list byte) :=
  let* h := nth_error (v_hdrs b) i in rd_bytes (v_data b) (h_off h + 1) (h_size h).

(** CCacheVariableLruBucket.h:767-821 evictEntries, evictOneMoreEntryFn and the loop: collect
    positions from the LRU end until the free space suffices.  [pos] is
    evictedPos + 1; running below position 0 is an invalid access. *)
Fixpoint evictLoop (b : vbucket) (pos free required : nat) : option (list nat) :=
  if free <? required then
    match pos with
    | O => None
    | S p => let* h := nth_error (v_hdrs b) p in
             let* r := evictLoop b p (free + h_size h + hsz + 1) required in
             Some (p :: r)
    end
  else Some [].

(** std::sort by dataOffset (the offsets are distinct) *)
Fixpoint insertByOff (b : vbucket) (p : nat) (l : list nat) : list nat :=
  let off q := match nth_error (v_hdrs b) q with Some h => h_off h | None => 0 end in
  match l with
  | [] => [p]
  | q :: r => if off p <? off q then p :: l else q :: insertByOff b p r
  end.
Definition sortByOff (b : vbucket) (l : list nat) : list nat := fold_right (insertByOff b) [] l.

(** CCacheVariableLruBucket.h:836-870: move the chunks between evicted entries,
    right-most first; [arr] is the sorted array reversed. *)
Fixpoint moveChunks (b : vbucket) (arr : list nat) (dist : nat) : option (vbucket * nat) :=
  match arr with
  | [] => Some (b, dist)
  | p :: rest =>
      let* h := nth_error (v_hdrs b) p in
      let dist' := dist + h_size h + 1 in
      let* start := match rest with
                    | [] => Some (firstOff b)
                    | q :: _ => let* h' := nth_error (v_hdrs b) q in
                                Some (h_off h' + h_size h' + 1)
                    end in
      if h_off h <? start then None
      else
        let chunk := h_off h - start in
        if chunk =? 0 then moveChunks b rest dist'
        else let* b' := shiftEntriesData b start dist' chunk in moveChunks b' rest dist'
  end.

(** CCacheVariableLruBucket.h:767-881 evictEntries; also returns what the
    callback saw.  kMaxEntries = 255. *)
Definition evictEntries (b : vbucket) (required : nat) : option (vbucket * evicted) :=
  let n := length (v_hdrs b) in
  if bds <? v_total b + hsz * n then None
  else
    let free := bds - v_total b - hsz * n in
    if (required <=? free) && negb (n =? 255) then Some (b, [])
    else
      let* arr :=
        (if n =? 255 then
           match n with
           | O => None
           | S p => let* h := nth_error (v_hdrs b) p in
                    let* r := evictLoop b p (free + h_size h + hsz + 1) required in
                    Some (p :: r)
           end
         else evictLoop b n free required) in
      let* ev := fold_right (fun p acc =>
          let* l := acc in let* h := nth_error (v_hdrs b) p in let* v := valueAt b p in
          Some ((h_key h, v) :: l)) (Some []) arr in
      let* (b', dist) := moveChunks b (rev (sortByOff b arr)) 0 in
      Some ({| v_hdrs := firstn (n - length arr) (v_hdrs b'); v_total := v_total b' - dist;
               v_data := v_data b' |}, ev).

(** [for (i = from; i < from + cnt; i++) getEntryData(i)->headerIndex = f i] *)
Fixpoint reindex (hs : list hdr) (m : list byte) (from cnt : nat) (f : nat -> nat)
  : option (list byte) :=
  match cnt with
  | O => Some m
  | S c => let* h := nth_error hs from in
           let* old := getIndex m (h_off h) in
           let* m' := setIndex m (h_off h) (f old) in
           reindex hs m' (S from) c f
  end.

(** CCacheVariableLruBucket.h:291-374 insert; [Some None] is the return -1. *)
Definition vinsert (b : vbucket) (k : N) (v : list byte) : option (option (vbucket * evicted)) :=
  let size := length v in
  if maxv <? size then Some None
  else if 255 <? size then Some None
  else
    let* (b1, ev) := evictEntries b (size + hsz + 1) in
    let n := length (v_hdrs b1) in
    let total := v_total b1 + size + 1 in
    if negb (sections (n + 1) total) then None
    else
      let off := bds - total in
      let* m1 := wr (v_data b1) (off + 1) v in
      let* m2 := reindex (v_hdrs b1) m1 0 n S in
      let* m3 := setIndex m2 off 0 in
      Some (Some ({| v_hdrs := {| h_key := k; h_size := size; h_off := off |} :: v_hdrs b1;
                     v_total := total; v_data := m3 |}, ev)).

(** [for (i = 0; i <= pos; i++) getEntryData(i)->headerIndex = i] *)
Fixpoint reindexFrom (hs : list hdr) (m : list byte) (from cnt : nat) : option (list byte) :=
  match cnt with
  | O => Some m
  | S c => let* h := nth_error hs from in
           let* m' := setIndex m (h_off h) from in
           reindexFrom hs m' (S from) c
  end.

(** CCacheVariableLruBucket.h:387-413 promote *)
Definition vpromote (b : vbucket) (pos : nat) : option vbucket :=
  let* h := nth_error (v_hdrs b) pos in
  let hs := h :: firstn pos (v_hdrs b) ++ skipn (pos + 1) (v_hdrs b) in
  let* m := reindexFrom hs (v_data b) 0 (pos + 1) in
  Some {| v_hdrs := hs; v_total := v_total b; v_data := m |}.

(** CCacheVariableLruBucket.h:442-484 del *)
Definition vdel (b : vbucket) (pos : nat) : option vbucket :=
  let* h := nth_error (v_hdrs b) pos in
  let dist := h_size h + 1 in
  if h_off h <? firstOff b then None
  else
    let* b1 := shiftEntriesData b (firstOff b) dist (h_off h - firstOff b) in
    let n := length (v_hdrs b1) in
    let* m := reindex (v_hdrs b1) (v_data b1) (pos + 1) (n - (pos + 1)) pred in
    Some {| v_hdrs := firstn pos (v_hdrs b1) ++ skipn (pos + 1) (v_hdrs b1);
            v_total := v_total b1 - dist; v_data := m |}.

(** CCacheVariableLruBucket.h:518-586 updateVal *)
Definition vupdate (b : vbucket) (pos : nat) (v : list byte) : option (vbucket * evicted) :=
  let* h := nth_error (v_hdrs b) pos in
  let size := length v in
  if h_size h =? size then
    let* m := wr (v_data b) (h_off h + 1) v in
    let* b' := vpromote {| v_hdrs := v_hdrs b; v_total := v_total b; v_data := m |} pos in
    Some (b', [])
  else if size <? h_size h then
    let dist := h_size h - size in
    let* m1 := wr (v_data b) (h_off h + dist + 1) v in
    let* m2 := setIndex m1 (h_off h + dist) pos in
    if h_off h <? firstOff b then None
    else
      let* b1 := shiftEntriesData {| v_hdrs := v_hdrs b; v_total := v_total b; v_data := m2 |}
                   (firstOff b) dist (h_off h - firstOff b) in
      let* h1 := nth_error (v_hdrs b1) pos in
      let* b2 := vpromote {| v_hdrs := setHdr (v_hdrs b1) pos
                               {| h_key := h_key h1; h_size := size; h_off := h_off h1 + dist |};
                             v_total := v_total b1 - dist; v_data := v_data b1 |} pos in
      Some (b2, [])
  else
    let* b1 := vdel b pos in
    let* r := vinsert b1 (h_key h) v in
    match r with
    | Some (b2, ev) => Some (b2, ev)
    | None => Some (b1, [])   (* the return value of insert is ignored *)
    end.

(** bucketFind *)
Fixpoint hfind (hs : list hdr) (k : N) : option nat :=
  match hs with
  | [] => None
  | h :: r => if (h_key h =? k)%N then Some 0 else option_map S (hfind r k)
  end.

(** CCacheVariableLruBucket.h:420-423 needs_promote *)
Definition vneeds (pos : nat) : bool := 1 <? pos.

(** CCache.h:1092-1187 on a variable bucket *)
Definition vstep (b : vbucket) (o : op) : option (vbucket * ret * evicted) :=
  match o with
  | OSet k v =>
      match hfind (v_hdrs b) k with
      | None => let* r := vinsert b k v in
                match r with
                | None => Some (b, RError, [])
                | Some (b', ev) => Some (b', RNotFound, ev)
                end
      | Some p => let* (b', ev) := vupdate b p v in Some (b', RFound None, ev)
      end
  | OGet k =>
      match hfind (v_hdrs b) k with
      | None => Some (b, RNotFound, [])
      | Some p => let* v := valueAt b p in Some (b, RFound (Some v), [])
      end
  | OPromote k =>
      match hfind (v_hdrs b) k with
      | None => Some (b, RNotFound, [])
      | Some p => if vneeds p then let* b' := vpromote b p in Some (b', RFound None, [])
                  else Some (b, RFound None, [])
      end
  | ODel k =>
      match hfind (v_hdrs b) k with
      | None => Some (b, RNotFound, [])
      | Some p => let* v := valueAt b p in let* b' := vdel b p in Some (b', RFound (Some v), [])
      end
  end.
End Var.

(** Histories *)
Section Hist.
Context {B : Type} (step : B -> op -> option (B * ret * evicted)).
Fixpoint hist (b : B) (os : list op) : option (B * list (ret * evicted)) :=
  match os with
  | [] => Some (b, [])
  | o :: r => let* (b', x, ev) := step b o in
              let* (b'', l) := hist b' r in Some (b'', (x, ev) :: l)
  end.
End Hist.
