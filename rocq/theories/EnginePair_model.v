(** * EnginePair: routing between the small-item and the large-item flash engine.
    Models /repo/cachelib/navy/engine/EnginePair.{h,cpp} (and isItemLarge, navy/common/Types.h:114).
    An engine is a lossy store [key -> option val]; what an engine call answers and does is given
    by a [reply], constrained by [ins_ok], [rem_ok], [look_ok] below (BigHash satisfies them by
    C22, NoopEngine trivially).  Calls on one key are executed one at a time (scheduled ones by
    C33; the callers of the synchronous ones must not overlap them with others on the same key);
    a job that got Status::Retry stays pending and is attempted again, while jobs of other keys
    and evictions happen in between.  Statistics are not modelled. *)
From Coq Require Import List Arith Bool Lia.
Import ListNotations.

Definition key := nat.
Definition val := nat.
(** navy/common/Types.h:34-54 *)
Inductive status := Ok | NotFound | Rejected | Retry | DeviceError | BadState | ChecksumError.
Definition status_eqb (a b : status) : bool :=
  match a, b with
  | Ok, Ok | NotFound, NotFound | Rejected, Rejected | Retry, Retry | DeviceError, DeviceError
  | BadState, BadState | ChecksumError, ChecksumError => true
  | _, _ => false
  end.

Definition eng := key -> option val.
Definition put (e : eng) (k : key) (v : option val) : eng := fun x => if x =? k then v else e x.

(** What an engine call does to the entry of its key. *)
Inductive effect := Keep | Lose | Take.
Definition apply_eff (e : eng) (k : key) (v : val) (f : effect) : eng :=
  match f with Keep => e | Lose => put e k None | Take => put e k (Some v) end.
(** An insert answering Ok stores the value; Retry changes nothing; Rejected stores nothing new;
    after an error the engine may hold the old value, the new one, or none. *)
Definition ins_ok (r : status * effect) : Prop :=
  match r with
  | (Ok, f) => f = Take
  | (Retry, f) => f = Keep
  | (Rejected, f) => f <> Take
  | (NotFound, _) => False
  | _ => True
  end.
(** A remove answering Ok or NotFound leaves no entry; Retry changes nothing; after an error the
    old value or none. *)
Definition rem_ok (r : status * effect) : Prop :=
  match r with
  | (Ok, f) | (NotFound, f) => f = Lose
  | (Retry, f) => f = Keep
  | (_, f) => f <> Take
  end.
(** The small engine compares full keys: it answers Ok to a remove only if it held the key. *)
Definition rem_found (e : eng) (k : key) (r : status * effect) : Prop :=
  fst r = Ok -> e k <> None.
(** A lookup answers Ok only with the stored value. *)
Definition look_ok (e : eng) (k : key) (st : status) (v : val) : Prop := st = Ok -> e k = Some v.

(** navy/common/Types.h:114-118 *)
Definition isItemLarge (keySize valueSize smallItemMaxSize : nat) : bool := smallItemMaxSize <? keySize + valueSize.

(** The pair: (small, large). *)
Record pair := mkPair { small : eng; large : eng }.

(** EnginePair.cpp:78-117 insertInternal; [big]: select() chose the large engine (:40-47).
    [r1]: reply of selection.first.insert, [r2]: reply of selection.second.remove.
    Result: new engines, status, new skipInsertion. *)
Definition insertInternal (p : pair) (k : key) (v : val) (big skip : bool) (r1 r2 : status * effect)
  : pair * status * bool :=
  let '(p1, st, early, skip1) :=
    if skip then (p, Ok, false, skip)
    else
      let e1 := apply_eff (if big then large p else small p) k v (snd r1) in
      let p1 := if big then mkPair (small p) e1 else mkPair e1 (large p) in
      if status_eqb (fst r1) Retry then (p1, Retry, true, skip) else (p1, fst r1, false, true) in
  if early then (p1, st, skip1)
  else if status_eqb st DeviceError then (p1, st, skip1)
  else
    let e2 := apply_eff (if big then small p1 else large p1) k v (snd r2) in
    let p2 := if big then mkPair e2 (large p1) else mkPair (small p1) e2 in
    if status_eqb (fst r2) Retry then (p2, Retry, skip1)
    else if status_eqb (fst r2) Ok || status_eqb (fst r2) NotFound then (p2, st, skip1)
    else (p2, BadState, skip1).

(** EnginePair.cpp:160-178 lookupInternal (and :57-75 lookupSync, the same loop).
    [rl]/[rs]: (status, value) answered by the large/small engine.  Result: status, value, skip. *)
Definition lookupInternal (skipLarge : bool) (rl rs : status * val) : status * val * bool :=
  let '(st, v, early, skip1) :=
    if skipLarge then (NotFound, 0, false, true)
    else if status_eqb (fst rl) Retry then (Retry, 0, true, false) else (fst rl, snd rl, false, true) in
  if early then (st, v, skip1)
  else if status_eqb st NotFound then (fst rs, snd rs, skip1)
  else (st, v, skip1).

(** EnginePair.cpp:217-237 removeHashedKeyInternal. *)
Definition removeInternal (p : pair) (k : key) (skipSmall : bool) (rs rl : status * effect) : pair * status * bool :=
  let '(p1, st) := if skipSmall then (p, NotFound)
                   else (mkPair (apply_eff (small p) k 0 (snd rs)) (large p), fst rs) in
  if status_eqb st NotFound
  then (mkPair (small p1) (apply_eff (large p1) k 0 (snd rl)), fst rl, true)
  else (p1, st, skipSmall).

(** EnginePair.cpp:49-55 couldExist *)
Definition couldExist (s l : bool) : bool := s || l.

(** ** Jobs.  A pending job carries its skip flag; [jfirst] is a ghost: what the selected engine
    answered to the insert of an earlier attempt (the code forgets it, EnginePair.cpp:85). *)
Inductive op := OInsert (v : val) (big : bool) | OLookup | ORemove.
Record jobst := mkJob { jop : op; jskip : bool; jfirst : status }.
(** A completed call: key, operation, reported status, reported value, and (ghost, inserts only)
    the answer of the selected engine. *)
Record event := mkEv { ekey : key; eop : op; est : status; eval : val; efirst : status }.
Record sys := mkSys { eng_pair : pair; job : key -> option jobst; hist : list event }.
Definition init : sys := mkSys (mkPair (fun _ => None) (fun _ => None)) (fun _ => None) [].
Definition setJob (f : key -> option jobst) (k : key) (j : option jobst) : key -> option jobst :=
  fun x => if x =? k then j else f x.

(** After an attempt: pending again on Retry (EnginePair.cpp:131-133, 187-189, 243-245), otherwise
    completed with the callback. *)
Definition settle (s : sys) (p : pair) (k : key) (o : op) (st : status) (v : val) (skip : bool) (f : status) : sys :=
  if status_eqb st Retry then mkSys p (setJob (job s) k (Some (mkJob o skip f))) (hist s)
  else mkSys p (setJob (job s) k None) (mkEv k o st v f :: hist s).

Inductive step : sys -> sys -> Prop :=
| st_start s k o : job s k = None -> step s (mkSys (eng_pair s) (setJob (job s) k (Some (mkJob o false Ok))) (hist s))
| st_insert s k v big skip f r1 r2 p st skip' :
    job s k = Some (mkJob (OInsert v big) skip f) -> ins_ok r1 -> rem_ok r2 ->
    insertInternal (eng_pair s) k v big skip r1 r2 = (p, st, skip') ->
    step s (settle s p k (OInsert v big) st 0 skip' (if skip then f else fst r1))
| st_lookup s k skip f rl rs st v skip' :
    job s k = Some (mkJob OLookup skip f) ->
    look_ok (large (eng_pair s)) k (fst rl) (snd rl) -> look_ok (small (eng_pair s)) k (fst rs) (snd rs) ->
    lookupInternal skip rl rs = (st, v, skip') ->
    step s (settle s (eng_pair s) k OLookup st v skip' f)
| st_remove s k skip f rs rl p st skip' :
    job s k = Some (mkJob ORemove skip f) -> rem_ok rs -> rem_found (small (eng_pair s)) k rs -> rem_ok rl ->
    removeInternal (eng_pair s) k skip rs rl = (p, st, skip') ->
    step s (settle s p k ORemove st 0 skip' f)
| st_lose_small s k : step s (mkSys (mkPair (put (small (eng_pair s)) k None) (large (eng_pair s))) (job s) (hist s))
| st_lose_large s k : step s (mkSys (mkPair (small (eng_pair s)) (put (large (eng_pair s)) k None)) (job s) (hist s)).

Inductive reach : sys -> Prop :=
| r_init : reach init
| r_step s s' : reach s -> step s s' -> reach s'.
