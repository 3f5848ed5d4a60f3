(** Model of the objects of an object cache: who owns them, when they are destroyed and how their sizes are
    added up (/repo/cachelib/object_cache/ObjectCache.h).

    Any number of threads; a step is one access to shared data: of the cache underneath, of
    the total, of the size in a record.  The cache underneath is an index from keys to items with a
    reference count (its own steps are the subject of C01, C05, C16, C41): the last reference to an
    item outside the index going away, or an eviction, leads to its callback.  Every object handed
    over has a number of its own, as a unique_ptr does.  Copies of a shared_ptr are counted as
    handles of their own (they share one; the item goes away when the last does).  An exception of a user's callback, expiry (a
    removal), allocation failures of shared_ptr and the padding counter are not modelled. *)
From Coq Require Import List Arith ZArith Bool Lia.
Import ListNotations.
Open Scope Z_scope.

Definition W : Z := 2 ^ 64.
Definition wr (x : Z) : Z := x mod W.

(** ObjectCacheConfig.h: the settings that matter here (251, 132, 179). *)
Record conf := mkConf {
  tracking : bool;   (* objectSizeTrackingEnabled *)
  destr : bool;      (* setItemDestructor; otherwise setRemoveCb *)
  nvm : bool;        (* enableNvm *)
  ovf : bool         (* an item may be out of reference counts (in the code: yes) *)
}.

Inductive phase :=
| PNas    (* a call has allocated it, the call's unique_ptr owns the object *)
| PAdd    (* the same, the size has been added to the total *)
| PLive   (* in the index or referred to *)
| PDying  (* its callback is to be run *)
| PSub    (* in the callback, the size has been subtracted *)
| PDead.  (* memory given back *)

(** CacheItem with its reference count and flags, and the record in it, ObjectCacheItem (ObjectCache.h:46-49). *)
Record item := mkI {
  ikey : nat;
  iobj : nat;        (* objectPtr *)
  isz : Z;           (* objectSize *)
  irefs : Z;         (* handles *)
  iin : bool;        (* in the index *)
  iclean : bool;     (* NvmClean and not NvmEvicted: in NVM, or queued for it *)
  iph : phase
}.

(** The deleter of a shared_ptr that keeps an item (ObjectCache.h:158-200, 1143). *)
Inductive kind := KRead | KWrite    (* Deleter<const T>, Deleter<T> *)
| KRepl                             (* the lambda of a replaced object *)
| KConv.                            (* shared_ptr<T> converted to shared_ptr<const T> *)
Inductive ptr :=
| PItem (i : nat) (k : kind)
| PObj (o : nat).                   (* made from the unique_ptr *)

(** Calls under way: where in insertOrReplace (1096), insert (1160), remove, mutateObject (1373), updateObjectSize (1406), a lookup in NVM or
    the release of an item (CacheAllocator.h:3560-3640) a thread is. *)
Inductive op :=
| OCall (r : bool) (i : nat)                  (* insertOrReplace (r) or insert, item allocated *)
| OIns (i : nat) (sz : Z)                     (* insert, item in the index, size not yet added *)
| OIns2 (i : nat) (old : option nat)          (* insertOrReplace, item in the index *)
| ORel (i : nat)                              (* a remover's handle *)
| OUpd (i : nat) (k : kind) (d : Z)           (* updateObjectSize, mutateObject: total not yet changed *)
| ONvm (i : nat)                              (* item read from NVM, not yet in the index *)
| ODest (i : nat) (ev : bool)                 (* to be destroyed; evicted *)
| OCb (i : nat).                              (* user's callback to be called *)

(** ObjectCache.h:735-790 (members) and what the users hold. *)
Record state := mkSt {
  items : list item;
  tot : Z;               (* totalObjectSizeBytes_ *)
  gone : list nat;       (* objects destroyed *)
  nobj : nat;            (* objects made so far *)
  ptrs : list ptr;       (* shared_ptrs users have *)
  ops : list op;
  ub : bool              (* undefined behaviour has happened *)
}.
Definition init : state := mkSt [] 0 [] 0 [] [] false.

Fixpoint takeAt {A} (n : nat) (l : list A) : option (A * list A) :=
  match l with
  | [] => None
  | x :: l => match n with
              | O => Some (x, l)
              | S n => match takeAt n l with Some (y, r) => Some (y, x :: r) | None => None end
              end
  end.
Fixpoint upd {A} (l : list A) (i : nat) (x : A) : list A :=
  match l with [] => [] | y :: l => match i with O => x :: l | S i => y :: upd l i x end end.
Fixpoint lookup (k : nat) (l : list item) : option nat :=
  match l with
  | [] => None
  | it :: l => if iin it && (ikey it =? k)%nat then Some O else option_map S (lookup k l)
  end.

Definition setPh (it : item) (p : phase) (refs : Z) (inx : bool) : item :=
  mkI (ikey it) (iobj it) (isz it) refs inx (iclean it) p.
Definition setSz (it : item) (z : Z) : item := mkI (ikey it) (iobj it) z (irefs it) (iin it) (iclean it) (iph it).
Definition setClean (it : item) (b : bool) : item := mkI (ikey it) (iobj it) (isz it) (irefs it) (iin it) b (iph it).

Definition putIt (s : state) (i : nat) (it : item) : state :=
  mkSt (upd (items s) i it) (tot s) (gone s) (nobj s) (ptrs s) (ops s) (ub s).
Definition withTot (s : state) (t : Z) : state := mkSt (items s) t (gone s) (nobj s) (ptrs s) (ops s) (ub s).
Definition withOps (s : state) (l : list op) : state := mkSt (items s) (tot s) (gone s) (nobj s) (ptrs s) l (ub s).
Definition withPtrs (s : state) (l : list ptr) : state := mkSt (items s) (tot s) (gone s) (nobj s) l (ops s) (ub s).
Definition destroy (s : state) (o : nat) : state := mkSt (items s) (tot s) (o :: gone s) (nobj s) (ptrs s) (ops s) (ub s).

(** A handle is dropped (CacheAllocator.h release, releaseBackToAllocator). *)
Definition unref (s : state) (i : nat) : option state :=
  match nth_error (items s) i with
  | Some it =>
    let r := irefs it - 1 in
    if (r =? 0) && negb (iin it)
    then Some (withOps (putIt s i (setPh it PDying r false)) (ODest i false :: ops s))
    else Some (putIt s i (setPh it (iph it) r (iin it)))
  | None => None
  end.

Inductive action :=
| SInsert (r : bool) (k : nat) (sz : Z) (ok : bool)  (* insertOrReplace / insert; the allocation succeeds *)
| SFind (k : nat) (w : bool)                         (* find, inspectCache / findToWrite, peekToWrite *)
| SRemove (k : nat)                                  (* remove, ~ObjectCache *)
| SEvict (i : nat) (q : bool)                        (* an item is evicted; q: queued for NVM *)
| SNvm (k : nat) (sz : Z)                            (* find reads the object from NVM *)
| SDup (j : nat)                                     (* shared_ptr copied *)
| SConv (j : nat)                                    (* shared_ptr<T> to shared_ptr<const T> *)
| SDrop (j : nat)                                    (* shared_ptr destroyed *)
| SSize (j : nat)                                    (* getObjectSize, getExpiryTimeSec, ... *)
| SUpd (j : nat) (sz : Z)                            (* updateObjectSize *)
| SMut (j : nat) (d : Z)                             (* mutateObject whose callback changed the memory used by d *)
| SStep (n : nat) (x : bool).                        (* call n goes on; x: out of references / NVM race lost *)

Definition hasDeleter (k : kind) : bool := match k with KRead | KWrite => true | _ => false end.
(** __atomic_fetch_add / exchange of the record's size *)
Definition begUpd (s : state) (i : nat) (k : kind) (rest : list ptr) (z d : Z) : option state :=
  match nth_error (items s) i with
  | Some it => Some (withOps (withPtrs (putIt s i (setSz it z)) rest) (OUpd i k d :: ops s))
  | None => None
  end.

Definition opStep (c : conf) (s : state) (o : op) (rest : list op) (x : bool) : option state :=
  let s0 := withOps s rest in
  match o with
  | OCall r i =>
    match nth_error (items s) i with
    | Some it =>
      if r then
        match iph it with
        | PNas =>
          (* ObjectCache.h:1128-1133 *)
          Some (withTot (putIt (withOps s (o :: rest)) i (setPh it PAdd (irefs it) false))
                  (if tracking c then wr (tot s + isz it) else tot s))
        | _ =>
          (* 1135: l1Cache_->insertOrReplace *)
          match lookup (ikey it) (items s) with
          | Some old =>
            if x && ovf c then
              (* RefcountOverflow; unwinding destroys the object and the handle *)
              Some (destroy (putIt s0 i (setPh it PDead 0 false)) (iobj it))
            else
              match nth_error (items s) old with
              | Some ot =>
                Some (withOps (putIt (putIt s0 old (setPh ot PLive (irefs ot + 1) false)) i (setPh it PLive (irefs it) true))
                        (OIns2 i (Some old) :: rest))
              | None => None
              end
          | None => Some (withOps (putIt s0 i (setPh it PLive (irefs it) true)) (OIns2 i None :: rest))
          end
        end
      else
        (* 1187-1191: l1Cache_->insert *)
        match lookup (ikey it) (items s) with
        | Some _ => Some (withPtrs (putIt s0 i (setPh it PDead 0 false)) (PObj (iobj it) :: ptrs s))
        | None => Some (withOps (putIt s0 i (setPh it PLive (irefs it) true)) (OIns i (isz it) :: rest))
        end
    | None => None
    end
  | OIns i sz =>
    (* 1193-1205 *)
    Some (withTot (withPtrs s0 (PItem i KWrite :: ptrs s)) (if tracking c then wr (tot s + sz) else tot s))
  | OIns2 i old =>
    (* 1137-1155 *)
    Some (withPtrs s0 (PItem i KWrite :: match old with Some j => [PItem j KRepl] | None => [] end ++ ptrs s))
  | ORel i => unref s0 i
  | OUpd i k d =>
    (* 1393, 1399, 1429-1435 *)
    Some (withTot (withPtrs s0 (PItem i k :: ptrs s)) (wr (tot s + d)))
  | ONvm i =>
    (* NvmCache.h:1393-1428: insertFromNvm, or the handle is dropped *)
    match nth_error (items s) i with
    | Some it =>
      match lookup (ikey it) (items s) with
      | None => if x then unref s0 i
                else Some (withPtrs (putIt s0 i (setPh it PLive (irefs it) true)) (PItem i KRead :: ptrs s))
      | Some _ => unref s0 i
      end
    | None => None
    end
  | ODest i ev =>
    match nth_error (items s) i with
    | Some it =>
      if destr c && (ev && iclean it) then
        (* releaseBackToAllocator (CacheAllocator.h:3608-3613): the item destructor is skipped *)
        Some (putIt s0 i (setPh it PDead 0 false))
      else
        (* ObjectCache.h:852-859, 886-893 *)
        Some (withOps (withTot (putIt s0 i (setPh it PSub 0 false)) (if tracking c then wr (tot s - isz it) else tot s)) (OCb i :: rest))
    | None => None
    end
  | OCb i =>
    (* 860-865, 894-899: the user's callback deletes the object *)
    match nth_error (items s) i with
    | Some it => Some (destroy (putIt s0 i (setPh it PDead 0 false)) (iobj it))
    | None => None
    end
  end.

Definition step (c : conf) (s : state) (a : action) : option state :=
  if ub s then None else
  match a with
  | SInsert r k sz ok =>
    let o := nobj s in
    let s1 := mkSt (items s) (tot s) (gone s) (S o) (ptrs s) (ops s) (ub s) in
    if (sz <? 0) || (W <=? sz) then None
    else if (tracking c && (sz =? 0)) || (negb (tracking c) && negb (sz =? 0) && negb r) then
      (* ObjectCache.h:1100-1103, 1164-1173: std::invalid_argument, the unique_ptr is destroyed *)
      Some (destroy s1 o)
    else if ok then
      (* 1114-1126, 1177-1185 *)
      Some (withOps (mkSt (items s ++ [mkI k o sz 1 false false PNas]) (tot s) (gone s) (S o) (ptrs s) (ops s) (ub s))
              (OCall r (length (items s)) :: ops s))
    else
      (* kAllocError *)
      Some (withPtrs s1 (PObj o :: ptrs s))
  | SFind k w =>
    match lookup k (items s) with
    | Some i =>
      match nth_error (items s) i with
      | Some it => Some (withPtrs (putIt s i (setPh it (iph it) (irefs it + 1) true)) (PItem i (if w then KWrite else KRead) :: ptrs s))
      | None => None
      end
    | None => Some s
    end
  | SRemove k =>
    match lookup k (items s) with
    | Some i =>
      match nth_error (items s) i with
      | Some it => Some (withOps (putIt s i (setPh it (iph it) (irefs it + 1) false)) (ORel i :: ops s))
      | None => None
      end
    | None => Some s
    end
  | SEvict i q =>
    match nth_error (items s) i with
    | Some it =>
      if iin it && (irefs it =? 0) then
        Some (withOps (putIt s i (setClean (setPh it PDying 0 false) (if nvm c then iclean it || q else iclean it))) (ODest i true :: ops s))
      else None
    | None => None
    end
  | SNvm k sz =>
    if nvm c && (0 <=? sz) && (sz <? W) then
      (* createItem (NvmCache.h:1432-1480) with makeObjCb (ObjectCache.h:909-920): adds whether tracking or not *)
      Some (withOps (mkSt (items s ++ [mkI k (nobj s) sz 1 false true PLive]) (wr (tot s + sz)) (gone s) (S (nobj s)) (ptrs s) (ops s) (ub s))
              (ONvm (length (items s)) :: ops s))
    else None
  | SDup j =>
    match takeAt j (ptrs s) with
    | Some (PItem i k, _) =>
      match nth_error (items s) i with
      | Some it => Some (withPtrs (putIt s i (setPh it (iph it) (irefs it + 1) (iin it))) (PItem i k :: ptrs s))
      | None => None
      end
    | _ => None
    end
  | SConv j =>
    match takeAt j (ptrs s) with
    | Some (PItem i KWrite, rest) => Some (withPtrs s (PItem i KConv :: rest))
    | _ => None
    end
  | SDrop j =>
    match takeAt j (ptrs s) with
    | Some (PItem i _, rest) => unref (withPtrs s rest) i
    | Some (PObj o, rest) => Some (destroy (withPtrs s rest) o)
    | None => None
    end
  | SSize j =>
    (* getReadHandleRefInternal (ObjectCache.h:732-751): std::get_deleter is null for another deleter *)
    match takeAt j (ptrs s) with
    | Some (PItem _ k, _) =>
      if hasDeleter k then Some s else Some (mkSt (items s) (tot s) (gone s) (nobj s) (ptrs s) (ops s) true)
    | Some (PObj _, _) => Some (mkSt (items s) (tot s) (gone s) (nobj s) (ptrs s) (ops s) true)
    | None => None
    end
  | SUpd j sz =>
    (* ObjectCache.h:1406-1437 *)
    if (sz <? 0) || (W <=? sz) then None else
    match takeAt j (ptrs s) with
    | Some (p, rest) =>
      if negb (tracking c) || (sz =? 0) then Some s else
      match p with
      | PItem i k =>
        if hasDeleter k then
          match nth_error (items s) i with Some it => begUpd s i k rest sz (sz - isz it) | None => None end
        else Some (mkSt (items s) (tot s) (gone s) (nobj s) (ptrs s) (ops s) true)
      | PObj _ => Some (mkSt (items s) (tot s) (gone s) (nobj s) (ptrs s) (ops s) true)
      end
    | None => None
    end
  | SMut j d =>
    (* 1373-1402; also when sizes are not tracked *)
    match takeAt j (ptrs s) with
    | Some (PItem i k, rest) =>
      if hasDeleter k then
        match nth_error (items s) i with Some it => begUpd s i k rest (wr (isz it + d)) d | None => None end
      else Some (mkSt (items s) (tot s) (gone s) (nobj s) (ptrs s) (ops s) true)
    | Some (PObj _, _) => Some (mkSt (items s) (tot s) (gone s) (nobj s) (ptrs s) (ops s) true)
    | None => None
    end
  | SStep n x =>
    match takeAt n (ops s) with
    | Some (o, rest) => opStep c s o rest x
    | None => None
    end
  end.

Fixpoint run (c : conf) (s : state) (l : list action) : option state :=
  match l with
  | [] => Some s
  | a :: l => match step c s a with Some s' => run c s' l | None => None end
  end.
