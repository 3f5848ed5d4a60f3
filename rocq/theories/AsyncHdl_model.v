(** Model of handles whose item is still being fetched from flash
    (/repo/cachelib/allocator/Handle.h and NvmCache.h: GetCtx, find, onGetComplete).

    One key; users and the threads that complete fetches run in any interleaving,
    a step being one access to shared data (an atomic, a section under a mutex).
    Every find that has to go to flash makes a new pending handle; pending handles
    of one key join the fetch in progress.

    Simplifications: of a fetch only its result is modelled (no item, or a new
    item; C17 and C19 say which).  Of an item only its reference count is modelled,
    [maxRef] being the largest (2^18 - 1, Refcount.h:59-67, C01).  A handle is used by
    one user at a time and is not used any more after it was converted to a
    future, except for being destroyed.  Not modelled: the time to access, fibers,
    the order of destruction among the handles of a finished fetch. *)
From Coq Require Import List Arith ZArith Bool Lia.
Import ListNotations.

Section Async.
Variable maxRef : nat.

(** The future made by toSemiFuture. *)
Inductive fut :=
| UNone                     (* not converted *)
| UPend                     (* future waits *)
| UHas (v : option nat)     (* value arrived, not looked at *)
| UDone                     (* value taken *)
| UGone                     (* future destroyed before the value arrived *)
| UBroken.                  (* the promise was destroyed: BrokenPromise *)

(** ItemWaitContext (Handle.h:262-445). *)
Record ctx := mkC {
  cfetch : nat;                    (* the fetch it waits for *)
  cval : option (option nat);      (* it_; None: kItemNotReady *)
  cflag : bool;                    (* flags_ has kWentToNvm *)
  cposted : bool;                  (* baton_ *)
  cfut : fut;                      (* not UNone: onReadyCallback_ is set *)
  cwait : bool;                    (* the user is blocked in wait() *)
  chold : bool;                    (* the user's handle refers to it *)
  cshare : bool                    (* the fetch refers to it *)
}.

(** What the completing thread does next with the first waiter of the list. *)
Inductive sub :=
| SClone                           (* it.clone() *)
| SStore (h : option nat) (b : bool)  (* set(): it_.store *)
| SCall (h : option nat)           (* set(): the callback, under mtx_ *)
| SPost.                           (* set(): baton_.post() *)

Inductive fpc :=
| FOpen                            (* in the fill map *)
| FRun (rest : list nat) (s : sub) (* ~GetCtx: wakeUpWaiters *)
| FRel                             (* waiters done, [it] to be destroyed *)
| FDrop (rest : list nat)          (* waiters vector being destroyed *)
| FDone.

(** GetCtx (NvmCache.h:426-495). *)
Record fetch := mkF {
  fwait : list nat;                (* waiters *)
  fpcs : fpc;
  fit : option nat;                (* it *)
  fover : option nat               (* refcountOverflowed; ghost: at which waiter *)
}.

Record state := mkS {
  refs : nat -> nat;               (* reference counts *)
  total : Z;                       (* getNumActiveHandles *)
  fillmap : option nat;
  fetches : nat -> fetch; nf : nat;
  ctxs : nat -> ctx; nc : nat;
  plain : list nat;                (* ready handles of users (clones, futures' values, ...) *)
  nitem : nat
}.

Inductive event :=
| EFind (c f : nat)                (* find returned the pending handle c, waiting for fetch f *)
| EFilled (f i : nat)              (* fetch f got item i *)
| EReady (c : nat) (b : bool)      (* isReady() *)
| EWent (c : nat) (ready b : bool) (* wentToNvm() on a handle that is or is not ready *)
| EBlock (c : nat)                 (* wait() blocks *)
| EGot (c : nat) (v : option nat)  (* wait() / get() returned *)
| EConv (c : nat)                  (* toSemiFuture: the future is pending *)
| EFut (c : nat) (v : option nat)  (* the future's value arrived *)
| ETaken (c : nat) (v : option nat)(* user has the future's value *)
| EFutDropped (c : nat) (i : nat)  (* a future was destroyed with item i not taken *)
| EBroken (c : nat)                (* BrokenPromise *)
| EThrow                           (* RefcountOverflow thrown to the user *)
| EOver (f c : nat)                (* RefcountOverflow while handle c was woken *)
| EClosed (f : nat)                (* fetch f is over *)
| EUnresolved (c : nat)            (* "Destorying an unresolved handle" *)
| EBad.                            (* reference taken from or given back to a freed item *)

Definition upd {A} (g : nat -> A) (i : nat) (x : A) : nat -> A := fun j => if j =? i then x else g j.
Definition setRefs s r := mkS r (total s) (fillmap s) (fetches s) (nf s) (ctxs s) (nc s) (plain s) (nitem s).
Definition setTotal s z := mkS (refs s) z (fillmap s) (fetches s) (nf s) (ctxs s) (nc s) (plain s) (nitem s).
Definition setMap s m := mkS (refs s) (total s) m (fetches s) (nf s) (ctxs s) (nc s) (plain s) (nitem s).
Definition setFetch s f x := mkS (refs s) (total s) (fillmap s) (upd (fetches s) f x) (nf s) (ctxs s) (nc s) (plain s) (nitem s).
Definition setCtx s c x := mkS (refs s) (total s) (fillmap s) (fetches s) (nf s) (upd (ctxs s) c x) (nc s) (plain s) (nitem s).
Definition setPlain s l := mkS (refs s) (total s) (fillmap s) (fetches s) (nf s) (ctxs s) (nc s) l (nitem s).

(** incRef / decRef (CacheAllocator.h:3700-3717): the count of the item and the
    number of active handles.  A free item has count 0. *)
Definition incRef (s : state) (i : nat) : state * list event :=
  (setTotal (setRefs s (upd (refs s) i (S (refs s i)))) (total s + 1)%Z,
   if refs s i =? 0 then [EBad] else []).
Definition decRef (s : state) (i : nat) : state * list event :=
  (setTotal (setRefs s (upd (refs s) i (refs s i - 1))) (total s - 1)%Z,
   if refs s i =? 0 then [EBad] else []).
(** adjustHandleCountForThread_private *)
Definition adjust (s : state) (z : Z) : state := setTotal s (total s + z)%Z.

Definition full (s : state) (i : nat) : bool := maxRef <=? refs s i.

Definition withVal x v := mkC (cfetch x) v (cflag x) (cposted x) (cfut x) (cwait x) (chold x) (cshare x).
Definition withFlag x v := mkC (cfetch x) (cval x) v (cposted x) (cfut x) (cwait x) (chold x) (cshare x).
Definition withPosted x v := mkC (cfetch x) (cval x) (cflag x) v (cfut x) (cwait x) (chold x) (cshare x).
Definition withFut x v := mkC (cfetch x) (cval x) (cflag x) (cposted x) v (cwait x) (chold x) (cshare x).
Definition withWait x v := mkC (cfetch x) (cval x) (cflag x) (cposted x) (cfut x) v (chold x) (cshare x).
Definition withHold x v := mkC (cfetch x) (cval x) (cflag x) (cposted x) (cfut x) (cwait x) v (cshare x).
Definition withShare x v := mkC (cfetch x) (cval x) (cflag x) (cposted x) (cfut x) (cwait x) (chold x) v.

(** The last reference to a context goes: ~ItemWaitContext (Handle.h:405-426). *)
Definition destroyCtx (s : state) (c : nat) : state * list event :=
  let x := ctxs s c in
  let e1 := match cval x with None => [EUnresolved c] | _ => [] end in
  let '(s1, e2) := match cval x with
                   | Some (Some i) => decRef (adjust s 1) i
                   | _ => (s, [])
                   end in
  match cfut x with
  | UPend => (setCtx s1 c (withFut x UBroken), e1 ++ e2 ++ [EBroken c])
  | _ => (s1, e1 ++ e2)
  end.

Inductive action :=
| AFind                            (* find of the key misses in RAM and may be in flash *)
| AFill (f : nat)                  (* the fetch brought an item *)
| AClose (f : nat)                 (* the fetch is over *)
| AWake (f : nat)                  (* next step of ~GetCtx *)
| AIsReady (c : nat) | AWent (c : nat)
| AWait (c : nat) | AAwake (c : nat)
| AClone (c : nat)                 (* clone() of a ready handle *)
| ARelease (c : nat)               (* release() of a ready handle *)
| AConvert (c : nat)               (* toSemiFuture() *)
| AReset (c : nat)                 (* reset() / destruction *)
| ATake (c : nat)                  (* the future's value is taken *)
| ADropFut (c : nat)               (* the future is destroyed *)
| ACopy (k : nat)                  (* clone() of the k-th ready handle *)
| AFree (k : nat).                 (* destruction of the k-th ready handle *)

Definition pending : ctx := mkC 0 None false false UNone false true true.

(** NvmCache::find under the fill lock (NvmCache.h:799-833). *)
Definition doFind (s : state) : state * list event :=
  let c := nc s in
  let addCtx s f := mkS (refs s) (total s) (fillmap s) (fetches s) (nf s)
                      (upd (ctxs s) c (mkC f None false false UNone false true true))
                      (S c) (plain s) (nitem s) in
  match fillmap s with
  | Some f =>
      let x := fetches s f in
      (addCtx (setFetch s f (mkF (fwait x ++ [c]) (fpcs x) (fit x) (fover x))) f, [EFind c f])
  | None =>
      let f := nf s in
      let s1 := mkS (refs s) (total s) (Some f) (upd (fetches s) f (mkF [c] FOpen None None))
                    (S f) (ctxs s) (nc s) (plain s) (nitem s) in
      (addCtx s1 f, [EFind c f])
  end.

Definition setPc s f p := let x := fetches s f in setFetch s f (mkF (fwait x) p (fit x) (fover x)).

(** RefcountOverflow in wakeUpWaiters (NvmCache.h:482-487): on to the next waiter. *)
Definition overflow s f c rest :=
  let x := fetches s f in
  setFetch s f (mkF (fwait x) (FRun rest SClone) (fit x) (Some c)).

(** One step of ~GetCtx: wakeUpWaiters (NvmCache.h:470-489) and
    ItemWaitContext::set (Handle.h:334-366), then the members. *)
Definition wake (s : state) (f : nat) : option (state * list event) :=
  let x := fetches s f in
  match fpcs x with
  | FRun (c :: rest) SClone =>
      match fover x, fit x with
      | Some _, _ => Some (setPc s f (FRun (c :: rest) (SStore None false)), [])
      | None, None => Some (setPc s f (FRun (c :: rest) (SStore None true)), [])
      | None, Some i =>
          if full s i then Some (overflow s f c rest, [EOver f c])
          else let '(s1, e) := incRef s i in
               Some (setPc s1 f (FRun (c :: rest) (SStore (Some i) true)), e)
      end
  | FRun (c :: rest) (SStore h b) =>
      let s1 := setCtx s c (withFlag (withVal (ctxs s c) (Some h)) b) in
      let s2 := match h with Some _ => adjust s1 (-1) | None => s1 end in
      Some (setPc s2 f (FRun (c :: rest) (SCall h)), [])
  | FRun (c :: rest) (SCall h) =>
      match cfut (ctxs s c), h with
      | UNone, _ => Some (setPc s f (FRun (c :: rest) SPost), [])
      | _, Some i =>
          if full s i then Some (overflow s f c rest, [EOver f c])
          else
            let '(s1, e1) := incRef s i in
            let s2 := adjust s1 (-1) in
            match cfut (ctxs s c) with
            | UPend =>
                Some (setPc (setCtx s2 c (withFut (ctxs s c) (UHas h))) f
                        (FRun (c :: rest) SPost), e1 ++ [EFut c h])
            | _ =>
                (* nobody holds the future: its value is destroyed *)
                let '(s3, e2) := decRef s2 i in
                Some (setPc s3 f (FRun (c :: rest) SPost), e1 ++ e2 ++ [EFutDropped c i])
            end
      | UPend, None =>
          Some (setPc (setCtx s c (withFut (ctxs s c) (UHas None))) f
                  (FRun (c :: rest) SPost), [EFut c None])
      | _, None => Some (setPc s f (FRun (c :: rest) SPost), [])
      end
  | FRun (c :: rest) SPost =>
      Some (setPc (setCtx s c (withPosted (ctxs s c) true)) f (FRun rest SClone), [])
  | FRun [] _ => Some (setPc s f FRel, [])
  | FRel =>
      match fit x with
      | Some i => let '(s1, e) := decRef s i in Some (setPc s1 f (FDrop (fwait x)), e)
      | None => Some (setPc s f (FDrop (fwait x)), [])
      end
  | FDrop (c :: rest) =>
      let s1 := setPc (setCtx s c (withShare (ctxs s c) false)) f (FDrop rest) in
      if chold (ctxs s c) then Some (s1, []) else Some (destroyCtx s1 c)
  | FDrop [] => Some (setPc s f FDone, [EClosed f])
  | _ => None
  end.

(** The user's handle c lets go of its context. *)
Definition letGo (s : state) (c : nat) : state * list event :=
  let s1 := setCtx s c (withHold (ctxs s c) false) in
  if cshare (ctxs s c) then (s1, []) else destroyCtx s1 c.

(** The user may call something on the pending handle c. *)
Definition mine (s : state) (c : nat) : bool :=
  (c <? nc s) && chold (ctxs s c) && negb (cwait (ctxs s c)) &&
  match cfut (ctxs s c) with UNone => true | _ => false end.

Definition step (s : state) (a : action) : option (state * list event) :=
  match a with
  | AFind => Some (doFind s)
  | AFill f =>
      (* createItem, insertFromNvm, ctx.setWriteHandle (NvmCache.h:1380-1428) *)
      if (f <? nf s) then
        match fpcs (fetches s f), fit (fetches s f) with
        | FOpen, None =>
            let i := nitem s in
            let x := fetches s f in
            Some (mkS (upd (refs s) i 1) (total s + 1)%Z (fillmap s)
                    (upd (fetches s) f (mkF (fwait x) FOpen (Some i) (fover x))) (nf s)
                    (ctxs s) (nc s) (plain s) (S i), [EFilled f i])
        | _, _ => None
        end
      else None
  | AClose f =>
      (* removeFromFillMap, by key (NvmCache.h:499-512): called once per fetch, at the
         end of onGetComplete or when lookupAsync throws *)
      if (f <? nf s) then
        match fpcs (fetches s f) with
        | FOpen =>
            match fillmap s with
            | Some g => Some (setPc (setMap s None) g (FRun (fwait (fetches s g)) SClone), [])
            | None => Some (s, [])
            end
        | _ => None
        end
      else None
  | AWake f => if f <? nf s then wake s f else None
  | AIsReady c =>
      if mine s c then Some (s, [EReady c (match cval (ctxs s c) with Some _ => true | None => false end)])
      else None
  | AWent c =>
      if mine s c then Some (s, [EWent c (match cval (ctxs s c) with Some _ => true | None => false end)
                                   (cflag (ctxs s c))])
      else None
  | AWait c =>
      if mine s c then
        match cval (ctxs s c) with
        | Some v => Some (s, [EGot c v])
        | None => Some (setCtx s c (withWait (ctxs s c) true), [EBlock c])
        end
      else None
  | AAwake c =>
      if (c <? nc s) && cwait (ctxs s c) && cposted (ctxs s c) then
        match cval (ctxs s c) with
        | Some v => Some (setCtx s c (withWait (ctxs s c) false), [EGot c v])
        | None => None
        end
      else None
  | AClone c =>
      (* Handle.h:246-253 *)
      if mine s c then
        match cval (ctxs s c) with
        | Some (Some i) =>
            if full s i then Some (s, [EThrow])
            else let '(s1, e) := incRef s i in Some (setPlain s1 (plain s1 ++ [i]), e)
        | Some None => Some (s, [])
        | None => None
        end
      else None
  | ARelease c =>
      (* Handle.h:88-99, 396-403; the caller then owns the reference *)
      if mine s c then
        match cval (ctxs s c) with
        | Some (Some i) =>
            let s1 := adjust (setCtx s c (withVal (ctxs s c) (Some None))) 1 in
            let s2 := setPlain s1 (plain s1 ++ [i]) in
            Some (letGo s2 c)
        | Some None => Some (letGo s c)
        | None => None
        end
      else None
  | AConvert c =>
      (* Handle.h:180-203, 386-394; a ready handle is simply moved *)
      if mine s c then
        match cval (ctxs s c) with
        | Some v => Some (s, [EGot c v])
        | None => Some (setCtx s c (withFut (ctxs s c) UPend), [EConv c])
        end
      else None
  | AReset c =>
      if (c <? nc s) && chold (ctxs s c) && negb (cwait (ctxs s c)) then Some (letGo s c) else None
  | ATake c =>
      (* Handle.h:194-202: the deferred function adjusts the handle count *)
      match cfut (ctxs s c) with
      | UHas v =>
          if c <? nc s then
            let s1 := setCtx s c (withFut (ctxs s c) UDone) in
            match v with
            | Some i => let s2 := adjust s1 1 in Some (setPlain s2 (plain s2 ++ [i]), [ETaken c v])
            | None => Some (s1, [ETaken c v])
            end
          else None
      | _ => None
      end
  | ADropFut c =>
      if c <? nc s then
        match cfut (ctxs s c) with
        | UPend => Some (setCtx s c (withFut (ctxs s c) UGone), [])
        | UHas (Some i) =>
            let '(s1, e) := decRef (setCtx s c (withFut (ctxs s c) UDone)) i in
            Some (s1, e ++ [EFutDropped c i])
        | UHas None => Some (setCtx s c (withFut (ctxs s c) UDone), [])
        | _ => None
        end
      else None
  | ACopy k =>
      match nth_error (plain s) k with
      | Some i => if full s i then Some (s, [EThrow])
                  else let '(s1, e) := incRef s i in Some (setPlain s1 (plain s1 ++ [i]), e)
      | None => None
      end
  | AFree k =>
      match nth_error (plain s) k with
      | Some i => let '(s1, e) := decRef s i in
                  Some (setPlain s1 (firstn k (plain s) ++ skipn (S k) (plain s)), e)
      | None => None
      end
  end.

Definition init : state :=
  mkS (fun _ => 0) 0%Z None (fun _ => mkF [] FDone None None) 0 (fun _ => pending) 0 [] 0.

Fixpoint run (s : state) (l : list action) : option (state * list event) :=
  match l with
  | [] => Some (s, [])
  | a :: r =>
      match step s a with
      | Some (s1, e1) =>
          match run s1 r with
          | Some (s2, e2) => Some (s2, e1 ++ e2)
          | None => None
          end
      | None => None
      end
  end.
End Async.
