(** Vocabulary for the statements about flash regions. *)
From Coq Require Import List Arith Bool NArith ZArith.
Import ListNotations.
From Verif Require Import RegMgr_model.

(** A thread has an open write descriptor for region [r] (it may write into the region's buffer). *)
Definition writer (r : nat) (t : tst) : Prop := exists b g, t = WHold r b g.
(** A thread has an open read descriptor for [r]; [p]: physical (device) or in-memory (buffer). *)
Definition reader (r : nat) (p : bool) (t : tst) : Prop :=
  (exists g q, t = RChk r p g q) \/ (exists g, t = RHold r p g) \/ t = RClose r p.

(** Bytes of region [r] handed out since it was last reset, from the history. *)
Definition cursor (r : nat) (tr : list event) : N :=
  fold_left (fun c e => match e with
                        | EAlloc x _ z => if Nat.eqb x r then (c + z)%N else c
                        | EReset x => if Nat.eqb x r then 0%N else c
                        | _ => c
                        end) tr 0%N.

(** The region a thread is moving between places. *)
Definition inHand (t : tst) : option nat :=
  match t with
  | WBuf _ _ r | WAttach _ _ r _ | WAlloc _ _ r | WBack _ r
  | FLoop r _ _ | FWrite r _ _ | FDetach r _ | FRet r _ _ | FTrack r _
  | CWait r _ | CCb r _ | CDetach r _ | CRet r _ _ | CSeq r _ | CReset r _ | CPush r _
  | JMark r | JWait r | JRead r | JSeq r | JBlock r | JWaitR r | JReset r | JPush r => Some r
  | _ => None
  end.
Definition is (o : option nat) (r : nat) : bool := match o with Some x => Nat.eqb x r | None => false end.
Definition count {A} (p : A -> bool) (l : list A) : nat := length (filter p l).
(** In how many places region [r] is: the clean pool, the eviction policy, the allocators, and
    threads on the way between those. *)
Definition places (s : state) (r : nat) : nat :=
  count (fun x => Nat.eqb x r) (clean s) + count (fun x => Nat.eqb x r) (tracked s) +
  count (fun a => is (rrid a) r) (ras s) + count (fun t => is (inHand t) r) (thr s).
(** The same for buffer [b]: the pool, the regions, and threads between taking it and attaching it
    or between detaching it and giving it back. *)
Definition bufInHand (t : tst) : option nat :=
  match t with WAttach _ _ _ b | FRet _ b _ | CRet _ b _ => Some b | _ => None end.
Definition bufPlaces (s : state) (b : nat) : nat :=
  count (fun x => Nat.eqb x b) (pool s) + count (fun R => is (buf R) b) (regs s) + count (fun t => is (bufInHand t) b) (thr s).
Definition reclaiming (t : tst) : bool :=
  match t with JEvict | JMark _ | JWait _ | JRead _ | JSeq _ | JBlock _ | JWaitR _ | JReset _ | JPush _ => true | _ => false end.

(** Thread [i] can move on. *)
Definition canMove (c : cfg) (s : state) (i : nat) : Prop :=
  exists b k s' e, step c s (AThread i b k) = Some (s', e) /\ nth_error (thr s') i <> nth_error (thr s) i.
(** ... or has nothing to do: it is done, or there is nothing to reclaim, or it was given an
    allocator that does not exist. *)
Definition idleT (s : state) (t : tst) : Prop :=
  t = TDone \/ (t = JEvict /\ tracked s = []) \/
  (exists a, length (ras s) <= a /\ (t = LLock a \/ exists sz, t = WLock a sz)).
