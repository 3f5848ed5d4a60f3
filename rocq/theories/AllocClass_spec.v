(** Specification for C09 (within one allocation class) and C10: statements about what callers see. *)
From Verif Require Import Bytes Compress_model AllocClass_model.

(** Allocations owned by callers after a history of calls. *)
Definition own1 (l : label) (lv : list alloc) : list alloc :=
  match l with
  | LAlloc (Some m) => m :: lv
  | LFree m => remA m lv
  | _ => lv
  end.
Fixpoint owned (tr : list label) (lv : list alloc) : list alloc :=
  match tr with [] => lv | l :: r => owned r (own1 l lv) end.
Definition liveAfter (tr : list label) : list alloc := owned tr [].

(** Slabs given to the class and not taken back. *)
Definition held1 (l : label) (s : nat) (b : bool) : bool :=
  match l with
  | LAddSlab t => if t =? s then true else b
  | LReleased t => if t =? s then false else b
  | LComplete t => if t =? s then false else b
  | _ => b
  end.
Fixpoint heldFrom (tr : list label) (s : nat) (b : bool) : bool :=
  match tr with [] => b | l :: r => heldFrom r s (held1 l s b) end.
Definition heldAfter (tr : list label) (s : nat) : bool := heldFrom tr s false.

(** Byte ranges. *)
Definition inSlab (sz : N) (m : alloc) : Prop := (snd m + sz <= kSlabSize)%N.
Definition disjoint (sz : N) (m n : alloc) : Prop :=
  fst m <> fst n \/ (snd m + sz <= snd n)%N \/ (snd n + sz <= snd m)%N.

(** A legal class: MemoryPool.cpp:147 (kMinAllocSize <= size <= kSlabSize). *)
Definition legalCfg (c : acfg) : Prop := (kMinAllocSize <= cSize c)%N /\ (cSize c <= kSlabSize)%N.
(** Before the class exists no slab is assigned to it. *)
Definition fresh (c : acfg) (h : hdrs) : Prop :=
  forall s, ~ (hClass (h s) = Some (cId c) /\ hPool (h s) = Some (cPool c)).
(** Histories of a class. *)
Definition history (c : acfg) (tr : list label) (t : ast) (h : hdrs) : Prop :=
  exists h0, fresh c h0 /\ arun c (initAst, h0) tr (t, h).

(** [l] occurs in the history. *)
Definition ends (s : nat) (l : label) : Prop := l = LAbort s \/ l = LComplete s.
