(** Specification for C09 (across classes and pools), C11, C12. *)
From Verif Require Import Bytes Compress_model AllocClass_model AllocClass_spec Pool_model.

(** What one class did in a history of the allocator. *)
Fixpoint proj (p c : nat) (tr : list glabel) : list label :=
  match tr with
  | [] => []
  | GClass p' c' l :: r => if (p' =? p) && (c' =? c) then l :: proj p c r else proj p c r
  | _ :: r => proj p c r
  end.
(** Histories of a new allocator of [tot] slabs, initial pool sizes [mx]. *)
Definition ghistory (k : conf) (mx : nat -> N) (tot : nat) (tr : list glabel) (g : gst) : Prop := grun k (initG mx tot) tr g.
(** Legal configuration: every size is a legal allocation size (createAllocationClasses throws otherwise). *)
Definition legalConf (k : conf) : Prop :=
  forall p c, isClass k p c -> legalCfg (cfgOf k p c).
(** Live allocations of class (p,c) after a history. *)
Definition liveOf (tr : list glabel) (p c : nat) : list alloc := liveAfter (proj p c tr).

(** Number of slabs (below [n]) assigned to pool [p]. *)
Definition pIs (p : nat) (x : hdr) : bool := match hPool x with Some q => q =? p | None => false end.
Fixpoint slabsOf (h : hdrs) (p n : nat) : nat :=
  match n with 0 => 0 | S m => Nat.b2n (pIs p (h m)) + slabsOf h p m end.

(** Where a slab can be. *)
Inductive place := InFree | InAdvised | Unslabbed | InPool (p : nat) | InClass (p c : nat) | InHand (p : nat).
Definition handSlab (k : tok) : option (nat * nat) :=
  match k with KGot p _ s => Some (p, s) | KRel p s _ => Some (p, s) | KPush p s => Some (p, s) | KRecl p s => Some (p, s) | _ => None end.
Definition isAt (k : conf) (g : gst) (s : nat) (pl : place) : Prop :=
  match pl with
  | InFree => In s (saFree (gSA g))
  | InAdvised => In s (saAdv (gSA g))
  | Unslabbed => saNext (gSA g) <= s
  | InPool p => In s (pFree (gPool g p))
  | InClass p c => isClass k p c /\ owns (sAc (gAc g p c)) s
  | InHand p => exists t, In t (gTok g) /\ handSlab t = Some (p, s)
  end.

(** Histories in which pool [p] is never resized below its current size. *)
Fixpoint growOnly (p : nat) (cur : N) (tr : list glabel) : Prop :=
  match tr with
  | [] => True
  | GSetMax q v :: r => if q =? p then (cur <= v)%N /\ growOnly p v r else growOnly p cur r
  | _ :: r => growOnly p cur r
  end.
(** Pool sizes stay within the memory (MemoryPoolManager guarantees it: C12_sizes_never_exceed_memory). *)
Definition sizesOk (mx : nat -> N) (tot : nat) (tr : list glabel) : Prop :=
  (forall p, mx p <= N.of_nat tot * kSlabSize)%N /\ (forall p v, In (GSetMax p v) tr -> (v <= N.of_nat tot * kSlabSize)%N).
(** Four times the memory fits in 64 bits. *)
Definition memOk (tot : nat) : Prop := (N.of_nat tot * kSlabSize * 4 < w64)%N.
(** No thread is inside a pool operation. *)
Definition quiet (g : gst) : Prop := gTok g = [].
(** Sum over the pools. *)
Fixpoint sumP (f : nat -> N) (n : nat) : N := match n with 0 => 0%N | S m => (f m + sumP f m)%N end.

(** ** MemoryPoolManager calls; a call that throws changes nothing. *)
Local Open Scope N_scope.
Inductive mop := MCreate (sz : N) | MResizePools (s d : nat) (b : N) | MShrink (p : nat) (b : N) | MGrow (p : nat) (b : N).
Definition mstep (m : mgr) (o : mop) : mgr :=
  match o with
  | MCreate sz => match createPool m sz with Some (m', _) => m' | None => m end
  | MResizePools s d b => match resizePools m s d b with Some (m', _) => m' | None => m end
  | MShrink p b => match shrinkPool m p b with Some (m', _) => m' | None => m end
  | MGrow p b => match growPool m p b with Some (m', _) => m' | None => m end
  end.
Definition mrun (total : N) (ops : list mop) : mgr := fold_left mstep ops (mkMgr [] total).
(** No slab was taken straight from a pool's free list by startSlabRelease. *)
Definition noFreeListRelease (tr : list glabel) : Prop := forall p, ~ In (GFreeListRelease p) tr.
(** No slab of pool [p] was advised away while another thread was between the two reads of the limit check. *)
Definition noRacyAdvise (p : nat) (tr : list glabel) : Prop := ~ In (GAdvised p true) tr.
