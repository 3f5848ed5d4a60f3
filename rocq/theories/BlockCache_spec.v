(** What users of the large-object engine rely on, read off the trace of a run (oldest event first). *)
From Coq Require Import List NArith Bool.
From Verif Require Import Bytes AddrCode_model BlockCache_model.
Import ListNotations.
Local Open Scope N_scope.

(** Things that went wrong and that the code did not notice or did not clean up after: an undetected
    wrong read, a reclaim that left entries of the region in the index (region unreadable, header
    checksum mismatch, exception in the expiry check), a reader admitted to a region whose buffer was
    thrown away after flush failures, undefined behaviour. *)
Definition unsafe (e : event) : bool :=
  match e with EUndetected | EBadReclaim | EThrow | ELate | EUB => true | _ => false end.
Definition safe (T : list event) : Prop := forall e, In e T -> unsafe e = false.

(** The last thing users did to key k: Some v = inserted v, None = removed it or never touched it. *)
Definition lastWrite (k : list N) (T : list event) : option (list N) :=
  fold_left (fun acc e => match e with
    | EPut _ k' v _ => if bytes_eqb k' k then Some v else acc
    | EDel _ k' => if bytes_eqb k' k then None else acc
    | _ => acc end) T None.

(** The cache as a map with evictions.  The index tells keys apart only by the recognised part of
    their hash ("token"), so there is one item per token: inserting a key displaces whatever has the
    same token (with the fixed-size index maybe also the item of one other token), removing a key drops it, an eviction drops it; reinsertion forgets the access time. *)
Definition effect (c : cfg) (t : N) (acc : option (list N * list N * N)) (e : event) : option (list N * list N * N) :=
  match e with
  | EPut _ k v la => if tk c k =? t then Some (k, v, la) else acc
  | EDel _ k | EEvict k _ _ | EDrop k => if tk c k =? t then None else acc
  | EDispl t' => if t' =? t then None else acc
  | EReins k => if tk c k =? t then match acc with Some (k', v, _) => Some (k', v, 0) | None => None end else acc
  | _ => acc
  end.
Definition holder (c : cfg) (t : N) (T : list event) : option (list N * list N * N) := fold_left (effect c t) T None.
(** What is stored under key k: value and access time. *)
Definition stored (c : cfg) (k : list N) (T : list event) : option (list N * N) :=
  match holder c (tk c k) T with
  | Some (k', v, la) => if bytes_eqb k' k then Some (v, la) else None
  | None => None
  end.

(** Configurations the engine accepts (C28), with an index that never shrinks a size hint. *)
Definition okCfg (c : cfg) : Prop :=
  valid_config (devSize c) (cacheSize c) (regionSize c) = true /\ devSize c < 2 ^ 63 /\
  cacheSize c < calcAllocAlignSize (devSize c) * 2 ^ 32 /\
  (forall h, 1 <= h -> h < 2 ^ 16 -> h * 512 <= regionSize c -> h <= storedHint c h /\ storedHint c h < 2 ^ 16).

(** [during i o T1 P]: at some moment after the call number i, which asked for o, P held. *)
Definition during (i : nat) (o : op) (T1 : list event) (P : list event -> Prop) : Prop :=
  exists A B, T1 = A ++ B /\ In (ECall i o) A /\ P A.

(** The events of call number i. *)
Definition mine (i : nat) (e : event) : bool :=
  match e with ECall j _ | ERes j _ | EPut j _ _ _ | EDel j _ => Nat.eqb i j | _ => false end.

(** Everything a finished call does, in order: an insert that says Stored put its key and value, once,
    before it returned; any other insert did nothing.  A remove that says Removed took the key out,
    once.  A lookup changes nothing. *)
Inductive callTrace (i : nat) : op -> list event -> Prop :=
| CT_insert k v la : callTrace i (OInsert k v la) [ECall i (OInsert k v la); EPut i k v (la mod 2 ^ 32); ERes i Stored]
| CT_insert_no k v la x : x = Rejected \/ x = Retry -> callTrace i (OInsert k v la) [ECall i (OInsert k v la); ERes i x]
| CT_lookup k x : x <> Stored -> x <> Removed -> x <> Rejected -> callTrace i (OLookup k) [ECall i (OLookup k); ERes i x]
| CT_remove k x : x = Removed \/ x = NotFound -> callTrace i (ORemove k) [ECall i (ORemove k); EDel i k; ERes i x]
| CT_remove_no k x : x = NotFound \/ x = Retry \/ x = ChecksumError \/ x = BadState -> callTrace i (ORemove k) [ECall i (ORemove k); ERes i x].
