(** A client running a history of bucket operations against the modelled code, and
    the same history against the list specification. *)
From Verif Require Import Bytes BucketStorage_model Bucket_model Bucket_spec.

(** One call.  Inserts carry the expiry test used by that call (none = no test). *)
Inductive bop :=
| BInsert (e : entry) (checkExpired : option (list byte -> bool))
| BRemove (k : hkey)
| BFind (k : hkey).

(** What a call reports: counts/values and the destructor callbacks, in order. *)
Inductive bout :=
| OInsert (evicted expiredCount : nat) (cb : list (entry * devent))
| ORemove (n : nat) (cb : list (entry * devent))
| OFind (v : option (list byte)).

Definition bstep (s : storage) (o : bop) : option (storage * bout) :=
  match o with
  | BInsert e c => let* (s1, n, x, cb) := insert s e c in Some (s1, OInsert n x cb)
  | BRemove k => let* (s1, n, cb) := remove s k in Some (s1, ORemove n cb)
  | BFind k => let* v := find s k in Some (s, OFind v)
  end.

Fixpoint brun (s : storage) (ops : list bop) : option (storage * list bout) :=
  match ops with
  | [] => Some (s, [])
  | o :: r => let* (s1, x) := bstep s o in let* (s2, xs) := brun s1 r in Some (s2, x :: xs)
  end.

Definition expired_of (c : option (list byte -> bool)) : list byte -> bool :=
  match c with Some f => f | None => fun _ => false end.

Definition bspec (cap : nat) (l : list entry) (o : bop) : list entry * bout :=
  match o with
  | BInsert e c =>
    let '(after, dead, ev) := insert_spec cap (expired_of c) l e in
    (after, OInsert (length dead + length ev) (length dead)
                    (map (fun x => (x, Recycled)) (dead ++ ev)))
  | BRemove k =>
    let '(rest, gone) := remove_spec l k in
    (rest, ORemove (length gone) (map (fun x => (x, Removed)) gone))
  | BFind k => (l, OFind (lookup_spec l k))
  end.

Fixpoint bspec_run (cap : nat) (l : list entry) (ops : list bop) : list entry * list bout :=
  match ops with
  | [] => (l, [])
  | o :: r => let '(l1, x) := bspec cap l o in
              let '(l2, xs) := bspec_run cap l1 r in (l2, x :: xs)
  end.

(** The caller's duty: the item fits an empty bucket (EnginePair routes by smallItemMaxSize, EnginePair.cpp:328-333); a hash is a 64-bit value. *)
Definition bop_ok (cap : nat) (o : bop) : Prop :=
  match o with
  | BInsert e _ => cost e <= cap /\ (khash (ekey e) < two64)%N
  | _ => True
  end.
