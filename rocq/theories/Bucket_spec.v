(** Specification of one bucket: a list of (key, value) entries, oldest first,
    whose total cost is bounded by the capacity. *)
From Verif Require Import Bytes Bucket_model.

Definition cost (e : entry) : nat := 4 + 16 + length (kbytes (ekey e)) + length (eval e).
Definition cost_all (l : list entry) : nat := fold_right (fun e a => cost e + a) 0 l.

(** Keys are the same when hash and bytes are the same. *)
Definition same_key (a b : hkey) : Prop := khash a = khash b /\ kbytes a = kbytes b.

Fixpoint lookup_spec (l : list entry) (hk : hkey) : option (list byte) :=
  match l with
  | [] => None
  | e :: r => if hkey_eqb hk (ekey e) then Some (eval e) else lookup_spec r hk
  end.

(** remove the oldest entry with that key: (what remains, what was removed) *)
Fixpoint remove_spec (l : list entry) (hk : hkey) : list entry * list entry :=
  match l with
  | [] => ([], [])
  | e :: r => if hkey_eqb hk (ekey e) then (r, [e])
              else let '(a, b) := remove_spec r hk in (e :: a, b)
  end.

(** The fewest oldest entries whose removal leaves room for [need] bytes:
    (evicted prefix, what remains). *)
Fixpoint make_room (cap need : nat) (l : list entry) : list entry * list entry :=
  if cost_all l + need <=? cap then ([], l)
  else match l with
       | [] => ([], [])
       | e :: r => let '(ev, k) := make_room cap need r in (e :: ev, k)
       end.

(** insert: (entries afterwards, evicted because expired, evicted for room) *)
Definition insert_spec (cap : nat) (expired : list byte -> bool) (l : list entry) (e : entry)
  : list entry * list entry * list entry :=
  if cost_all l + cost e <=? cap then (l ++ [e], [], [])
  else
    let live := filter (fun x => negb (expired (eval x))) l in
    let dead := filter (fun x => expired (eval x)) l in
    let '(ev, kept) := make_room cap (cost e) live in
    (kept ++ [e], dead, ev).
