(** C36: a bucket as a bounded LRU map, most recently used entry first. *)
From Verif Require Import CCache_model.

Notation entry := (N * list byte)%type (only parsing).
Fixpoint lookup (l : list entry) (k : N) : option (list byte) :=
  match l with
  | [] => None
  | (k', v) :: r => if (k' =? k)%N then Some v else lookup r k
  end.
Definition without (k : N) (l : list entry) : list entry :=
  filter (fun e => negb (fst e =? k)%N) l.
Definition setInPlace (k : N) (v : list byte) (l : list entry) : list entry :=
  map (fun e => if (fst e =? k)%N then (k, v) else e) l.
(** Does [k] sit behind the first [n] entries? *)
Definition behind (n : nat) (k : N) (l : list entry) : bool :=
  negb (existsb (fun e => (fst e =? k)%N) (firstn n l)).

(** Fixed-size entries: at most [cap]; a new key pushes the last entry out; an
    update keeps the position; a promotion moves entries behind the first
    quarter to the front. *)
Definition fspec (cap : nat) (l : list entry) (o : op) : list entry * ret * evicted :=
  match o with
  | OSet k v =>
      match lookup l k with
      | None => ((k, v) :: firstn (cap - 1) l, RNotFound, skipn (cap - 1) l)
      | Some _ => (setInPlace k v l, RFound None, [])
      end
  | OGet k => (l, match lookup l k with None => RNotFound | Some v => RFound (Some v) end, [])
  | OPromote k =>
      match lookup l k with
      | None => (l, RNotFound, [])
      | Some v => ((if behind (cap / 4 + 1) k l then (k, v) :: without k l else l), RFound None, [])
      end
  | ODel k =>
      match lookup l k with
      | None => (l, RNotFound, [])
      | Some v => (without k l, RFound (Some v), [])
      end
  end.

(** Variable-size entries: header and data of all entries share [bds] bytes, and
    there are at most 255 entries. *)
Definition cost (hsz : nat) (l : list entry) : nat :=
  fold_right (fun e n => hsz + 1 + length (snd e) + n) 0 l.
Definition fits (hsz bytes : nat) (l : list entry) : bool :=
  (cost hsz l <=? bytes) && (length l <=? 255).
(** The longest prefix of [l] that fits together with the new entry. *)
Fixpoint keep (hsz bytes : nat) (e : entry) (l : list entry) (n : nat) : nat :=
  if fits hsz bytes (e :: firstn n l) then n
  else match n with O => O | S m => keep hsz bytes e l m end.

Definition vspec (hsz maxv : nat) (l : list entry) (o : op) : list entry * ret * evicted :=
  match o with
  | OSet k v =>
      let l0 := without k l in
      let n := keep hsz (bds hsz maxv) (k, v) l0 (length l0) in
      ((k, v) :: firstn n l0,
       match lookup l k with None => RNotFound | Some _ => RFound None end,
       rev (skipn n l0))
  | OGet k => (l, match lookup l k with None => RNotFound | Some v => RFound (Some v) end, [])
  | OPromote k =>
      match lookup l k with
      | None => (l, RNotFound, [])
      | Some v => ((if behind 2 k l then (k, v) :: without k l else l), RFound None, [])
      end
  | ODel k =>
      match lookup l k with
      | None => (l, RNotFound, [])
      | Some v => (without k l, RFound (Some v), [])
      end
  end.

Section Hist.
Context (sp : list entry -> op -> list entry * ret * evicted).
Fixpoint shist (l : list entry) (os : list op) : list entry * list (ret * evicted) :=
  match os with
  | [] => (l, [])
  | o :: r => let '(l', x, ev) := sp l o in let '(l'', out) := shist l' r in (l'', (x, ev) :: out)
  end.
End Hist.

(** Operations the caller may make: the key is not the empty key (fixed layout);
    the value is not longer than the layout supports (variable layout). *)
Definition fLegal (vsz : nat) (o : op) : Prop :=
  match o with
  | OSet k v => k <> 0%N /\ length v = vsz
  | OGet k | OPromote k | ODel k => k <> 0%N
  end.
Definition vLegal (maxv : nat) (o : op) : Prop :=
  match o with
  | OSet k v => length v <= maxv /\ length v <= 255
  | _ => True
  end.


(** What a client can infer about key [k] from the operations and the results:
    the value last set, unless deleted since or reported to the eviction callback. *)
Definition known1 (k : N) (cur : option (list byte)) (o : op) (ev : evicted) : option (list byte) :=
  if existsb (fun e => (fst e =? k)%N) ev then None
  else match o with
       | OSet k' v => if (k' =? k)%N then Some v else cur
       | ODel k' => if (k' =? k)%N then None else cur
       | _ => cur
       end.
Fixpoint known (k : N) (cur : option (list byte)) (os : list op) (outs : list (ret * evicted)) : option (list byte) :=
  match os, outs with
  | o :: os', (_, ev) :: outs' => known k (known1 k cur o ev) os' outs'
  | _, _ => cur
  end.

(** Every result and every eviction report agrees with what the client knows. *)
Definition answer (k : option (list byte)) : ret :=
  match k with Some v => RFound (Some v) | None => RNotFound end.
Fixpoint honest (kn : N -> option (list byte)) (os : list op) (outs : list (ret * evicted)) : Prop :=
  match os, outs with
  | [], [] => True
  | o :: os', (r, ev) :: outs' =>
      match o with
      | OGet k | ODel k => r = answer (kn k)
      | OSet k _ => r = match kn k with Some _ => RFound None | None => RNotFound end
      | OPromote k => r = match kn k with Some _ => RFound None | None => RNotFound end
      end /\
      (forall k v, In (k, v) ev -> kn k = Some v) /\ NoDup (map fst ev) /\
      honest (fun k => known1 k (kn k) o ev) os' outs'
  | _, _ => False
  end.
