(** Specification for C05: an LRU sequence (most recently promoted first) with a tail region. *)
From Verif Require Import Bytes DList_model DList_spec MMLru_model.

Record spec := mkSpec {
  order : list node;     (* head (most recent) first *)
  tlen : nat;            (* how many items from the tail lie at or behind the insertion point *)
  k_of : nat;            (* configured insertion point spec; 0: insert at the head *)
  ref_of : N; w_of : bool; r_of : bool;
  stamp : node -> N;     (* when each item was last added/promoted *)
  seen : node -> bool    (* accessed since added *)
}.

Definition target (k : nat) (l : list node) : nat :=
  if length l =? 0 then 0 else Nat.max 1 (length l / 2 ^ k).

Definition retarget (s : spec) (l : list node) (t : nat) : nat :=
  if k_of s =? 0 then t else target (k_of s) l.

(** The last [t] elements. *)
Definition tail_part (t : nat) (l : list node) : list node := skipn (length l - t) l.
Definition front_part (t : nat) (l : list node) : list node := firstn (length l - t) l.

Definition mem (n : node) (l : list node) : bool := existsb (Nat.eqb n) l.

Definition with_order (s : spec) (l : list node) (t : nat) : spec :=
  {| order := l; tlen := t; k_of := k_of s; ref_of := ref_of s; w_of := w_of s; r_of := r_of s;
     stamp := stamp s; seen := seen s |}.
Definition with_stamp (s : spec) (n : node) (t : N) : spec :=
  {| order := order s; tlen := tlen s; k_of := k_of s; ref_of := ref_of s; w_of := w_of s; r_of := r_of s;
     stamp := updt (stamp s) n t; seen := seen s |}.
Definition with_seen (s : spec) (n : node) (b : bool) : spec :=
  {| order := order s; tlen := tlen s; k_of := k_of s; ref_of := ref_of s; w_of := w_of s; r_of := r_of s;
     stamp := stamp s; seen := updb (seen s) n b |}.

(** The item offered after [n] when walking from the tail: its predecessor in [order]. *)
Fixpoint pred_of (n : node) (l : list node) (p : ptr) : ptr :=
  match l with [] => None | x :: r => if x =? n then p else pred_of n r (Some x) end.

Definition spec_remove (s : spec) (n : node) : spec :=
  let l := remove_node (order s) n in
  let t := if mem n (tail_part (tlen s) (order s)) then tlen s - 1 else tlen s in
  with_seen (with_order s l (retarget s l t)) n false.

Definition spec_promote (s : spec) (n : node) (now : N) : spec :=
  if mem n (order s) then
    let l := n :: remove_node (order s) n in
    let t := if mem n (tail_part (tlen s) (order s)) then retarget s l (tlen s - 1) else tlen s in
    with_stamp (with_order s l t) n now
  else s.

Definition wants_promote (s : spec) (n : node) (write : bool) (now : N) : bool :=
  (if write then w_of s else r_of s) && mem n (order s) &&
  ((wrap32 (stamp s n + ref_of s) <=? now)%N || negb (seen s n)).

Definition spec_exec (s : spec) (c : mcall) : spec * mout :=
  match c with
  | MAdd n now =>
    if mem n (order s) then (s, MBool false)
    else
      let l := front_part (tlen s) (order s) ++ n :: tail_part (tlen s) (order s) in
      let l := if (tlen s =? 0) then n :: order s else l in
      (with_seen (with_stamp (with_order s l (retarget s l (tlen s))) n now) n false, MBool true)
  | MRemove n =>
    if mem n (order s) then (spec_remove s n, MBool true) else (s, MBool false)
  | MRemoveIt n => (spec_remove s n, MPtr (pred_of n (order s) None))
  | MReplace o n =>
    if mem o (order s) && negb (mem n (order s))
    then (with_seen (with_stamp (with_order s (replace_node (order s) o n) (tlen s)) n (stamp s o))
            n (seen s o), MBool true)
    else (s, MBool false)
  | MAccessCheck n w now =>
    if wants_promote s n w now then (with_seen s n true, MBool true) else (s, MBool false)
  | MAccessLocked n now => (spec_promote s n now, MUnit)
  | MRecordAccess n w now =>
    if wants_promote s n w now then (spec_promote (with_seen s n true) n now, MBool true)
    else (s, MBool false)
  | MSetConfig k r w rd =>
    ({| order := order s; tlen := if k =? 0 then 0 else tlen s; k_of := k; ref_of := r; w_of := w;
        r_of := rd; stamp := stamp s; seen := seen s |}, MUnit)
  end.

(** The insertion point spec is a shift of a 64-bit size: below 64 (a larger shift is UB in
    C++); the iterator removes an item it points to. *)
Definition mlegal (s : spec) (c : mcall) : Prop :=
  match c with
  | MRemoveIt n => In n (order s)
  | MSetConfig k _ _ _ => k < 64
  | _ => True
  end.
Fixpoint mlegals (s : spec) (cs : list mcall) : Prop :=
  match cs with [] => True | c :: r => mlegal s c /\ mlegals (fst (spec_exec s c)) r end.
Fixpoint spec_execs (s : spec) (cs : list mcall) : spec * list mout :=
  match cs with
  | [] => (s, [])
  | c :: r => let (s1, o) := spec_exec s c in let (s2, os) := spec_execs s1 r in (s2, o :: os)
  end.
Definition init_spec (k : nat) (r : N) (w rd : bool) : spec :=
  {| order := []; tlen := 0; k_of := k; ref_of := r; w_of := w; r_of := rd;
     stamp := fun _ => 0%N; seen := fun _ => false |}.

(** A state the container can be in. *)
Definition reachable (s : lru) : Prop :=
  exists k r w rd cs outs, k < 64 /\ mlegals (init_spec k r w rd) cs /\
    mexecs (initLru k r w rd) cs = Some (s, outs).
Definition no_config (c : mcall) : Prop := match c with MSetConfig _ _ _ _ => False | _ => True end.
