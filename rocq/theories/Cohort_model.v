(** Model of the double reference count in one word (cachelib/common/Cohort.h, class Cohort).
    Any number of requests and calls of switchCohorts run at the same time, each step one atomic operation on the word. *)
From Coq Require Import List ZArith Bool.
Import ListNotations.
Open Scope Z_scope.

(** Cohort.h:170-173 *)
Definition topBit : Z := 2 ^ 63.
Definition bottomBit : Z := 2 ^ 31.
Definition ref (top : bool) : Z := if top then 2 ^ 32 else 1.
Definition wrap (x : Z) : Z := x mod 2 ^ 64.
(** cohort & kTopCohortBit, 126, 129, 140 *)
Definition isTop (w : Z) : bool := negb (Z.land w topBit =? 0).
Definition isBottom (w : Z) : bool := negb (Z.land w bottomBit =? 0).
(** getPending, 143-147 (& ~bit on a 64-bit word) *)
Definition pending (w : Z) (top : bool) : Z :=
  if top then Z.shiftr (Z.ldiff w topBit) 32 else Z.shiftr (wrap (Z.shiftl (Z.ldiff w bottomBit) 32)) 32.
(** The condition of the wait of switchCohorts, 96. *)
Definition draining (w : Z) : bool := negb (wrap (Z.shiftl w 32) =? 0) && negb (Z.shiftr w 32 =? 0).

(** Where a request is. *)
Inductive pc :=
| Out                (* has no token; incrActiveReqs loads the word next (116) *)
| Loaded (t : bool)  (* about to fetch_add for the cohort it loaded (127-128) *)
| Undo (t : bool)    (* the cohort was another: about to fetch_sub (132) *)
| Holds (t : bool).  (* has its token (130) *)
(** [waiting]: calls of switchCohorts between the fetch_xor and the return; [returns]: how many have returned. *)
Record world := mkW { word : Z; reqs : list pc; waiting : nat; returns : nat }.
(** cohortVal_{kBottomCohortBit}, 175; [n] requests. *)
Definition start (n : nat) : world := mkW bottomBit (repeat Out n) 0 0.

Fixpoint set (i : nat) (p : pc) (l : list pc) : list pc :=
  match l, i with [], _ => [] | _ :: l, O => p :: l | q :: l, S i => q :: set i p l end.
(** One operation of incrActiveReqs (114-134) or decrActiveReqs (155-164; the token's destructor or decrement calls it, 45-72). *)
Definition reqStep (w : Z) (p : pc) : Z * pc :=
  match p with
  | Out => (w, Loaded (isTop w))
  | Loaded t => (wrap (w + ref t), if Bool.eqb (isTop w) t then Holds t else Undo t)
  | Undo t => (wrap (w - ref t), Out)
  | Holds t => (wrap (w - ref t), Out)
  end.
Inductive event := Req (i : nat)   (* request [i] does its next operation *)
| Switch                           (* a call of switchCohorts: its fetch_xor, 92 *)
| Poll.                            (* a load of a waiting call, 94-103; it returns if nothing drains *)
Definition step (s : world) (e : event) : option world :=
  match e with
  | Req i => match nth_error (reqs s) i with
             | Some p => let '(w, q) := reqStep (word s) p in Some (mkW w (set i q (reqs s)) (waiting s) (returns s))
             | None => None
             end
  | Switch => Some (mkW (Z.lxor (word s) (topBit + bottomBit)) (reqs s) (S (waiting s)) (returns s))
  | Poll => match waiting s with
            | O => None
            | S k => Some (if draining (word s) then s else mkW (word s) (reqs s) k (S (returns s)))
            end
  end.
Fixpoint run (s : world) (l : list event) : option world :=
  match l with [] => Some s | e :: l => match step s e with Some s' => run s' l | None => None end end.
