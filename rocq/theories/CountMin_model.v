(** * CountMinSketch: approximate counting used by TinyLFU and the object caches.
    Models /repo/cachelib/common/CountMinSketch.h (CountMinSketchBase<UINT>).
    [cmax] is numeric_limits<UINT>::max(), the hash of row i and key k is a parameter
    (combineHashes(hashInt(i), k), any uint64), multiplication of a counter by the decay factor
    (double) is a parameter function.  The table is an array of [tsize] cells; an access
    outside it is [None]. *)
From Verif Require Import Bytes.

Record sketch := mkSk {
  width : N; depth : N;      (* uint32 *)
  tsize : N;                 (* allocated cells *)
  cell : N -> N;             (* table_ *)
  saturated : N              (* uint64 *)
}.
Definition setCell (s : sketch) (i v : N) : sketch :=
  {| width := width s; depth := depth s; tsize := tsize s;
     cell := fun x => if (x =? i)%N then v else cell s x; saturated := saturated s |}.
Definition setSat (s : sketch) (v : N) : sketch :=
  {| width := width s; depth := depth s; tsize := tsize s; cell := cell s; saturated := v |}.

(** CountMinSketch.h:138-153: the product is computed in uint32; [None]: the constructor throws. *)
Definition create (w d : N) : option sketch :=
  if (w =? 0)%N then None else if (d =? 0)%N then None
  else Some {| width := w; depth := d; tsize := wrap32 (w * d); cell := fun _ => 0%N; saturated := 0 |}.
(** CountMinSketch.h:66, 70-77: default constructed or moved-from. *)
Definition emptySketch : sketch :=
  {| width := 0; depth := 0; tsize := 0; cell := fun _ => 0%N; saturated := 0 |}.

Section Sketch.
Variable cmax : N.
Variable h : N -> N -> N.

(** CountMinSketch.h:235-241 getIndex: hashNum * width_ in uint32, the sum in uint64. *)
Definition getIndex (s : sketch) (i k : N) : N := wrap64 (wrap32 (i * width s) + h i k mod width s).

Definition rdCell (s : sketch) (i : N) : option N := if (i <? tsize s)%N then Some (cell s i) else None.
Definition wrCell (s : sketch) (i v : N) : option sketch := if (i <? tsize s)%N then Some (setCell s i v) else None.

(** The rows 0 .. depth_-1. *)
Definition rows (s : sketch) : list N := map N.of_nat (seq 0 (N.to_nat (depth s))).

(** CountMinSketch.h:192-203 increment: one row, then the loop. *)
Definition incRow (k : N) (s : sketch) (i : N) : option sketch :=
  let idx := getIndex s i k in
  let* v := rdCell s idx in
  if (v <? cmax)%N then
    let* s1 := wrCell s idx (v + 1) in
    Some (if (v + 1 =? cmax)%N then setSat s1 (wrap64 (saturated s1 + 1)) else s1)
  else Some s.
Fixpoint loop (f : sketch -> N -> option sketch) (s : sketch) (is : list N) : option sketch :=
  match is with [] => Some s | i :: r => let* s1 := f s i in loop f s1 r end.
Definition increment (s : sketch) (k : N) : option sketch := loop (incRow k) s (rows s).

(** CountMinSketch.h:205-213 getCount. *)
Fixpoint minRows (s : sketch) (k : N) (acc : N) (is : list N) : option N :=
  match is with
  | [] => Some acc
  | i :: r => let* v := rdCell s (getIndex s i k) in minRows s k (N.min acc v) r
  end.
Definition getCount (s : sketch) (k : N) : option N :=
  let* c := minRows s k cmax (rows s) in Some (if (depth s =? 0)%N then 0%N else c).

(** CountMinSketch.h:215-222 resetCount; the subtraction on UINT would wrap below zero. *)
Definition subRow (k c : N) (s : sketch) (i : N) : option sketch :=
  let idx := getIndex s i k in
  let* v := rdCell s idx in wrCell s idx ((v + (cmax + 1) - c) mod (cmax + 1)).
Definition resetCount (s : sketch) (k : N) : option sketch :=
  let* c := getCount s k in loop (subRow k c) s (rows s).

(** CountMinSketch.h:224-231 decayCountsBy, 98-103 reset: all cells below width_*depth_ (uint32),
    which is exactly the allocated table. *)
Definition decay (s : sketch) (d : N -> N) : sketch :=
  {| width := width s; depth := depth s; tsize := tsize s;
     cell := fun i => if (i <? wrap32 (width s * depth s))%N then d (cell s i) else cell s i;
     saturated := saturated s |}.
Definition reset (s : sketch) : sketch :=
  {| width := width s; depth := depth s; tsize := tsize s;
     cell := fun i => if (i <? wrap32 (width s * depth s))%N then 0%N else cell s i;
     saturated := saturated s |}.

Inductive call := Inc (k : N) | ResetKey (k : N) | Decay (d : N -> N) | Reset.
Definition exec (s : sketch) (c : call) : option sketch :=
  match c with
  | Inc k => increment s k
  | ResetKey k => resetCount s k
  | Decay d => Some (decay s d)
  | Reset => Some (reset s)
  end.
Fixpoint execs (s : sketch) (cs : list call) : option sketch :=
  match cs with [] => Some s | c :: r => let* s1 := exec s c in execs s1 r end.
End Sketch.
