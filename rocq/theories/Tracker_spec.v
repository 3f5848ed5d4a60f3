(** What is said about the access tracker. *)
From Coq Require Import List Arith Bool Sorted.
Import ListNotations.
From Verif Require Import Tracker_model.

(** The accesses of a history that fell into span [b] (ticks b*T to b*T+T-1), in order. *)
Fixpoint accesses (T : nat) (ops : list op) (b : nat) : list nat :=
  match ops with
  | [] => []
  | Rec t h :: ops => if t / T =? b then h :: accesses T ops b else accesses T ops b
  | Get _ _ :: ops => accesses T ops b
  end.
Definition count (l : list nat) (h : nat) : nat := count_occ Nat.eq_dec l h.
(** Time does not go back; the calls are one after the other, the last before [tick]. *)
Definition ordered (ops : list op) (tick : nat) : Prop := StronglySorted le (map at_ ops ++ [tick]).
(** No span of time is without a call, from the first call on. *)
Fixpoint steady (T : nat) (l : list nat) : Prop :=
  match l with a :: ((b :: _) as r) => (b / T = a / T \/ b / T = a / T + 1) /\ steady T r | _ => True end.
(** The sketch does not answer less than the truth. *)
Definition noless (est : list nat -> nat -> nat) : Prop := forall l h, count l h <= est l h.
(** A Bloom filter: 1 for what is in it, maybe for others. *)
Definition sees (est : list nat -> nat -> nat) : Prop := forall l h, In h l -> 0 < est l h.
