(** Plain arithmetic the encodings are compared with. *)
From Coq Require Import NArith.
From Verif Require Import AddrCode_model.
Local Open Scope N_scope.

(** A slot end in region [rid] at offset [off]: regions [0..n-1], offsets in units of [a]. *)
Definition slot_end (a regionSize n : N) (r : relAddr) : Prop :=
  fst r < n /\ 0 < snd r /\ snd r <= regionSize /\ (a | snd r).
(** Its position on the device. *)
Definition position (regionSize : N) (r : relAddr) : N := fst r * regionSize + snd r.
(** The least multiple of [b] that is at least [x]. *)
Definition is_round_up (x b y : N) : Prop := (b | y) /\ x <= y /\ y < x + b.
