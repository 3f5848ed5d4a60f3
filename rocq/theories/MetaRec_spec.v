(** What C43 means: where the records of a stream end, from their sizes alone. *)
From Coq Require Import List Arith NArith.
Import ListNotations.
From Verif Require Import Bytes MetaRec_model.

(** First block boundary at or after [p]. *)
Definition roundUp (B p : nat) : nat := (p + B - 1) / B * B.

(** A record of [n] bytes after position [p]: a header never crosses a block. *)
Definition place (B p n : nat) : nat :=
  (if roundUp B p - p <? 28 then roundUp B p else p) + 28 + n.

Definition end_pos (B : nat) (rs : list (list byte)) : nat :=
  fold_left (fun p d => place B p (length d)) rs 0.

(** Records the engines may write. *)
Definition okrec (d : list byte) : Prop := d <> [] /\ (N.of_nat (length d) < two32)%N.

Definition all_ok (l : list (nat * bool)) : Prop := forall w, In w l -> snd w = true.
Definition nofail : nat -> option (list byte) := fun _ => None.
Definition noreadfail : nat -> bool := fun _ => false.

(** Reading the stream from the start returns exactly [rs], then fails. *)
Definition reads_back (dh hh : list byte -> N) (B M : nat) (dev : list byte)
  (rs : list (list byte)) : Prop :=
  exists st, readN dh hh B M dev noreadfail (length rs) (rinit B) = Some (rs, st) /\
             readRecord dh hh B M dev noreadfail st = None /\
             (rs <> [] -> isEnd hh B M dev noreadfail (rinit B) = false).
