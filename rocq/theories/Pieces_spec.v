(** What the pieces should be, over unbounded numbers. *)
From Verif Require Import Bytes Pieces_model.
Local Open Scope N_scope.

(** First and last byte a request asks for in a body of [len] bytes (all of it without a range;
    an open or over-long range ends with the body). *)
Definition wantFirst (r : option RequestRange) : N :=
  match r with Some (Some (a, _)) => a | _ => 0 end.
Definition wantLast (len : N) (r : option RequestRange) : N :=
  match r with Some (Some (_, Some e)) => N.min e (len - 1) | _ => len - 1 end.

(** Byte range [off, off+sz) of piece [i] of a body of [len] bytes cut at multiples of [ps]. *)
Definition pieceOff (ps i : N) : N := i * ps.
Definition pieceLen (ps len i : N) : N := N.min ((i + 1) * ps) len - i * ps.
(** total length of pieces [i], [i+1], .., [i+n-1] *)
Fixpoint sumLen (ps len i : N) (n : nat) : N :=
  match n with O => 0 | S n' => pieceLen ps len i + sumLen ps len (i + 1) n' end.

(** Every (leftmost, non-overlapping) occurrence of the separator "|#|" doubled: one scan. *)
From Coq Require Import Ascii.
Fixpoint doubled (s : list ascii) : list ascii :=
  match s with
  | c :: t => match c, t with
      | "|"%char, ("#"%char :: "|"%char :: r) =>
          ("|" :: "#" :: "|" :: "|" :: "#" :: "|" :: doubled r)%char
      | _, _ => c :: doubled t
      end
  | [] => []
  end.
(** The pieces visited by the fetch loop "do { fetch(cur) } while (more && (++cur, true))". *)
Fixpoint visited (fuel : nat) (p : pieces) : list N :=
  match fuel with
  | O => []
  | S f => curFetching p :: (if morePiecesToFetch p then visited f (updateFetchIndex p) else [])
  end.
