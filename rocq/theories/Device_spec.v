(** The device as one flat byte array. *)
From Coq Require Import List NArith Bool.
Import ListNotations.
From Verif Require Import Device_model.
Local Open Scope N_scope.

(** Where logical byte [o] lives: (file, offset in the file); stripes go round robin. *)
Definition place (g : cfg) (o : N) : N * N :=
  if 1 <? numFiles g
  then ((o / stripeSize g) mod numFiles g, (o / stripeSize g) / numFiles g * stripeSize g + o mod stripeSize g)
  else (0, o).

(** Accepted configurations (FileDevice constructor Device.cpp:1006-1019, Device.h:109-128). *)
Definition valid (g : cfg) : Prop :=
  0 < ioAlign g /\ 0 < numFiles g /\ numFiles g < U32 /\ maxWriteSize g < U32 /\ maxIOSize g < U32 /\
  (ioAlign g | maxWriteSize g) /\ (ioAlign g | maxIOSize g) /\
  (1 < numFiles g -> 0 < stripeSize g /\ stripeSize g < U32).

(** An encryptor that works block by block, the salt of a block being its offset. *)
Definition blockwise (bs : N) (e : encryptor) (E D : N -> list byte -> list byte) : Prop :=
  (forall o b, length b = N.to_nat bs -> length (E o b) = N.to_nat bs /\ length (D o b) = N.to_nat bs /\ D o (E o b) = b) /\
  (forall d s d', encrypt e d s = Some d' ->
     length d' = length d /\
     forall i, (S i * N.to_nat bs <= length d)%nat ->
       firstn (N.to_nat bs) (skipn (i * N.to_nat bs) d') = E (s + N.of_nat i * bs) (firstn (N.to_nat bs) (skipn (i * N.to_nat bs) d))) /\
  (forall d s d', decrypt e d s = Some d' ->
     length d' = length d /\
     forall i, (S i * N.to_nat bs <= length d)%nat ->
       firstn (N.to_nat bs) (skipn (i * N.to_nat bs) d') = D (s + N.of_nat i * bs) (firstn (N.to_nat bs) (skipn (i * N.to_nat bs) d))).
Definition good_enc (g : cfg) : Prop :=
  match enc g with None => True | Some e => exists E D, blockwise (ioAlign g) e E D end.

(** Aligned write of [data] at [offset] (what the callers are required to do, Device.cpp:471-472). *)
Definition legal_write (g : cfg) (offset : N) (data : list byte) : Prop :=
  (ioAlign g | offset) /\ (ioAlign g | N.of_nat (length data)) /\ N.of_nat (length data) < U32.

(** A history of writes, newest first, with their outcome; what byte [o] must hold: [None] =
    unknown (never written, or touched by a failed write since). *)
Record wr := mkWr { w_off : N; w_data : list byte; w_ok : bool }.
Fixpoint expect (h : list wr) (o : N) : option byte :=
  match h with
  | [] => None
  | w :: r => if (w_off w <=? o) && (o <? w_off w + N.of_nat (length (w_data w)))
              then if w_ok w then Some (nth (N.to_nat (o - w_off w)) (w_data w) 0) else None
              else expect r o
  end.

(** States reachable by legal writes, with their history. *)
Inductive run (g : cfg) : files -> list wr -> Prop :=
| run_nil fs : run g fs []
| run_write fs h offset data ft fs' ok :
    run g fs h -> legal_write g offset data -> write g fs offset data ft = Some (fs', ok) ->
    run g fs' (mkWr offset data ok :: h).
