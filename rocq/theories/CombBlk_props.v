(** C55: the combined entry block. *)
From Coq Require Import List NArith Bool Arith.
Import ListNotations.
From Verif Require Import Bytes CombBlk_model CombBlk_spec CombBlk_proofs2.

(** For every block size the 16-bit positions allow, every buffer and every sequence of calls: no access leaves the buffer, every call
    answers what the map says, every key reads as in the map, and the counts (valid entries, entries, keys of each bid) are the map's. *)
Theorem C55_refines : forall size d cs, (12 <= N.of_nat size < 65536)%N -> length d = size -> Forall okCall cs ->
  exists s0 s, create d = Some s0 /\ run s0 cs = Some (s, snd (doAll size empty cs)) /\
  let m := fst (doAll size empty cs) in
  (forall k, get s k = Some (match live m k with Some (_, r) => Some r | None => None end) /\ peek s k = Some (isLive m k)) /\
  valid s = N.of_nat (length (filter (isLive m) (seen m))) /\ numStored (buf s) = Some (N.of_nat (length (seen m))) /\
  (forall b, bids s b = length (filter (ofBid m b) (seen m))).
Proof. exact refines. Qed.
Print Assumptions C55_refines.

(** The buffer alone, as it is written to flash, has the map: a reader that skips removed entries finds exactly its keys with their bids and records. *)
Theorem C55_buffer : forall size d cs s0 s xs, (12 <= N.of_nat size < 65536)%N -> length d = size -> Forall okCall cs -> create d = Some s0 -> run s0 cs = Some (s, xs) ->
  length (buf s) = size /\ found (buf s) = contents (fst (doAll size empty cs)).
Proof. exact buffer. Qed.
Print Assumptions C55_buffer.

(** Of the map: its keys are among those seen, which are distinct and have room for their infos and records. *)
Theorem C55_seen : forall size cs, (12 <= N.of_nat size < 65536)%N -> Forall okCall cs ->
  let m := fst (doAll size empty cs) in NoDup (seen m) /\ (forall k, live m k <> None -> In k (seen m)) /\ fits size (length (seen m)).
Proof. exact seen_ok. Qed.
Print Assumptions C55_seen.

(** Non-vacuity: a block with room for two entries; a removed key keeps its place and comes back in it with another bid. *)
Definition demo : list call :=
  [Add 7 100 [1; 2; 3; 4; 5]; Add 8 200 [6; 7; 8; 9; 10]; Add 8 300 [0; 0; 0; 0; 0]; Remove 100; Remove 100; Add 9 100 [5; 4; 3; 2; 1]; Add 9 200 [9; 9; 9; 9; 9]]%N.
Example C55_meets : (12 <= N.of_nat 70 < 65536)%N /\ length (repeat 255%N 70) = 70 /\ Forall okCall demo.
Proof. split; [split; [discriminate|reflexivity]|]. split; [reflexivity|]. unfold demo. repeat constructor. Qed.
Example C55_results : match create (repeat 255%N 70) with
  | Some s0 => match run s0 demo with
               | Some (s, xs) => xs = [kOk; kOk; kFull; kOk; kNotFound; kOk; kUpdated] /\ valid s = 2%N /\ bids s 9 = 2 /\ bids s 8 = 0 /\
                                 found (buf s) = [(100, (9, [5; 4; 3; 2; 1])); (200, (9, [9; 9; 9; 9; 9]))]%N
               | None => False end
  | None => False end.
Proof. vm_compute. repeat split; reflexivity. Qed.
