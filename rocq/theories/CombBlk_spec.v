(** What the block stands for: a map from keys to (bid, record) with room for a number of different keys, and how to read it back
    from the buffer alone. *)
From Coq Require Import List NArith Bool Arith.
Import ListNotations.
From Verif Require Import Bytes CombBlk_model.

(** [live]: the map; [seen]: the keys added since the last clear, in order. *)
Record smap := mkS { live : N -> option (N * list byte); seen : list N }.
Definition empty : smap := mkS (fun _ => None) [].
(** Header, the infos and the records of [n] entries fit. *)
Definition fits (size n : nat) : Prop := 12 + 24 * n + 5 * n <= size.
Definition fitsb (size n : nat) : bool := 12 + 24 * n + 5 * n <=? size.
Definition does (size : nat) (s : smap) (c : call) : smap * status :=
  match c with
  | Add b k r =>
      match live s k with
      | Some _ => (mkS (upd (live s) k (Some (b, r))) (seen s), kUpdated)
      | None => if existsb (N.eqb k) (seen s) then (mkS (upd (live s) k (Some (b, r))) (seen s), kOk)
                else if fitsb size (S (length (seen s))) then (mkS (upd (live s) k (Some (b, r))) (seen s ++ [k]), kOk)
                else (s, kFull)
      end
  | Remove k => match live s k with Some _ => (mkS (upd (live s) k None) (seen s), kOk) | None => (s, kNotFound) end
  | Clear => (empty, kOk)
  end.
Fixpoint doAll (size : nat) (s : smap) (cs : list call) : smap * list status :=
  match cs with [] => (s, []) | c :: cs => let (s, x) := does size s c in let (s, xs) := doAll size s cs in (s, x :: xs) end.
(** Bids and keys are 64-bit, records are 5 bytes. *)
Definition okCall (c : call) : Prop :=
  match c with Add b k r => (b < 256 ^ 8)%N /\ (k < 256 ^ 8)%N /\ length r = 5 | _ => True end.

Definition isLive (s : smap) (k : N) : bool := match live s k with Some _ => true | None => false end.
Definition ofBid (s : smap) (b k : N) : bool := match live s k with Some (b', _) => (b' =? b)%N | None => false end.

(** Reading the buffer: entry [i] as (bid, key, removed, record); the record lies where the info says. *)
Definition entry (d : list byte) (i : nat) : N * N * bool * list byte :=
  let o := 12 + 24 * i in
  (le_dec (slice d o 8), le_dec (slice d (o + 8) 8), N.odd (le_dec (slice d (o + 18) 1)), slice d (N.to_nat (le_dec (slice d (o + 16) 2))) 5).
Definition entries (d : list byte) : list (N * N * bool * list byte) := map (entry d) (seq 0 (N.to_nat (le_dec (slice d 8 4)))).
(** What a reader that skips removed entries finds. *)
Definition found (d : list byte) : list (N * (N * list byte)) :=
  flat_map (fun e => let '(b, k, gone, r) := e in if gone : bool then [] else [(k, (b, r))]) (entries d).
Definition contents (s : smap) : list (N * (N * list byte)) :=
  flat_map (fun k => match live s k with Some v => [(k, v)] | None => [] end) (seen s).
