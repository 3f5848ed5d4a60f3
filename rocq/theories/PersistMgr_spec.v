(** What is said about saving and restoring a cache. *)
From Coq Require Import List Arith ZArith Bool.
Import ListNotations.
From Verif Require Import PersistMgr_model.
Open Scope Z_scope.

(** What is assumed of thrift, CRC32 and the blocks. *)
Record goodLib (L : lib) : Prop := mkGood {
  gB : (0 < blk L)%nat /\ Z.of_nat (blk L) < 2 ^ 32;
  gC : forall d, 0 <= crc L d < 2 ^ 32;
  gP : forall d, length (padOf L d) = (blk L - length d)%nat;
  gE : forall t x, length (encH L t x) = hlen L;
  gD : forall t x, (t <= 7)%nat -> 0 <= x < 2 ^ 63 -> decH L (encH L t x) = Some (t, x);
  gV : verOk L (ver L) = true /\ cfgOk L (cfg L) = true;
  gL : Z.of_nat (hlen L) < 2 ^ 64 /\ Z.of_nat (length (ver L)) < 2 ^ 63 /\ Z.of_nat (length (cfg L)) < 2 ^ 63
}.

(** A cache that can be saved: no segment is empty, and sizes are below 2^50 (a uint32_t counts the blocks). *)
Definition sized (L : lib) (d : list Z) : Prop := 0 < Z.of_nat (length d) < Z.of_nat (blk L) * (2 ^ 31 - 1).
Record goodCache (L : lib) (c : cache) : Prop := mkGC {
  cS : sized L (info c) /\ sized L (ht c) /\ sized L (cht c) /\ sized L (data c);
  cM : Z.of_nat (length (nvmState c)) < 2 ^ 63;
  cN : 0 <= navySize c < Z.of_nat (blk L) * (2 ^ 31 - 1)
}.
(** the size of a navy file, rounded up to blocks, is below 4 GiB *)
Definition below4G (L : lib) (c : cache) : Prop := navySize c <= 2 ^ 32 - Z.of_nat (blk L).

(** What one expects to find after restoring: each segment and each navy file (up to its size in whole blocks) as
    it was. *)
Definition ceil (L : lib) (n : Z) : nat := Z.to_nat ((n + Z.of_nat (blk L) - 1) / Z.of_nat (blk L)).
Definition same (L : lib) (old : option (list Z)) (c : cache) : restored :=
  mkR (match nvmState c with [] => old | s => Some s end)
      [(3%nat, info c); (4%nat, ht c); (5%nat, cht c); (6%nat, data c)]
      (Some (map (firstn (ceil L (navySize c) * blk L)) (navy c))).

(** The storage gives back as many bytes as were written. *)
Definition keepsLength (m : medium) : Prop := forall t j d, length (m t j d) = length d.
(** Some block comes back with another checksum: block j of section t, whose data are d. *)
Definition damaged (L : lib) (m : medium) (c : cache) : Prop :=
  (exists t d j, In (t, d) [(3%nat, info c); (4%nat, ht c); (5%nat, cht c); (6%nat, data c)] /\ (j < ceil L (Z.of_nat (length d)))%nat /\
     crc L (m t j (chunk L j d)) <> crc L (chunk L j d)) \/
  (exists i f j, nth_error (navy c) i = Some f /\ (j < ceil L (navySize c))%nat /\ crc L (m (7 + i)%nat j (chunk L j f)) <> crc L (chunk L j f)).

(** What comes back of the data of section t when the storage returns other bytes, and the whole cache then. *)
Definition thru (L : lib) (m : medium) (t n : nat) (d : list Z) : list Z := flat_map (fun j => m t j (chunk L j d)) (seq 0 n).
Definition arrived (L : lib) (m : medium) (old : option (list Z)) (c : cache) : restored :=
  let seg t d := (t, thru L m t (ceil L (Z.of_nat (length d))) d) in
  mkR (match nvmState c with [] => old | s => Some s end)
      [seg 3%nat (info c); seg 4%nat (ht c); seg 5%nat (cht c); seg 6%nat (data c)]
      (Some (map (fun p => thru L m (7 + fst p) (ceil L (navySize c)) (snd p)) (combine (seq 0 (length (navy c))) (navy c)))).
