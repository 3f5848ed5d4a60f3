(** Model of saving a cache to a stream and restoring it on another host
    (/repo/cachelib/persistence/PersistenceManager.h, .cpp).

    A stream is a list of bytes.  The reader gives the bytes asked for, or those that are left (the
    code checks the length it got, except once); a single byte that is not there is an exception.  Not
    modelled: thrift (encH, decH, ver, cfg: any encoding that decodes what it encoded and with headers of one
    length, which is what BinarySerializer gives), CRC32 (any function), writing errors of the disk, the page rounding of
    segment sizes (the saved size is already rounded), exhausted memory.  The two branches of
    saveDataInBlocks write the same bytes and are one here. *)
From Coq Require Import List Arith ZArith Bool Lia.
Import ListNotations.
Open Scope Z_scope.

Record lib := mkLib {
  blk : nat;                              (* kDataBlockSize (PersistenceManager.h:39) *)
  crc : list Z -> Z;                      (* folly::crc32 *)
  padOf : list Z -> list Z;               (* what is in DataBlock.data behind the data *)
  encH : nat -> Z -> list Z;              (* makeHeader (PersistenceManager.cpp:290-301) *)
  decH : list Z -> option (nat * Z);      (* deserialize<PersistenceHeader>; None: exception *)
  hlen : nat;                             (* length of a header *)
  ver : list Z; verOk : list Z -> bool;   (* versions_; deserializeAndValidateVersions (382-401) *)
  cfg : list Z; cfgOk : list Z -> bool    (* config_; deserialize and compare (198-201) *)
}.

(** the bytes of an unsigned number, least significant first *)
Fixpoint enc (n : nat) (x : Z) : list Z := match n with O => [] | S n => x mod 256 :: enc n (x / 256) end.
Fixpoint dec (l : list Z) : Z := match l with [] => 0 | b :: l => b + 256 * dec l end.

(** getAlignedSize (Utils.h:274-278) with a 64-bit size, and how many blocks that are, as uint32_t
    (PersistenceManager.cpp:349-350, 371-372); as int32_t when saving navy files (143-144). *)
Definition align64 (L : lib) (x : Z) : Z :=
  let b := Z.of_nat (blk L) in let r := x mod b in if r =? 0 then x else (x + b - r) mod 2 ^ 64.
Definition blocks64 (L : lib) (x : Z) : Z := (align64 L x / Z.of_nat (blk L)) mod 2 ^ 32.
(** a number of iterations held in an int32_t *)
Definition iters (q : Z) : nat := if q <? 2 ^ 31 then Z.to_nat q else O.
(** The same when restoring navy files (238-240): the size is put into an int32_t first; the arithmetic with the unsigned
    kDataBlockSize is then modulo 2^32. *)
Definition blocks32 (L : lib) (x : Z) : Z :=
  let b := Z.of_nat (blk L) in let n := x mod 2 ^ 32 in let r := n mod b in
  (if r =? 0 then n else (n + b - r) mod 2 ^ 32) / b.

(** ** Saving *)

Record cache := mkC {
  nvmState : list Z;                       (* the file NvmCacheState *)
  info : list Z; ht : list Z; cht : list Z; data : list Z;   (* the shared memory segments *)
  navy : list (list Z);                    (* navyFiles_ *)
  navySize : Z                             (* navyFileSize_ *)
}.

(** Block j of [d] (349-376, 147-157): readFull gives what is left of a file. *)
Definition chunk (L : lib) (j : nat) (d : list Z) : list Z := firstn (blk L) (skipn (j * blk L) d).
(** DataBlock (53-74); [g]: what the storage makes of the data. *)
Definition block (L : lib) (g : list Z -> list Z) (d : list Z) : list Z :=
  enc 4 (crc L d) ++ enc 4 (Z.of_nat (length d)) ++ g d ++ padOf L d.
Definition blocksOf (L : lib) (g : nat -> list Z -> list Z) (n : nat) (d : list Z) : list Z :=
  flat_map (fun j => block L (g j) (chunk L j d)) (seq 0 n).

(** What the storage does to block j of section t (7 + i: navy file i). *)
Definition medium := nat -> nat -> list Z -> list Z.
Definition exact : medium := fun _ _ d => d.

(** saveShm (332-345) *)
Definition secShm (L : lib) (m : medium) (t : nat) (d : list Z) : list Z :=
  30 :: encH L t (Z.of_nat (length d)) ++ blocksOf L (m t) (Z.to_nat (blocks64 L (Z.of_nat (length d)))) d.
Definition secNavy (L : lib) (m : medium) (c : cache) : list Z :=
  30 :: encH L 7 (navySize c) ++
  flat_map (fun p => blocksOf L (m (7 + fst p)%nat) (iters (blocks64 L (navySize c))) (snd p)) (combine (seq 0 (length (navy c))) (navy c)).
(** saveCache (76-167), as the storage gives it back.  An empty segment is an exception (338). *)
Definition saveVia (L : lib) (m : medium) (c : cache) : option (list Z) :=
  if existsb (fun d => match d with [] => true | _ => false end) [info c; ht c; cht c; data c] then None
  else Some (
    28 :: enc 8 (Z.of_nat (hlen L)) ++ encH L 0 (Z.of_nat (length (ver L))) ++ ver L ++
    30 :: encH L 1 (Z.of_nat (length (cfg L))) ++ cfg L ++
    30 :: encH L 2 (Z.of_nat (length (nvmState c))) ++ nvmState c ++      (* saveFile (303-317) *)
    secShm L m 3 (info c) ++ secShm L m 4 (ht c) ++ secShm L m 5 (cht c) ++ secShm L m 6 (data c) ++
    secNavy L m c ++ [31]).
Definition save (L : lib) (c : cache) : option (list Z) := saveVia L exact c.

(** ** Restoring *)

Record restored := mkR {
  rNvm : option (list Z);                  (* the file NvmCacheState *)
  rSegs : list (nat * list Z);             (* segments made *)
  rNavy : option (list (list Z))           (* contents of the navy files; None: not touched *)
}.
(** ROk: restoreCache has returned and ShmManager::shutDown has made the segments attachable (182); RFail: an
    exception, and they are not. *)
Inductive outcome := RFail | RUB | ROk (r : restored) (left : list Z).
Inductive bres := BFail | BUB | BOk (got left : list Z).

(** restoreDataFromBlocks (368-380) into [bound] bytes, and the loop for a navy file (244-253). *)
Fixpoint rblocks (L : lib) (bound : option Z) (n : nat) (s acc : list Z) : bres :=
  match n with
  | O => BOk acc s
  | S n =>
    if (length s <? 8 + blk L)%nat then BFail
    else
      let ck := dec (firstn 4 s) in
      let len := dec (firstn 4 (skipn 4 s)) in
      let body := firstn (blk L) (skipn 8 s) in
      (* validate (71-73): crc32 of header.length bytes *)
      if Z.of_nat (blk L) <? len then BUB
      else
        let d := firstn (Z.to_nat len) body in
        if negb (crc L d =? ck) then BFail
        else if (match bound with Some b => b <? Z.of_nat (length acc) + len | None => false end) then BUB
        else rblocks L bound n (skipn (8 + blk L) s) (acc ++ d)
  end.
Fixpoint rfiles (L : lib) (nf nb : nat) (s : list Z) (acc : list (list Z)) : option (option (list (list Z) * list Z)) :=
  match nf with
  | O => Some (Some (acc, s))
  | S nf => match rblocks L None nb s [] with
            | BFail => Some None
            | BUB => None
            | BOk f s => rfiles L nf nb s (acc ++ [f])
            end
  end.

Inductive sres := SFail | SUB | SOk (r : restored) (left : list Z).
Definition getBuf (len : Z) (s : list Z) : option (list Z * list Z) :=
  if (len <? 0) || (Z.of_nat (length s) <? len) then None else Some (firstn (Z.to_nat len) s, skipn (Z.to_nat len) s).
Definition hasSeg (r : restored) (t : nat) : bool := existsb (fun p => (fst p =? t)%nat) (rSegs r).

(** One section (186-266).  [nf]: navyFiles_.size() *)
Definition section (L : lib) (nf : nat) (r : restored) (t : nat) (len : Z) (s : list Z) : sres :=
  match t with
  | 0%nat => match getBuf len s with Some (b, s) => if verOk L b then SOk r s else SFail | None => SFail end
  | 1%nat => match getBuf len s with Some (b, s) => if cfgOk L b then SOk r s else SFail | None => SFail end
  | 2%nat =>
    match getBuf len s with
    (* restoreFile (319-330): an empty buffer changes nothing *)
    | Some (b, s) => SOk (mkR (match b with [] => rNvm r | _ => Some b end) (rSegs r) (rNavy r)) s
    | None => SFail
    end
  | 3%nat | 4%nat | 5%nat | 6%nat =>
    (* createShm: not of no size, not twice *)
    if (len <=? 0) || hasSeg r t then SFail
    else match rblocks L (Some len) (Z.to_nat (blocks64 L len)) s [] with
         | BFail => SFail
         | BUB => SUB
         | BOk d s => SOk (mkR (rNvm r) (rSegs r ++ [(t, d ++ repeat 0 (Z.to_nat len - length d))]) (rNavy r)) s
         end
  | 7%nat =>
    match rfiles L nf (iters (blocks32 L len)) s [] with
    | None => SUB
    | Some None => SFail
    | Some (Some (fs, s)) => SOk (mkR (rNvm r) (rSegs r) (Some fs)) s
    end
  | _ => SFail
  end.

Fixpoint rloop (L : lib) (nf fuel hl : nat) (r : restored) (s : list Z) : outcome :=
  match fuel with
  | O => RFail
  | S fuel =>
    if (length s <? hl)%nat then RFail
    else match decH L (firstn hl s) with
         | None => RFail
         | Some (t, len) =>
           match section L nf r t len (skipn hl s) with
           | SFail => RFail
           | SUB => RUB
           | SOk r [] => RFail
           | SOk r (m :: s) => if m =? 30 then rloop L nf fuel hl r s else if m =? 31 then ROk r s else RFail
           end
         end
  end.

(** restoreCache (169-288).  [old]: the file NvmCacheState there was. *)
Definition restore (L : lib) (old : option (list Z)) (nf : nat) (s : list Z) : outcome :=
  match s with
  | [] => RFail
  | b :: s =>
    if negb (b =? 28) then RFail
    else if (length s <? 8)%nat then RUB          (* 177-178: a size_t is read from fewer bytes *)
    else let hl := dec (firstn 8 s) in
         let s := skipn 8 s in
         if Z.of_nat (length s) <? hl then RFail
         else rloop L nf (S (length s)) (Z.to_nat hl) (mkR old [] None) s
  end.
