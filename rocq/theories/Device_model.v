(** * Device: block I/O, striping over several files, chunking, encryption.
    Models /repo/cachelib/navy/common/Device.cpp:433-572 (Device::write/read and their Internal
    loops), :639-684 (IOReq splits a request into one operation per stripe), :607-633 and :714-726
    (an operation succeeds iff all its bytes were transferred; a request iff all operations did),
    Device.h:78-135.  Each file is a byte array.  A failed operation may have changed any byte of
    its own range (and a failed read any byte of its own buffer part).  Statistics, placement
    handles and the kernel interfaces (pwrite/io_uring) are not modelled. *)
From Coq Require Import List NArith Lia Bool.
Import ListNotations.
Local Open Scope N_scope.

Definition byte := N.
Definition U32 : N := 2 ^ 32.
(** file index -> offset -> byte *)
Definition files := N -> N -> byte.

(** DeviceEncryptor (Device.h:34-55): in-place transformation of a byte range under a salt;
    None = failure. *)
Record encryptor := mkEnc { encrypt : list byte -> N -> option (list byte); decrypt : list byte -> N -> option (list byte) }.

Record cfg := mkCfg {
  numFiles : N; stripeSize : N; ioAlign : N; maxWriteSize : N; maxIOSize : N; enc : option encryptor }.

(** One operation: file, offset in the file, size, position in the request's buffer. *)
Record ioop := mkOp { fd : N; fofs : N; osize : N; opos : N }.

(** Device.cpp:656-673, the loop over stripes (fuel bounds the iterations; None = out of fuel) *)
Fixpoint split_stripes (fuel : nat) (nf s offset size pos : N) : option (list ioop) :=
  if size =? 0 then Some [] else
  match fuel with
  | O => None
  | S f =>
      let stripe := offset / s in
      let fdIdx := (stripe mod nf) mod U32 in
      let stripeStart := (stripe / nf) * s in
      let inStripe := (offset mod s) mod U32 in
      let allowed := N.min size (s - inStripe) in
      match split_stripes f nf s (offset + allowed) (size - allowed) (pos + allowed) with
      | Some l => Some (mkOp fdIdx (stripeStart + inStripe) allowed pos :: l)
      | None => None
      end
  end.

(** Device.cpp:639-681 IOReq *)
Definition io_req (g : cfg) (offset size pos : N) : option (list ioop) :=
  if 1 <? numFiles g then split_stripes (S (N.to_nat size)) (numFiles g) (stripeSize g) offset size pos
  else Some [mkOp 0 offset size pos].

(** Fate of an operation: done, or failed leaving the given garbage in its range. *)
Definition fate := option (N -> N -> byte).
Definition in_op (o : ioop) (f x : N) : bool := (f =? fd o) && (fofs o <=? x) && (x <? fofs o + osize o).

Definition write_op (fs : files) (data : list byte) (o : ioop) (r : fate) : files :=
  fun f x => if in_op o f x
             then match r with None => nth (N.to_nat (opos o + (x - fofs o))) data 0 | Some g => g f x end
             else fs f x.
Definition read_op (fs : files) (buf : N -> byte) (o : ioop) (r : fate) : N -> byte :=
  fun p => if (opos o <=? p) && (p <? opos o + osize o)
           then match r with None => fs (fd o) (fofs o + (p - opos o)) | Some g => g (fd o) (fofs o + (p - opos o)) end
           else buf p.

(** The operations of a request; [ft i]: fate of the i-th. Result: aggregated success (:714-726). *)
Fixpoint write_ops (fs : files) (data : list byte) (l : list ioop) (ft : nat -> fate) : files * bool :=
  match l with
  | [] => (fs, true)
  | o :: r =>
      let '(fs', ok) := write_ops (write_op fs data o (ft O)) data r (fun i => ft (S i)) in
      (fs', match ft O with None => ok | Some _ => false end)
  end.
Fixpoint read_ops (fs : files) (buf : N -> byte) (l : list ioop) (ft : nat -> fate) : (N -> byte) * bool :=
  match l with
  | [] => (buf, true)
  | o :: r =>
      let '(b', ok) := read_ops fs (read_op fs buf o (ft O)) r (fun i => ft (S i)) in
      (b', match ft O with None => ok | Some _ => false end)
  end.

(** Device.cpp:462-493 writeInternal; [ft c i]: fate of operation i of chunk c; writeImpl's size
    parameter is uint32_t *)
Fixpoint write_chunks (g : cfg) (fuel : nat) (c : nat) (fs : files) (data : list byte) (maxW offset pos rem : N)
    (ft : nat -> nat -> fate) : option (files * bool) :=
  if rem =? 0 then Some (fs, true) else
  match fuel with
  | O => None
  | S f =>
      let ws := N.min maxW rem in
      match io_req g offset (ws mod U32) pos with
      | None => None
      | Some l =>
          let '(fs', ok) := write_ops fs data l (ft c) in
          if ok then write_chunks g f (S c) fs' data maxW (offset + ws) (pos + ws) (rem - ws) ft
          else Some (fs', false)
      end
  end.
Definition writeInternal (g : cfg) (fs : files) (offset : N) (data : list byte) (ft : nat -> nat -> fate) :=
  let size := N.of_nat (length data) in
  write_chunks g (S (length data)) 0 fs data (if maxWriteSize g =? 0 then size else maxWriteSize g) offset 0 size ft.

(** Device.cpp:433-460 write *)
Definition write (g : cfg) (fs : files) (offset : N) (data : list byte) (ft : nat -> nat -> fate) : option (files * bool) :=
  match enc g with
  | None => writeInternal g fs offset data ft
  | Some e => match encrypt e data offset with
              | None => Some (fs, false)
              | Some data' => writeInternal g fs offset data' ft
              end
  end.

(** Device.cpp:501-539 readInternal: the loop ... *)
Fixpoint read_chunks (g : cfg) (fuel : nat) (c : nat) (fs : files) (buf : N -> byte) (maxR offset pos rem : N)
    (ft : nat -> nat -> fate) : option ((N -> byte) * bool) :=
  if rem =? 0 then Some (buf, true) else
  match fuel with
  | O => None
  | S f =>
      let rs := N.min maxR rem in
      match io_req g offset (rs mod U32) pos with
      | None => None
      | Some l =>
          let '(b', ok) := read_ops fs buf l (ft c) in
          if ok then read_chunks g f (S c) fs b' maxR (offset + rs) (pos + rs) (rem - rs) ft
          else Some (b', false)
      end
  end.
Definition bytes_of (buf : N -> byte) (n : N) : list byte := map (fun i => buf (N.of_nat i)) (seq 0 (N.to_nat n)).
(** ... and the decryption.  Result: None = out of fuel; Some None = failure. *)
Definition readInternal (g : cfg) (fs : files) (offset size : N) (ft : nat -> nat -> fate) : option (option (list byte)) :=
  match read_chunks g (S (N.to_nat size)) 0 fs (fun _ => 0) (if maxIOSize g =? 0 then size else maxIOSize g) offset 0 size ft with
  | None => None
  | Some (_, false) => Some None
  | Some (b, true) =>
      match enc g with
      | None => Some (Some (bytes_of b size))
      | Some e => Some (decrypt e (bytes_of b size) offset)
      end
  end.
(** Device.cpp:549-564 read: align outwards, read, trim. (ioAlign is a power of two:
    masking = rounding down, Device.h:139 rounding up.) *)
Definition read (g : cfg) (fs : files) (offset size : N) (ft : nat -> nat -> fate) : option (option (list byte)) :=
  let a := ioAlign g in
  let prefix := offset mod a in
  let readSize := ((prefix + size + (a - 1)) / a * a) mod U32 in
  match readInternal g fs (offset - prefix) readSize ft with
  | Some (Some l) => Some (Some (firstn (N.to_nat size) (skipn (N.to_nat prefix) l)))
  | r => r
  end.
