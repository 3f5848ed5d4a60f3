(** Model of the flash encoding of an item and its chained allocations.

    /repo/cachelib/allocator/nvmcache/NvmItem.h, NvmItem.cpp,
    /repo/cachelib/allocator/nvmcache/NvmCache.h (makeBlob, makeNvmItem,
    createItem), /repo/cachelib/allocator/CacheAllocator.h (getUsableSize,
    addChainedItem).

    Bytes are exact; [None] is undefined behaviour (access outside a buffer).
    The user callbacks (encodeCb, decodeCb, makeBlobCb, makeObjCb) are not
    modelled: this is the default path. *)
From Verif Require Import Bytes Item_model.
Local Open Scope N_scope.

(** NvmItem.h:29-36 struct Blob *)
Record blob := { origAllocSize : N; bdata : list byte }.

(** sizeof(NvmItem) = 1+1+4+4+8, packed (NvmItem.h:163-180);
    sizeof(BlobInfo) = 8 (NvmItem.h:137-140). *)
Definition nvmHdr : nat := 18.

(** NvmItem.cpp:107-117 estimateVariableSize *)
Definition estimateVariableSize (bs : list blob) : nat :=
  fold_right (fun b n => 8 + length (bdata b) + n)%nat 0%nat bs.

(** NvmItem.cpp:42-71: the constructor's loop. [n] is numBlobs_; data begins
    behind the [n] BlobInfos. *)
Fixpoint fillBlobs (m : list byte) (n index : nat) (offset : N) (bs : list blob)
  : option (res (list byte)) :=
  match bs with
  | [] => Some (Ok m)
  | b :: r =>
      let offset' := offset + N.of_nat (length (bdata b)) in
      if 4294967295 <? offset' then Some Threw
      else
        let* m1 := wr m (nvmHdr + 8 * n + N.to_nat offset)%nat (bdata b) in
        let* m2 := wr m1 (nvmHdr + 8 * index)%nat (le_enc 4 (origAllocSize b)) in
        let* m3 := wr m2 (nvmHdr + 8 * index + 4)%nat (le_enc 4 offset') in
        fillBlobs m3 n (S index) offset' r
  end.

Definition nvmHeader (pool ct ex : N) (n : nat) : list byte :=
  [pool; 0] ++ le_enc 4 ct ++ le_enc 4 ex ++ le_enc 8 (N.of_nat n).

(** NvmItem.cpp:42-87 both constructors ([g]: the malloc'ed bytes; the one-blob
    constructor, NvmItem.cpp:73-87, does what the loop does for one blob, in a
    different order of writes). *)
Definition nvmItemCtor (g : list byte) (pool ct ex : N) (bs : list blob)
  : option (res (list byte)) :=
  let* m := wr g 0 (nvmHeader pool ct ex (length bs)) in
  match bs with
  | [b] =>
      if 4294967295 <? N.of_nat (length (bdata b)) then Some Threw
      else
        let* m1 := wr m (nvmHdr + 8)%nat (bdata b) in
        let* m2 := wr m1 nvmHdr (le_enc 4 (origAllocSize b)) in
        let* m3 := wr m2 (nvmHdr + 4)%nat (le_enc 4 (N.of_nat (length (bdata b)))) in
        Some (Ok m3)
  | _ => fillBlobs m (length bs) 0 0 bs
  end.

(** NvmItem.h:96-109 *)
Definition nvmPoolId (m : list byte) : option N := rd 1 m 0.
Definition nvmCreation (m : list byte) : option N := rd 4 m 2.
Definition nvmExpiry (m : list byte) : option N := rd 4 m 6.
Definition nvmNumBlobs (m : list byte) : option N := rd 8 m 10.

(** NvmItem.cpp:29-40 getBlob *)
Definition nvmGetBlob (m : list byte) (index : nat) : option (res blob) :=
  let* n := nvmNumBlobs m in
  if n <=? N.of_nat index then Some Threw
  else
    let* orig := rd 4 m (nvmHdr + 8 * index)%nat in
    let* e := rd 4 m (nvmHdr + 8 * index + 4)%nat in
    let* b := match index with
              | O => Some 0
              | S i => rd 4 m (nvmHdr + 8 * i + 4)%nat
              end in
    if e <? b then None
    else
      let* d := rd_bytes m (nvmHdr + 8 * N.to_nat n + N.to_nat b)%nat (N.to_nat (e - b)) in
      Some (Ok {| origAllocSize := orig; bdata := d |}).

(** NvmItem.cpp:101-105 totalSize *)
Definition nvmTotalSize (m : list byte) : option nat :=
  let* n := nvmNumBlobs m in
  let* e := rd 4 m (nvmHdr + 8 * (N.to_nat n - 1) + 4)%nat in
  Some (nvmHdr + 8 * N.to_nat n + N.to_nat e)%nat.

(** ** Items in RAM, as the flash layer sees them: the requested size and all
    usable bytes (getUsableSize >= getSize), CacheAllocator.h:4771-4779. *)
Record part := { p_size : N; p_mem : list byte }.
Record ramItem := { i_pool : N; i_creation : N; i_expiry : N;
                    i_parent : part; i_chain : list part }.

(** getUsableSize of the class that holds [size] (getRequiredSize as in
    Item_model.v); [None]: the allocation throws. *)
Definition usableParent (isz : nat) (classes : list N) (klen : nat) (size : N) : option N :=
  let* c := allocClass classes (getRequiredSize isz (N.of_nat klen) size) in
  Some (c - getRequiredSize isz (N.of_nat klen) 0).
Definition usableChained (isz pw : nat) (classes : list N) (size : N) : option N :=
  let* c := allocClass classes (chainedRequiredSize isz pw size) in
  Some (c - chainedRequiredSize isz pw 0).

(** NvmCache.h:1139-1154 makeBlob / getStorageSizeInNvm *)
Definition makeBlob (trunc : bool) (p : part) : blob :=
  {| origAllocSize := p_size p;
     bdata := if trunc then firstn (N.to_nat (p_size p)) (p_mem p) else p_mem p |}.

(** NvmCache.h:1156-1212 makeNvmItem: [g] is the malloc'ed memory of the given size *)
Definition makeNvmItem (trunc : bool) (g : nat -> list byte) (it : ramItem)
  : option (res (list byte)) :=
  let bs := makeBlob trunc (i_parent it) :: map (makeBlob trunc) (i_chain it) in
  nvmItemCtor (g (nvmHdr + estimateVariableSize bs)%nat) (i_pool it) (i_creation it) (i_expiry it) bs.

(** memcpy(getMemory(), blob.data, blob.data.size()) into fresh memory *)
Definition fillPart (usable : option N) (g : N -> list byte) (b : blob) : option (res part) :=
  match usable with
  | None => Some Threw
  | Some u =>
      let* m := wr (g u) 0 (bdata b) in
      Some (Ok {| p_size := origAllocSize b; p_mem := m |})
  end.

(** NvmCache.h:1490-1512: chained items are added from the last blob to the
    second; addChainedItem puts the new one in front
    (CacheAllocator.h:3252-3268).  [i] counts down. *)
Fixpoint addChain (isz pw : nat) (classes : list N) (g : N -> list byte) (m : list byte)
  (i : nat) (chain : list part) : option (res (list part)) :=
  match i with
  | O => Some (Ok chain)
  | S i' =>
      let* rb := nvmGetBlob m i in
      match rb with
      | Threw => Some Threw
      | Ok b =>
          let* rp := fillPart (usableChained isz pw classes (origAllocSize b)) g b in
          match rp with
          | Threw => Some Threw
          | Ok p => addChain isz pw classes g m i' (p :: chain)
          end
      end
  end.

(** NvmCache.h:1432-1520 createItem.  Allocation failures return a null handle
    (a miss) and are not modelled; [g u] is the fresh memory of [u] usable bytes. *)
Definition createItem (isz pw : nat) (classes : list N) (klen : nat) (g : N -> list byte)
  (m : list byte) : option (res ramItem) :=
  let* n := nvmNumBlobs m in
  let* rb := nvmGetBlob m 0 in
  match rb with
  | Threw => Some Threw
  | Ok b =>
      let* rp := fillPart (usableParent isz classes klen (origAllocSize b)) g b in
      match rp with
      | Threw => Some Threw
      | Ok p =>
          let* rc := addChain isz pw classes g m (N.to_nat n - 1) [] in
          match rc with
          | Threw => Some Threw
          | Ok chain =>
              let* pool := nvmPoolId m in
              let* ct := nvmCreation m in
              let* ex := nvmExpiry m in
              Some (Ok {| i_pool := pool; i_creation := ct; i_expiry := ex;
                          i_parent := p; i_chain := chain |})
          end
      end
  end.
