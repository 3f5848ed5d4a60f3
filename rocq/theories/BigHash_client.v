(** Construction of the engine and what its environment (configuration, device,
    caller) guarantees; used to state the C22 theorems. *)
From Verif Require Import Bytes BucketStorage_model Bucket_model Bucket_spec BloomFilter_model
  BloomFilter_client BigHash_model BigHash_spec.
Local Open Scope N_scope.

(** BigHash.cpp:70-103: the constructor resets at clock value [gen] over whatever the
    device holds; the filter, if any, is freshly built. *)
Definition newBH (nb : N) (bloom : option bf) (gen : N) (dev : N -> block) : option bighash :=
  resetBH nb {| bgen := 0; bbloom := bloom; bvalid := []; bdev := dev |} gen.

(** BigHash.cpp:33-68 Config::validate (power-of-two test on the bucket size). *)
Definition configValid (bucketSize base cacheSize : N) (bloom : option bf) : bool :=
  (bucketSize <=? cacheSize) && (N.land bucketSize (bucketSize - 1) =? 0) && (0 <? bucketSize)
  && (cacheSize <=? bucketSize * two32)
  && (base mod bucketSize =? 0) && (cacheSize mod bucketSize =? 0)
  && match bloom with Some f => numFilters f =? cacheSize / bucketSize | None => true end.

(** All the configuration facts the theorems use: bucket of 24 header bytes + cap. *)
Record conf_ok (bucketSize base nb : N) (cap : nat) : Prop := {
  co_bs : bucketSize = N.of_nat cap + 24;
  co_cap : N.of_nat cap < two32;
  co_nb : 0 < nb /\ nb + 100 <= two32;
  co_off : base + bucketSize * nb < two64
}.

(** The device at construction time: blocks of the right size, none carrying the new
    generation; the filter (if any) is a fresh one with one filter per bucket. *)
Definition init_ok (bucketSize base nb : N) (cap : nat) (bloom : option bf) (gen : N) (dev : N -> block) : Prop :=
  (forall i, i < nb -> length (sdata (bk_st (dev (bucketOffset bucketSize base i)))) = cap
                    /\ bk_gen (dev (bucketOffset bucketSize base i)) <> gen)
  /\ match bloom with
     | None => True
     | Some f => exists hint nh ht, params_ok nb nh ht /\ makeBF hint nb nh ht = Some f
     end.

Definition empty_eng : aeng := {| alist := fun _ => []; adis := fun _ => false |}.


Section Env.
Variable comb : N -> N -> N.
Variable csum : N -> storage -> N.
Variable base : N.
Variable nb : N.
Variable chk : option (list byte -> bool).
Variable cap : nat.
Variable bucketSize : N.

(** Blocks have a fixed size, and the checksum (or generation) tells corrupted bytes. *)
Definition rd_ok (s : bighash) (r : rdres) : Prop :=
  match r with
  | RdCorrupt b => length (sdata (bk_st b)) = cap /\ goodBlock csum (bgen s) b = false
  | _ => True
  end.
Definition wr_ok (w : wrres) : Prop :=
  match w with WrFail b => length (sdata (bk_st b)) = cap | _ => True end.

(** Per event: the caller inserts only items that fit an empty bucket (EnginePair
    routes by smallItemMaxSize <= BigHash::getMaxItemSize, EnginePair.cpp:328-333);
    a reset picks a clock value no block on the device carries. *)
Definition ev_ok (s : bighash) (e : event) : Prop :=
  match e with
  | EInsert k v r w => (cost {| ekey := k; eval := v |} <= cap)%nat /\ khash k < two64
                       /\ rd_ok s r /\ wr_ok w
  | ELookup k r => rd_ok s r
  | ERemove k r w => rd_ok s r /\ wr_ok w
  | ECouldExist _ => True
  | EReset g => forall i, i < nb -> bk_gen (bdev s (bucketOffset bucketSize base i)) <> g
  | ECorrupt i b => i < nb /\ length (sdata (bk_st b)) = cap /\ goodBlock csum (bgen s) b = false
  | ERestart _ => True
  end.

(** ... along a run. *)
Fixpoint evs_ok (s : bighash) (es : list event) : Prop :=
  match es with
  | [] => True
  | e :: r => ev_ok s e /\
      match exec comb csum bucketSize base nb chk s e with Some (s', _) => evs_ok s' r | None => True end
  end.
End Env.

(** The read made by a remove is not transiently corrupted (see
    C22_transient_corruption_refuted for why this is needed). *)
Definition not_corrupt_remove (e : event) : Prop :=
  match e with ERemove _ (RdCorrupt _) _ => False | _ => True end.

Definition expired_by (c : option (list byte -> bool)) : list byte -> bool :=
  match c with Some f => f | None => fun _ => false end.
