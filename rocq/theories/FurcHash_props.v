(** C39: theorems on the consistent hash. *)
From Verif Require Import Bytes FurcHash_model FurcHash_spec FurcHash_proofs.

(** For every key and every number of shards up to the documented 2^23 the computation never
    leaves its hash cache and the shard chosen is a legal one. *)
Theorem C39_in_range : forall (key : list byte) (n : N), (1 <= n)%N -> (n <= 2 ^ 23)%N ->
  exists r, furcHash key n = Some r /\ (r < n)%N.
Proof. exact in_range. Qed.
Print Assumptions C39_in_range.

(** Growing from n to n+1 shards either leaves a key where it is or moves it to the new shard n;
    the only other possibility is a key whose 32 designated pseudo-random bits are all set (the
    32 tries were used up), when n is a power of two, and then the key moves to shard 0. *)
Theorem C39_monotone : forall (key : list byte) (n : N), (1 <= n)%N -> (n + 1 <= 2 ^ 23)%N ->
  exists r r', furcHash key n = Some r /\ furcHash key (n + 1) = Some r' /\
  (r' = r \/ r' = n \/ (exists b, n = (2 ^ N.of_nat b)%N /\ r' = 0%N /\ unlucky key b)).
Proof.
  intros key n L U. exists (fP key n), (fP key (n + 1)).
  split; [apply furcHash_ok; lia|]. split; [apply furcHash_ok; lia|]. apply grow; assumption.
Qed.
Print Assumptions C39_monotone.

(** Growing by any amount moves keys only to new shards, for keys that are not unlucky at a power
    of two passed on the way. *)
Theorem C39_monotone_many : forall (key : list byte) (m m' : N), (1 <= m)%N -> (m <= m')%N -> (m' <= 2 ^ 23)%N ->
  (forall b : nat, (m <= 2 ^ N.of_nat b < m')%N -> ~ unlucky key b) ->
  exists r r', furcHash key m = Some r /\ furcHash key m' = Some r' /\ (r' = r \/ (m <= r' < m')%N).
Proof.
  intros key m m' L LE U NU. exists (fP key m), (fP key m').
  split; [apply furcHash_ok; lia|]. split; [apply furcHash_ok; lia|].
  destruct (in_range key m') as (r & E & R); [lia|lia|]. rewrite furcHash_ok in E by lia. injection E as <-.
  pose proof (grow_many key m (N.to_nat (m' - m)) L) as G.
  replace (m + N.of_nat (N.to_nat (m' - m)))%N with m' in G by lia.
  destruct (G U) as [I|[I|(b & I1 & I2)]]; [left; exact I|right; lia|exfalso; exact (NU b I1 I2)].
Qed.
Print Assumptions C39_monotone_many.

(** The exception is real: for the 8-byte key 0x00000000C5A3AD0B (little endian) the shard changes
    from 44294 to 0, which is not the new shard 65536, when growing from 65536 to 65537. *)
Definition badKey : list byte := le_enc 8 3315838219.
Theorem C39_strict_monotone_refuted :
  ~ (forall (key : list byte) (n r r' : N), (1 <= n)%N -> (n + 1 <= 2 ^ 23)%N ->
     furcHash key n = Some r -> furcHash key (n + 1) = Some r' -> r' = r \/ r' = n).
Proof.
  intros H. specialize (H badKey 65536%N 44294%N 0%N ltac:(lia) ltac:(lia)).
  destruct H as [H|H]; [vm_compute; reflexivity|vm_compute; reflexivity|discriminate|discriminate].
Qed.
Print Assumptions C39_strict_monotone_refuted.

(** Non-vacuity: the key "hello" moves to the new shard 9 when growing from 9 to 10 shards, and the
    hypothesis of [C39_monotone_many] holds for it (its stream has a zero among the designated bits). *)
Definition hello : list byte := [104; 101; 108; 108; 111]%N.
Example C39_example :
  furcHash hello 9 = Some 0%N /\ furcHash hello 10 = Some 9%N /\ furcHash hello 8388608 = Some 4189030%N.
Proof. vm_compute. auto. Qed.
Example C39_example_not_unlucky : ~ unlucky hello 3.
Proof. intros H. specialize (H 1 ltac:(lia)). vm_compute in H. discriminate. Qed.
