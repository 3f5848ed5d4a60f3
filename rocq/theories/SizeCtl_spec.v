(** What is said about the size of the object cache, without the workings of the controller. *)
From Coq Require Import List ZArith Bool.
Import ListNotations.
From Verif Require Import SizeCtl_model.
Open Scope Z_scope.

(** A configuration: at least one shard, room for the entries, no number near 2^64. *)
Definition wfConf (c : conf) : Prop :=
  1 <= shards c /\ 1 <= slots c /\ 1 <= entLimit c <= shards c * slots c /\ shards c * slots c < 2 ^ 64.

(** The slots of a shard that are not held back. *)
Definition usable (c : conf) (s : state) (p : Z) : Z := slots c - cnt p (ph s).

(** Items the cache has room for: entries, and items referred to outside the index. *)
Definition items (c : conf) (s : state) : Z := sumTo (fun p => ent s p + held s p) (Z.to_nat (shards c)).

(** From [s] on no object can be inserted, whatever users do and however often the controller runs. *)
Definition deadForever (c : conf) (s : state) : Prop := forall l s', run c s l = Some s' ->
  numEntries c s' = 0 /\ (forall p, ~ In (p, true) (skipn (length (answers s)) (answers s'))).

(** Every allocation of the controller finds a slot or an entry it can evict. *)
Definition roomy (c : conf) (s : state) : Prop := forall p, 0 <= p < shards c -> 0 < free c s p \/ 0 < ent s p.
