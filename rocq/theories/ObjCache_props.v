(** C47: objects of an object cache are destroyed exactly once, not while somebody uses them, and the total
    size is the sum of the sizes.
    [run c init l = Some s]: s is reached by any history l of any threads (see ObjCache_model.v). *)
From Coq Require Import List Arith ZArith Bool Lia.
Import ListNotations.
From Verif Require Import ObjCache_model ObjCache_spec ObjCache_proofs1 ObjCache_proofs2 ObjCache_proofs3 ObjCache_proofs4.
Open Scope Z_scope.

(** No object is destroyed twice, and only objects that were handed over (or read from NVM) are. *)
Theorem C47_destroyed_at_most_once : forall c l s, run c init l = Some s -> NoDup (gone s) /\ forall o, In o (gone s) -> (o < nobj s)%nat.
Proof. intros c l s H. pose proof (inv_run c l init s (inv_init c) H) as I. split; [exact (f_nodup c s I)|]. intros o X. exact (f_gone_lt c s o I X). Qed.

(** While a shared_ptr keeps an item, or a lookup can find it, its object is not destroyed, nor its memory given back, nor is
    the object anybody else's. *)
Theorem C47_not_destroyed_in_use : forall c l s i it, run c init l = Some s -> cached s i it \/ kept s i it ->
  ~ In (iobj it) (gone s) /\ iph it <> PDead /\ ~ In (PObj (iobj it)) (ptrs s) /\
  (forall j jt, cached s j jt \/ kept s j jt -> iobj jt = iobj it -> j = i).
Proof.
  intros c l s i it H U. pose proof (inv_run c l init s (inv_init c) H) as I.
  assert (A : forall i it, cached s i it \/ kept s i it -> nth_error (items s) i = Some it /\ iph it <> PDead).
  { intros j jt [[N B]|[N (k & B)]]; (split; [exact N|]); [rewrite (inb_inv c s j jt I N B); discriminate|destruct (f_kept c s j jt k I N B) as [-> _]; discriminate]. }
  destruct (A i it U) as [N D]. destruct (f_item c s i it I N D) as [X Y]. split; [exact X|]. split; [exact D|]. split; [exact Y|].
  intros j jt V E. destruct (A j jt V) as [M D2]. exact (f_item2 c s j i jt it I M N D2 D E).
Qed.
(** Every shared_ptr to an item has one, and a shared_ptr made from a unique_ptr has its object. *)
Theorem C47_pointers_are_good : forall c l s p, run c init l = Some s -> In p (ptrs s) ->
  match p with PItem i _ => exists it, kept s i it | PObj o => ~ In o (gone s) end.
Proof.
  intros c l s p H X. pose proof (inv_run c l init s (inv_init c) H) as I. destruct p as [i k|o]; [|exact (f_pobj c s o I X)].
  destruct (f_kept_ex c s i k I X) as (it & N). exists it. split; [exact N|]. exists k. exact X.
Qed.

(** A lookup hits one object per key: two items with the same key are not both in the index. *)
Theorem C47_one_object_per_key : forall c l s i j it jt, run c init l = Some s -> cached s i it -> cached s j jt -> ikey it = ikey jt -> i = j.
Proof. intros c l s i j it jt H. exact (f_unique c s i j it jt (inv_run c l init s (inv_init c) H)). Qed.

(** Without NVM-plus-item-destructor and when no call is under way, an object has been destroyed, or a user
    has it, or it is in the cache or kept by a shared_ptr: none is lost. *)
Theorem C47_none_lost : forall c l s o, run c init l = Some s -> leaky c = false -> quiet s -> (o < nobj s)%nat ->
  In o (gone s) \/ In (PObj o) (ptrs s) \/ exists i it, nth_error (items s) i = Some it /\ present it = true /\ iobj it = o.
Proof. intros c l s o H. exact (f_where c s o (inv_run c l init s (inv_init c) H)). Qed.
(** In particular, when the cache is empty and the users have dropped their pointers, all are destroyed. *)
Theorem C47_all_destroyed_at_the_end : forall c l s o, run c init l = Some s -> leaky c = false -> empty s -> (o < nobj s)%nat -> In o (gone s).
Proof. intros c l s o H. exact (f_empty c s o (inv_run c l init s (inv_init c) H)). Qed.
(** And after every history the cache can be emptied. *)
Theorem C47_can_be_emptied : forall c l s, run c init l = Some s -> ub s = false -> 
  exists l' s', run c s l' = Some s' /\ empty s' /\ nobj s' = nobj s /\ (leaky c = false -> forall o, (o < nobj s)%nat -> In o (gone s')).
Proof.
  intros c l s H U. pose proof (inv_run c l init s (inv_init c) H) as I. destruct (drain c s I U) as (l' & s' & R & E & _ & B).
  exists l', s'. split; [exact R|]. split; [exact E|]. split; [exact B|]. intros L o X. rewrite <- B in X. exact (f_empty c s' o (inv_run c l' s s' I R) L E X).
Qed.

(** Sizes tracked, items never out of reference counts, not NVM-plus-item-destructor: when no call is under way
    the total is the sum of the sizes of the objects in the cache or kept by users (mod 2^64). *)
Theorem C47_total_is_the_sum : forall c l s, run c init l = Some s -> tracking c = true -> ovf c = false -> leaky c = false -> quiet s ->
  tot s = sumSizes present (items s) mod W.
Proof. intros c l s H. exact (f_total c s (inv_run c l init s (inv_init c) H)). Qed.

Definition c0 : conf := mkConf true true false true.
Definition c1 : conf := mkConf true false true false.
(** insertOrReplace over a key whose object a reader keeps, an update of a size, an eviction and a hit in NVM. *)
Definition hist : list action :=
  [SInsert true 1 10 true; SStep 0 false; SStep 0 false; SStep 0 false; SFind 1 false; 
   SInsert true 1 20 true; SStep 0 false; SStep 0 false; SStep 0 false; SUpd 0 25; SStep 0 false;
   SDrop 0; SEvict 1 true; SStep 0 false; SStep 0 false; SNvm 1 25; SStep 0 false;
   SInsert false 1 7 true; SStep 0 false; SInsert false 2 7 false].
Example ex_hist : exists s, run c1 init hist = Some s /\ gone s = [1%nat] /\ nobj s = 5%nat /\ tot s = 35 /\ ops s = [] /\ ub s = false /\
  ptrs s = [PObj 4; PObj 3; PItem 2 KRead; PItem 0 KRepl; PItem 0 KRead; PItem 0 KWrite].
Proof. destruct (run c1 init hist) as [s|] eqn:E; vm_compute in E; [|discriminate]. apply some_inj in E. exists s. rewrite <- E. repeat split. Qed.

(** False: insertOrReplace adds the size and then throws when the object that it would replace is out of reference
    counts; the object is destroyed, its size stays in the total. *)
Theorem C47_total_after_throw_refuted : exists l s, run c0 init l = Some s /\ empty s /\ leaky c0 = false /\ tot s = 7 /\ length (gone s) = nobj s.
Proof.
  exists [SInsert true 1 10 true; SStep 0 false; SStep 0 false; SStep 0 false; SInsert true 1 7 true; SStep 0 false; SStep 0 true;
          SRemove 1; SStep 0 false; SDrop 0; SStep 0 false; SStep 0 false].
  destruct (run c0 init _) as [s|] eqn:E; vm_compute in E; [|discriminate]. apply some_inj in E. exists s. rewrite <- E.
  split; [reflexivity|]. split; [|repeat split]. repeat split. intros [|[|[|i]]] it N; cbn in N; try discriminate; apply some_inj in N; subst it; reflexivity.
Qed.

(** False: the total is never more than the sizes of the objects. insert makes the item visible before it adds the
    size; a thread that finds it and makes it smaller takes the total below zero, which wraps. *)
Theorem C47_total_wraps_refuted : exists l s, run c1 init l = Some s /\ sumSizes (fun _ => true) (items s) = 3 /\ tot s = W - 7 /\ ub s = false.
Proof.
  exists [SInsert false 1 10 true; SStep 0 false; SFind 1 true; SUpd 0 3; SStep 0 false].
  destruct (run c1 init _) as [s|] eqn:E; vm_compute in E; [|discriminate]. apply some_inj in E. exists s. rewrite <- E. repeat split.
Qed.

(** False with NVM and an item destructor: an object whose item is evicted while it is in NVM (or queued for it) is never
    destroyed and its size never subtracted. *)
Theorem C47_none_lost_refuted : exists c l s, run c init l = Some s /\ tracking c = true /\ ovf c = false /\ empty s /\ (0 < nobj s)%nat /\ gone s = [] /\ tot s = 10.
Proof.
  exists (mkConf true true true false), [SInsert false 1 10 true; SStep 0 false; SStep 0 false; SDrop 0; SEvict 0 true; SStep 0 false].
  destruct (run _ init _) as [s|] eqn:E; vm_compute in E; [|discriminate]. apply some_inj in E. exists s. rewrite <- E.
  split; [reflexivity|]. split; [reflexivity|]. split; [reflexivity|]. split; [|split; [cbn; lia|repeat split]]. repeat split. intros [|[|i]] it N; cbn in N; try discriminate; apply some_inj in N; subst it; reflexivity.
Qed.

(** False: getObjectSize and updateObjectSize can be given every pointer the cache returns. The pointer to a replaced
    object, the one returned when insert finds the key or the allocation fails, and a shared_ptr<T> converted to
    shared_ptr<const T> have no deleter of the expected type: null is dereferenced. *)
Theorem C47_every_pointer_refuted : 
  (exists l s j i, run c0 init l = Some s /\ ub s = false /\ nth_error (ptrs s) j = Some (PItem i KRepl) /\ exists s', step c0 s (SSize j) = Some s' /\ ub s' = true) /\
  (exists l s j o, run c0 init l = Some s /\ ub s = false /\ nth_error (ptrs s) j = Some (PObj o) /\ exists s', step c0 s (SUpd j 5) = Some s' /\ ub s' = true) /\
  (exists l s j i, run c0 init l = Some s /\ ub s = false /\ nth_error (ptrs s) j = Some (PItem i KConv) /\ exists s', step c0 s (SSize j) = Some s' /\ ub s' = true).
Proof.
  split; [|split].
  - exists [SInsert true 1 10 true; SStep 0 false; SStep 0 false; SStep 0 false; SInsert true 1 7 true; SStep 0 false; SStep 0 false; SStep 0 false].
    destruct (run c0 init _) as [s|] eqn:E; vm_compute in E; [|discriminate]. apply some_inj in E. exists s, 1%nat, 0%nat. rewrite <- E.
    split; [reflexivity|]. split; [reflexivity|]. split; [reflexivity|]. eexists. split; [vm_compute; reflexivity|reflexivity].
  - exists [SInsert false 1 10 false].
    destruct (run c0 init _) as [s|] eqn:E; vm_compute in E; [|discriminate]. apply some_inj in E. exists s, 0%nat, 0%nat. rewrite <- E.
    split; [reflexivity|]. split; [reflexivity|]. split; [reflexivity|]. eexists. split; [vm_compute; reflexivity|reflexivity].
  - exists [SInsert false 1 10 true; SStep 0 false; SStep 0 false; SConv 0].
    destruct (run c0 init _) as [s|] eqn:E; vm_compute in E; [|discriminate]. apply some_inj in E. exists s, 0%nat, 0%nat. rewrite <- E.
    split; [reflexivity|]. split; [reflexivity|]. split; [reflexivity|]. eexists. split; [vm_compute; reflexivity|reflexivity].
Qed.
(** With the deleters find and the inserts give, nothing undefined happens. *)
Theorem C47_no_undefined_behaviour : forall c l s a s', run c init l = Some s -> step c s a = Some s' ->
  (match a with SSize j | SUpd j _ | SMut j _ => exists i k, nth_error (ptrs s) j = Some (PItem i k) /\ hasDeleter k = true | _ => True end) -> ub s' = false.
Proof.
  assert (TA : forall {A} n (l : list A) x r, takeAt n l = Some (x, r) -> nth_error l n = Some x).
  { intros A n. induction n as [|n IH]; intros [|y l] x r; cbn; try discriminate.
    - intros [= -> ->]. reflexivity.
    - destruct (takeAt n l) as [[z t]|] eqn:E; [|discriminate]. intro H. injection H as <- <-. exact (IH l z t E). }
  intros c l s a s' H S P. unfold step in S. destruct (ub s) eqn:U; [discriminate|].
  assert (UR : forall s0 i, ub s0 = false -> unref s0 i = Some s' -> ub s' = false).
  { intros s0 i U0. unfold unref. destruct (nth_error (items s0) i); [|discriminate]. destruct (_ && _); intro X; apply some_inj in X; subst s'; exact U0. }
  destruct a.
  - destruct (_ || _); [discriminate|]. destruct (_ || _); [apply some_inj in S; subst s'; first [exact U | reflexivity]|]. destruct ok; apply some_inj in S; subst s'; first [exact U | reflexivity].
  - destruct (lookup k (items s)) as [i|]; [|apply some_inj in S; subst s'; first [exact U | reflexivity]]. destruct (nth_error (items s) i); [|discriminate]. apply some_inj in S; subst s'; first [exact U | reflexivity].
  - destruct (lookup k (items s)) as [i|]; [|apply some_inj in S; subst s'; first [exact U | reflexivity]]. destruct (nth_error (items s) i); [|discriminate]. apply some_inj in S; subst s'; first [exact U | reflexivity].
  - destruct (nth_error (items s) i); [|discriminate]. destruct (_ && _); [|discriminate]. apply some_inj in S; subst s'; first [exact U | reflexivity].
  - destruct (_ && _); [|discriminate]. apply some_inj in S; subst s'; first [exact U | reflexivity].
  - destruct (takeAt j (ptrs s)) as [[[i k|o] rest]|]; try discriminate. destruct (nth_error (items s) i); [|discriminate]. apply some_inj in S; subst s'; first [exact U | reflexivity].
  - destruct (takeAt j (ptrs s)) as [[[i [| | |]|o] rest]|]; try discriminate. apply some_inj in S; subst s'; first [exact U | reflexivity].
  - destruct (takeAt j (ptrs s)) as [[[i k|o] rest]|]; try discriminate; [exact (UR (withPtrs s rest) i U S)|]. apply some_inj in S; subst s'; first [exact U | reflexivity].
  - destruct (takeAt j (ptrs s)) as [[p rest]|] eqn:T; [|discriminate]. destruct P as (i & k & P & K). rewrite (TA _ _ _ _ _ T) in P. apply some_inj in P. subst p.
    rewrite K in S. apply some_inj in S; subst s'; first [exact U | reflexivity].
  - destruct (_ || _); [discriminate|]. destruct (takeAt j (ptrs s)) as [[p rest]|] eqn:T; [|discriminate]. destruct P as (i & k & P & K). rewrite (TA _ _ _ _ _ T) in P. apply some_inj in P. subst p.
    destruct (_ || _); [apply some_inj in S; subst s'; first [exact U | reflexivity]|]. rewrite K in S. destruct (nth_error (items s) i) eqn:N; [|discriminate].
    unfold begUpd in S. rewrite N in S. apply some_inj in S; subst s'; first [exact U | reflexivity].
  - destruct (takeAt j (ptrs s)) as [[p rest]|] eqn:T; [|discriminate]. destruct P as (i & k & P & K). rewrite (TA _ _ _ _ _ T) in P. apply some_inj in P. subst p.
    rewrite K in S. destruct (nth_error (items s) i) eqn:N; [|discriminate].
    unfold begUpd in S. rewrite N in S. apply some_inj in S; subst s'; first [exact U | reflexivity].
  - destruct (takeAt n (ops s)) as [[o rest]|]; [|discriminate]. unfold opStep in S. destruct o as [r i|i z|i old|i|i k d|i|i ev|i].
    + destruct (nth_error (items s) i) as [it|]; [|discriminate]. destruct r.
      * assert (X : forall q, Some q = Some s' -> ub q = false -> ub s' = false) by (intros q Q; apply some_inj in Q; subst q; auto).
        destruct (iph it); try (apply (X _ S); first [exact U | reflexivity]);
        (destruct (lookup (ikey it) (items s)) as [old|]; [|apply (X _ S); first [exact U | reflexivity]]; destruct (x && ovf c); [apply (X _ S); first [exact U | reflexivity]|];
         destruct (nth_error (items s) old); [|discriminate]; apply (X _ S); first [exact U | reflexivity]).
      * destruct (lookup (ikey it) (items s)); apply some_inj in S; subst s'; first [exact U | reflexivity].
    + apply some_inj in S; subst s'; first [exact U | reflexivity].
    + apply some_inj in S; subst s'; first [exact U | reflexivity].
    + exact (UR (withOps s rest) i U S).
    + apply some_inj in S; subst s'; first [exact U | reflexivity].
    + destruct (nth_error (items s) i) as [it|]; [|discriminate]. destruct (lookup (ikey it) (items s)); [exact (UR (withOps s rest) i U S)|].
      destruct x; [exact (UR (withOps s rest) i U S)|]. apply some_inj in S; subst s'; first [exact U | reflexivity].
    + destruct (nth_error (items s) i) as [it|]; [|discriminate]. destruct (_ && _); apply some_inj in S; subst s'; first [exact U | reflexivity].
    + destruct (nth_error (items s) i) as [it|]; [|discriminate]. apply some_inj in S; subst s'; first [exact U | reflexivity].
Qed.

(** False: without size tracking the total stays zero. mutateObject and a hit in NVM change it, and nothing ever changes it back. *)
Theorem C47_total_untracked_refuted : 
  (exists l s, run (mkConf false true false false) init l = Some s /\ empty s /\ tot s = 5) /\
  (exists l s, run (mkConf false false true false) init l = Some s /\ empty s /\ tot s = 25).
Proof.
  split.
  - exists [SInsert false 1 0 true; SStep 0 false; SStep 0 false; SMut 0 5; SStep 0 false; SDrop 0; SRemove 1; SStep 0 false; SStep 0 false; SStep 0 false].
    destruct (run _ init _) as [s|] eqn:E; vm_compute in E; [|discriminate]. apply some_inj in E. exists s. rewrite <- E.
    split; [reflexivity|]. split; [|reflexivity]. repeat split. intros [|[|i]] it N; cbn in N; try discriminate; apply some_inj in N; subst it; reflexivity.
  - exists [SNvm 1 25; SStep 0 false; SDrop 0; SEvict 0 true; SStep 0 false; SStep 0 false].
    destruct (run _ init _) as [s|] eqn:E; vm_compute in E; [|discriminate]. apply some_inj in E. exists s. rewrite <- E.
    split; [reflexivity|]. split; [|reflexivity]. repeat split. intros [|[|i]] it N; cbn in N; try discriminate; apply some_inj in N; subst it; reflexivity.
Qed.

Print Assumptions C47_destroyed_at_most_once.
Print Assumptions C47_not_destroyed_in_use.
Print Assumptions C47_pointers_are_good.
Print Assumptions C47_one_object_per_key.
Print Assumptions C47_none_lost.
Print Assumptions C47_all_destroyed_at_the_end.
Print Assumptions C47_can_be_emptied.
Print Assumptions C47_total_is_the_sum.
Print Assumptions C47_total_after_throw_refuted.
Print Assumptions C47_total_wraps_refuted.
Print Assumptions C47_none_lost_refuted.
Print Assumptions C47_every_pointer_refuted.
Print Assumptions C47_no_undefined_behaviour.
Print Assumptions C47_total_untracked_refuted.
