(** C05: MMLru keeps an exact LRU order with an insertion point; nothing is lost, duplicated or
    reordered except the promoted item. *)
From Verif Require Import Bytes DList_model DList_spec DList_proofs MMLru_model MMLru_spec MMLru_proofs.

(** Every history of calls behaves as the abstract sequence: same results, same members, and the
    eviction iterator offers exactly the members, each once, least recent first. *)
Theorem C05_refines_sequence : forall k r w rd cs,
  let p := init_spec k r w rd in
  k < 64 -> mlegals p cs ->
  exists s', mexecs (initLru k r w rd) cs = Some (s', snd (spec_execs p cs)) /\
    evictionOrder s' = Some (rev (order (fst (spec_execs p cs)))) /\
    NoDup (order (fst (spec_execs p cs))) /\
    size (dl s') = length (order (fst (spec_execs p cs))) /\
    (forall n, inMM s' n = true <-> In n (order (fst (spec_execs p cs)))).
Proof.
  intros k r w rd cs p K L.
  destruct (mexecs_ok cs _ _ (init_rel k r w rd) L) as (s' & E & R).
  exists s'. split; [exact E|]. apply rel_observe. exact R.
Qed.
Print Assumptions C05_refines_sequence.

(** An access (critical section) moves exactly the accessed item to the far end of the eviction
    order and keeps everything else in place; on a non-member it changes nothing. *)
Theorem C05_promote_moves_one : forall s n now, reachable s ->
  exists s' l, accessLocked s n now = Some s' /\ evictionOrder s = Some l /\
    evictionOrder s' = Some (if inMM s n then remove_node l n ++ [n] else l).
Proof. exact promote_moves_one. Qed.
Print Assumptions C05_promote_moves_one.

(** A removal takes exactly that item out of the eviction order. *)
Theorem C05_remove_removes_one : forall s n, reachable s ->
  exists s' l, remove s n = Some (s', inMM s n) /\ evictionOrder s = Some l /\
    evictionOrder s' = Some (remove_node l n) /\ inMM s' n = false.
Proof. exact remove_removes_one. Qed.
Print Assumptions C05_remove_removes_one.

(** An item being added never disturbs the relative order of the others. *)
Theorem C05_add_keeps_others : forall s n now, reachable s -> inMM s n = false ->
  exists s' l l1 l2, add s n now = Some (s', true) /\ evictionOrder s = Some l /\ l = l1 ++ l2 /\
    evictionOrder s' = Some (l1 ++ n :: l2) /\ inMM s' n = true.
Proof. exact add_keeps_others. Qed.
Print Assumptions C05_add_keeps_others.

(** With a fixed configuration, a new item is placed with exactly [1/2^k] of the items (at least
    one, when there is one) due for eviction before it; [k = 0]: all of them. *)
Theorem C05_insertion_point : forall k r w rd cs s outs n now,
  k < 64 -> mlegals (init_spec k r w rd) cs -> Forall no_config cs ->
  mexecs (initLru k r w rd) cs = Some (s, outs) -> inMM s n = false ->
  exists s' l, add s n now = Some (s', true) /\ evictionOrder s = Some l /\
    let before := if k =? 0 then length l
                  else if length l =? 0 then 0 else Nat.max 1 (length l / 2 ^ k) in
    evictionOrder s' = Some (firstn before l ++ n :: skipn before l).
Proof. exact insertion_point_position. Qed.
Print Assumptions C05_insertion_point.

(** When an access promotes: exactly if the mode is enabled, the item is in the container and it
    is due (refresh time passed since its last promotion) or was never accessed. *)
Theorem C05_access_promotes_iff : forall s n wr now, reachable s ->
  exists s', recordAccess s n wr now = Some (s', 
     ((if wr then updOnWrite s else updOnRead s) && inMM s n &&
      (((utime s n + refresh s) mod 2^32 <=? now)%N || negb (accm s n)))%bool).
Proof. exact access_promotes_iff. Qed.
Print Assumptions C05_access_promotes_iff.

(** Non-vacuity: insertion point at 1/2 of the list, ten calls, a promotion and a removal. *)
Definition demo : list mcall :=
  [MAdd 1 10; MAdd 2 11; MAdd 3 12; MAdd 4 13; MAdd 5 14; MRecordAccess 1 false 15; MRecordAccess 1 false 16;
   MReplace 3 7; MRemove 2; MAdd 8 20; MRemoveIt 5].
Example C05_demo :
  mlegals (init_spec 1 60 false true) demo /\
  exists s outs, mexecs (initLru 1 60 false true) demo = Some (s, outs) /\
    outs = [MBool true; MBool true; MBool true; MBool true; MBool true; MBool true; MBool false;
            MBool true; MBool true; MBool true; MPtr (Some 8)] /\
    evictionOrder s = Some [4; 8; 7; 1].
Proof.
  split; [vm_compute; tauto|]. eexists _, _. split; [vm_compute; reflexivity|]. split; vm_compute; reflexivity.
Qed.
