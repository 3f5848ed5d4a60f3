(** C45: lookups that meet an item that is being moved. *)
From Coq Require Import List Arith Bool Lia.
Import ListNotations.
From Verif Require Import MoveWait_model MoveWait_spec MoveWait_proofs9.

(** A history: inserts, lookups, drops, removes, evictions and slab releases, in any order, with the
    steps of all of them interleaved in any way.  [pin = true] leaves out the histories in which
    a parent is freed between the moment a slab release unmarks it and the moment it wakes the
    lookups that waited for it; [pin = false] is the code. *)

(** No lookup is answered twice, and none is answered that was not asked. *)
Theorem C45_answered_at_most_once : forall visits pin l s w, run visits pin init l = Some s ->
  length (answersTo w (tr s)) <= 1 /\ (answersTo w (tr s) <> [] -> exists k, asked w k (tr s)).
Proof. exact once. Qed.

(** A handle refers to memory that has not been given back and holds the key it held when the
    handle was got; so does what the index refers to. *)
Theorem C45_handles_and_index_are_live : forall visits pin l s a k, run visits pin init l = Some s ->
  In (a, k) (held s) \/ idx s k = Some a -> clive (mem s a) = true /\ ckey (mem s a) = k.
Proof. intros visits pin l s a k H [I|I]; [exact (handle_ok visits pin l s a k H I)|exact (index_ok visits pin l s a k H I)]. Qed.

(** An answered lookup got an item of the key it asked for. *)
Theorem C45_answer_has_the_key : forall visits, hashing visits -> forall l s w k a j, run visits true init l = Some s ->
  asked w k (tr s) -> In (Some (a, j)) (answersTo w (tr s)) -> j = k.
Proof. exact answer_key. Qed.

(** As long as a lookup holds a bucket lock or a slab release has not ended, one of them can go on:
    they never wait for each other in a circle, nor for something a user has to do. *)
Theorem C45_never_stuck : forall visits, hashing visits -> forall l s, run visits true init l = Some s ->
  ~ idle s -> exists x, progress x /\ step visits true s x <> None.
Proof. exact not_stuck. Qed.

(** And they end, whatever the schedule: the number of their steps is bounded. *)
Theorem C45_settles : forall visits s, exists n, forall pin l s', Forall progress l ->
  run visits pin s l = Some s' -> length l <= n.
Proof. exact bounded. Qed.

(** When nothing is under way every lookup has been answered, once. *)
Theorem C45_no_lookup_left_waiting : forall visits, hashing visits -> forall l s w k, run visits true init l = Some s ->
  idle s -> asked w k (tr s) -> length (answersTo w (tr s)) = 1.
Proof. exact idle_answered. Qed.

(** From any point of any history the steps already begun lead to such a state. *)
Theorem C45_can_finish : forall visits, hashing visits -> forall l s, run visits true init l = Some s ->
  exists l' s', Forall progress l' /\ run visits true s l' = Some s' /\ idle s'.
Proof. exact can_finish. Qed.

(** The table of waiters refers to memory that has not been given back, and its keys have not
    changed since they were put there. *)
Theorem C45_table_keys_valid : forall visits, hashing visits -> forall l s e, run visits true init l = Some s ->
  In e (tbl s) -> clive (mem s (eptr e)) = true /\ ckey (mem s (eptr e)) = ekey e.
Proof. exact table_ok. Qed.

(** ** What does not hold *)

Definition view (s : state) := (trys s, mvs s, tr s, held s, (idx s 1, mem s 0, mem s 1)).
Lemma ex_view o v : option_map view o = Some v -> exists s, o = Some s /\ view s = v.
Proof. destruct o as [s|]; cbn; [intros [= <-]; eauto|discriminate]. Qed.
Ltac look v := let s := fresh "s" in let R := fresh "R" in let V := fresh "V" in
  let V1 := fresh in let V2 := fresh in let V3 := fresh in let V4 := fresh in let V5 := fresh in let V6 := fresh in let V7 := fresh in
  match goal with |- exists s, ?o = Some s /\ _ => 
    assert (V : exists s, o = Some s /\ view s = v) by (apply ex_view; vm_compute; reflexivity) end;
  destruct V as (s & R & V); injection V as V1 V2 V3 V4 V5 V6 V7; exists s; split; [exact R|];
  unfold idle, asked, unevictable, busy; rewrite ?V1, ?V2, ?V3, ?V4, ?V6, ?V7; cbn -[init]; rewrite ?V5.

(** The code: a lookup is never answered although nothing is under way.  The parent of a moved
    chained item is evicted between unmarkMoving and wakeUpWaiters; its memory gets another item;
    the key in the table, a view of that memory, is no longer the key wakeUpWaiters looks for. *)
Definition lost : list action :=
  [AInsert 1 0; ADrop 0; AMoveChild 0; ALook 1; ATry 0; AStep 0 (CTo 0); AStep 0 CFail; AEvict 0; AInsert 2 0; AStep 0 CFail; AStep 0 CFail].
Theorem C45_no_lookup_left_waiting_refuted : exists l s, run Nat.eqb false init l = Some s /\ hashing Nat.eqb /\
  idle s /\ asked 0 1 (tr s) /\ answersTo 0 (tr s) = [].
Proof.
  exists lost.
  look (([] : list (nat * nat)), [MDone], [EAsk 0 1], [(0, 2)], (None : option nat, mkC 2 true true false false, (mkC 0 false false false false))).
  split; [exact Nat.eqb_refl|]. split; [split; [reflexivity|repeat constructor]|]. split; [left; reflexivity|reflexivity].
Qed.
(** The code: if the hashes of the two keys are close, the next move of the new item answers the
    lookup of key 1 with the item of key 2. *)
Theorem C45_answer_has_the_key_refuted : exists visits l, hashing visits /\ exists s, run visits false init l = Some s /\
  asked 0 1 (tr s) /\ answersTo 0 (tr s) = [Some (1, 2)].
Proof.
  exists (fun _ _ => true), (lost ++ [ADrop 0; AMove 0; AStep 1 (CTo 1); AStep 1 CFail; AStep 1 CFail]).
  split; [exact (fun _ => eq_refl)|].
  look (([] : list (nat * nat)), [MDone; MFree 0], [EAns 0 (Some (1, 2)); EAsk 0 1], [(1, 2)], (None : option nat, mkC 2 true false false false, mkC 2 true true false false)).
  split; [right; left; reflexivity|reflexivity].
Qed.
(** The code: insertOrReplace is told that it replaced the item it has just inserted (the slab
    release looks the parent up again and hands what it finds to those who wait for the old one). It takes
    that item out of the eviction container: it can be found, and can never be evicted. *)
Theorem C45_insert_replaces_itself_refuted : exists l s, run Nat.eqb true init l = Some s /\ idle s /\
  In (EIns 0 1 1) (tr s) /\ answersTo 0 (tr s) = [Some (1, 1)] /\ held s = [] /\ unevictable s 1 /\
  clnk (mem s 0) = true.
Proof.
  exists [AInsert 1 0; ADrop 0; AMoveChild 0; AInsert 1 1; AStep 0 (CTo 0); AStep 0 CFail; AStep 0 CFail; AStep 0 CFail; ADrop 0; ADrop 0].
  look (([] : list (nat * nat)), [MDone], [EAns 0 (Some (1, 1)); EIns 0 1 1; EAsk 0 1], ([] : list (nat * nat)), (Some 1, mkC 1 true true false false, mkC 1 true false false false)).
  split; [split; [reflexivity|repeat constructor]|]. split; [right; left; reflexivity|].
  split; [reflexivity|]. split; [reflexivity|]. split; [repeat split|reflexivity].
Qed.
(** The code: a find misses although its key is in the cache from before it starts until after
    it ends: it waited for an item which was replaced meanwhile, and which the slab release then evicted. *)
Definition missed : list action := [AInsert 1 0; ADrop 0; AMove 0; ALook 1; ATry 0; AInsert 1 1; AStep 0 (CTo 2); AStep 0 CFail; AStep 0 CFail; AStep 0 CFail].
Theorem C45_find_misses_present_key_refuted : exists s, run Nat.eqb true init missed = Some s /\
  asked 0 1 (tr s) /\ answersTo 0 (tr s) = [None] /\
  forall n s', 1 <= n -> run Nat.eqb true init (firstn n missed) = Some s' -> idx s' 1 <> None.
Proof.
  assert (A : forall n s', 1 <= n -> run Nat.eqb true init (firstn n missed) = Some s' -> idx s' 1 <> None).
  { intros n s' L H.
    assert (P : option_map (fun s => match idx s 1 with Some _ => true | None => false end) (run Nat.eqb true init (firstn n missed)) = Some true).
    { destruct (le_lt_dec 10 n) as [G|G]; [rewrite firstn_all2 by exact G; vm_compute; reflexivity|]. clear H.
      do 10 (destruct n as [|n]; [try (exfalso; lia); vm_compute; reflexivity|]). exfalso. lia. }
    rewrite H in P. cbn in P. injection P as P. destruct (idx s' 1); discriminate. }
  look (([] : list (nat * nat)), [MFree 0], [EAns 1 None; EAns 0 None; EEvict 1; EIns 1 1 1; EAsk 1 1; EAsk 0 1], [(1, 1)], (Some 1, mkC 1 true false false false, mkC 1 true true false false)).
  split; [do 5 right; left; reflexivity|]. split; [reflexivity|exact A].
Qed.

(** ** The hypotheses are met *)

(** Two slab releases and three lookups meet: one moves an item, the other its successor; all answered. *)
Example C45_demo : exists s, run Nat.eqb true init
  [AInsert 1 0; ADrop 0; AMove 0; ALook 1; ALook 1; ATry 0; AStep 0 CFail; ATry 0; AStep 0 CFail; ALook 1; AStep 0 CFail; AStep 0 CFail; AStep 0 CFail] = Some s /\
  idle s /\ tr s = [EAns 0 None; EAns 1 None; EEvict 1; EAns 2 None; EAsk 2 1; EAsk 1 1; EAsk 0 1].
Proof.
  look (([] : list (nat * nat)), [MDone], [EAns 0 None; EAns 1 None; EEvict 1; EAns 2 None; EAsk 2 1; EAsk 1 1; EAsk 0 1], ([] : list (nat * nat)), (None : option nat, mkC 1 false false false false, (mkC 0 false false false false))).
  split; [split; [reflexivity|repeat constructor]|reflexivity].
Qed.
(** Lookups that wait and get the moved item; a slab release that waits for another. *)
Definition chase : list action :=
  [AInsert 1 0; ADrop 0; AMoveChild 0; AStep 0 (CTo 0); AStep 0 CFail; AMove 0; ALook 1; ATry 0; AStep 0 CFail].
Example C45_demo_wait : exists s, run Nat.eqb true init chase = Some s /\
  In (MCWait 0 1 1) (mvs s) /\ asked 0 1 (tr s) /\ answersTo 0 (tr s) = [].
Proof.
  look (([] : list (nat * nat)), [MCWait 0 1 1; MReg 0], [EAsk 1 1; EAsk 0 1], ([] : list (nat * nat)), (Some 0, mkC 1 true true true false, (mkC 0 false false false false))).
  split; [left; reflexivity|]. split; [right; left; reflexivity|reflexivity].
Qed.
Example C45_demo_woken : exists s, run Nat.eqb true init (chase ++ [AStep 1 (CTo 1); AStep 1 CFail; AStep 1 CFail; AStep 1 CFail; AStep 0 CFail]) = Some s /\
  idle s /\ answersTo 0 (tr s) = [Some (1, 1)] /\ answersTo 1 (tr s) = [Some (1, 1)] /\ held s = [(1, 1)].
Proof.
  look (([] : list (nat * nat)), [MDone; MDone], [EAns 1 (Some (1, 1)); EAns 0 (Some (1, 1)); EAsk 1 1; EAsk 0 1], [(1, 1)], (Some 1, mkC 1 false false false false, mkC 1 true true false false)).
  split; [split; [reflexivity|repeat constructor]|]. split; [reflexivity|]. split; reflexivity.
Qed.

Print Assumptions C45_answered_at_most_once.
Print Assumptions C45_handles_and_index_are_live.
Print Assumptions C45_answer_has_the_key.
Print Assumptions C45_never_stuck.
Print Assumptions C45_settles.
Print Assumptions C45_no_lookup_left_waiting.
Print Assumptions C45_can_finish.
Print Assumptions C45_table_keys_valid.
Print Assumptions C45_no_lookup_left_waiting_refuted.
Print Assumptions C45_answer_has_the_key_refuted.
Print Assumptions C45_insert_replaces_itself_refuted.
Print Assumptions C45_find_misses_present_key_refuted.
