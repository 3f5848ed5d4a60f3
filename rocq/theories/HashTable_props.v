(** C03: the RAM index behaves as a map. *)
From Verif Require Import Bytes HashTable_model HashTable_spec HashTable_proofs HashTable_proofs2.

(** Any interleaving of the calls' critical sections, any hash function (any collisions), any
    number of buckets: no walk diverges, every answer is the map's, [find] afterwards agrees with
    the map on every key, and an item is marked accessible exactly if the map holds it. *)
Theorem C03_behaves_as_map : forall hash power keys cs F,
  legals (init_spec keys) cs -> length cs <= F ->
  exists t outs, execs hash power F (initT keys) cs = Some (t, outs) /\
    let s := fst (spec_execs (init_spec keys) cs) in
    agrees cs outs (snd (spec_execs (init_spec keys) cs)) /\
    (forall k, find hash power F t k = Some (index s k)) /\
    (forall n, acc t n = indexed s n).
Proof.
  intros hash power keys cs F L HF.
  destruct (execs_ok hash power cs _ _ 0 F (init_rel hash power keys) L HF) as (t & outs & E & R & A).
  exists t, outs. split; [exact E|]. cbv zeta. split; [exact A|]. split.
  - intros k. eapply find_ok; eauto.
  - intros n. symmetry. eapply rel_indexed; eauto.
Qed.
Print Assumptions C03_behaves_as_map.

(** A full scan of a quiescent table hands out each indexed item exactly once and nothing else,
    and the key count is their number. *)
Theorem C03_iteration_and_count : forall hash power keys cs F t outs,
  legals (init_spec keys) cs -> length cs <= F ->
  execs hash power F (initT keys) cs = Some (t, outs) ->
  exists l, iterate F t (all_buckets power) = Some l /\ NoDup l /\
    (forall n, In n l <-> indexed (fst (spec_execs (init_spec keys) cs)) n = true) /\
    numKeys t = (N.of_nat (length l) mod 2 ^ 64)%N.
Proof.
  intros hash power keys cs F t outs L HF E.
  destruct (execs_ok hash power cs _ _ 0 F (init_rel hash power keys) L HF) as (t' & outs' & E' & R & _).
  rewrite E in E'. inversion E'; subst t' outs'.
  destruct (iterate_ok hash power t _ _ F (all_buckets power) R HF (all_buckets_nodup power)) as (l & I & N & M).
  exists l. split; [exact I|]. split; [exact N|].
  assert (M' : forall n, In n l <-> indexed (fst (spec_execs (init_spec keys) cs)) n = true).
  { intros n. rewrite M. split; [tauto|]. intros H. split; auto. apply bucket_range. }
  split; [exact M'|].
  pose proof R as (ch & LL & INV & _). pose proof INV as (_ & _ & _ & _ & ND & LA & NU).
  rewrite NU. change (2 ^ 64)%N with two64. unfold wrap64. f_equal. f_equal.
  apply Nat.le_antisymm; apply NoDup_incl_length; auto; intros n H.
  - apply M'. rewrite (rel_indexed _ _ _ _ _ n R). apply LA. auto.
  - apply LA. rewrite <- (rel_indexed _ _ _ _ _ n R). apply M'. auto.
Qed.
Print Assumptions C03_iteration_and_count.

(** A scan concurrent with other calls: an item indexed under one key throughout is handed out
    exactly once, and no key is ever handed out twice. *)
Theorem C03_concurrent_scan : forall hash power keys cs F t outs,
  legals (init_spec keys) cs -> length cs <= F ->
  execs hash power F (initT keys) cs = Some (t, outs) ->
  let es := scanned (init_spec keys) cs outs in
  map (fun e => snd (fst e)) es = all_buckets power ->
  (forall n k, (forall e, In e es -> indexed (fst (fst e)) n = true /\ keyof (fst (fst e)) n = k) ->
     count_occ Nat.eq_dec (concat (map snd es)) n = 1) /\
  NoDup (concat (map (fun e => map (keyof (fst (fst e))) (snd e)) es)).
Proof.
  intros hash power keys cs F t outs L HF E es B.
  assert (X : Forall (exact hash power) es).
  { eapply (scanned_exact hash power cs _ _ 0); eauto. apply init_rel. }
  pose proof (all_buckets_nodup power) as ND. rewrite <- B in ND. split.
  - intros n k H. rewrite (scan_count hash power es n k X ND H).
    destruct (in_dec N.eq_dec _ _) as [I|I]; auto. exfalso. apply I. rewrite B. apply bucket_range.
  - eapply scan_keys_nodup; eauto.
Qed.
Print Assumptions C03_concurrent_scan.

(** The lock groups of a lock-group scan partition the buckets, and every bucket of a group is
    protected by that group's lock. *)
Theorem C03_lock_groups : forall power lp i, (i < 2 ^ lp)%N ->
  let g := groupBuckets (N.to_nat (2 ^ power)) (2 ^ power) (2 ^ lp) i in
  NoDup g /\ forall b, In b g <-> (b < 2 ^ power)%N /\ lockOf lp b = i.
Proof. exact lock_group. Qed.
Print Assumptions C03_lock_groups.

(** The rule that two threads must not run insertOrReplace on the same item at once is needed:
    both pass the unlocked isAccessible() test, and the item ends up found by lookups but not
    marked accessible, so remove() refuses it forever. *)
Definition same_item_race : list call :=
  [CIsAccessible 1; CIsAccessible 1; CInsertOrReplace 1 false; CInsertOrReplace 1 false].
Theorem C03_same_item_race_refuted : exists t outs,
  execs (fun _ => 5%N) 2 9 (initT (fun _ => [7%N])) same_item_race = Some (t, outs) /\
  outs = [RBool false; RBool false; RNode None; RNode (Some 1)] /\
  find (fun _ => 5%N) 2 9 t [7%N] = Some (Some 1) /\ acc t 1 = false /\
  remove (fun _ => 5%N) 2 9 t 1 = Some (t, false).
Proof. eexists _, _. repeat split; vm_compute; reflexivity. Qed.
Print Assumptions C03_same_item_race_refuted.

(** Non-vacuity: colliding keys, replacement, a throwing handle maker, removal, memory reuse. *)
Definition demo_keys (n : node) : key := match n with 1 => [1%N] | 2 => [2%N] | 3 => [1%N] | 4 => [3%N] | _ => [] end.
Definition demo : list call :=
  [CInsert 1; CInsert 2; CInsert 3; CInsertOrReplace 3 true; CInsertOrReplace 3 false; CInsert 4;
   CFind [1%N]; CRemove 1; CReuse 1 [2%N]; CReplaceIf 2 1 true; CRemoveIf 4 true false; CFind [3%N]; CFind [2%N]].
Example C03_demo :
  legals (init_spec demo_keys) demo /\
  exists t, execs (fun _ => 6%N) 2 13 (initT demo_keys) demo =
    Some (t, [RBool true; RBool true; RBool false; RThrow; RNode (Some 1); RBool true;
              RNode (Some 3); RBool false; RNone; RBool true; RNode (Some 4); RNode None; RNode (Some 1)]) /\
    iterate 13 t (all_buckets 2) = Some [1; 3] /\ numKeys t = 2%N.
Proof.
  split; [vm_compute; tauto|]. eexists. split; [vm_compute; reflexivity|]. split; vm_compute; reflexivity.
Qed.
Definition scan_demo : list call :=
  [CInsert 1; CBucket 0; CInsert 2; CBucket 1; CBucket 2; CRemove 2; CBucket 3].
Example C03_scan_demo : legals (init_spec demo_keys) scan_demo /\
  exists t outs, execs (fun k => nth 0 k 0%N) 2 9 (initT demo_keys) scan_demo = Some (t, outs) /\
    map (fun e => (snd (fst e), snd e)) (scanned (init_spec demo_keys) scan_demo outs) =
      [(0%N, []); (1%N, [1]); (2%N, [2]); (3%N, [])].
Proof. split; [vm_compute; tauto|]. eexists _, _. split; vm_compute; reflexivity. Qed.
