(** C27, default flash index: theorems.  [C27_sparse_is_map]: whatever the history of calls
    (including warm restarts), a new index with 2^k hash maps answers every call as the map
    of SparseIndex_spec.v from (hash mod 2^(32+k)) to records does, and never accesses
    memory outside its array. *)
From Verif Require Import Bytes SparseIndex_model SparseIndex_spec SparseIndex_proofs.
Open Scope N_scope.

Theorem C27_sparse_is_map : forall (x : xfield) (n : nat) (k : N) (calls : list iop),
  N.of_nat n = 2 ^ k -> k <= 32 -> Forall op_ok calls ->
  exists s results m0 m, s_run x (s_new n) calls = Some (s, results) /\
    (forall t, m0 t = None) /\
    ispecs (fun h => h mod (4294967296 * 2 ^ k)) x m0 calls results m.
Proof.
  intros x n k calls E K F.
  assert (L : N.of_nat (length (s_new n)) <= two32).
  { unfold s_new. rewrite repeat_length, E. change two32 with (2 ^ 32). apply N.pow_le_mono_r; lia. }
  destruct (run_sim x (new_ok E) L F) as (s & rs & R & m & SP & A).
  exists s, rs, (abs (s_new n)), m. split; [exact R|]. split; [intros t; apply abs_new|].
  unfold s_new in SP. rewrite repeat_length, E in SP. exact SP.
Qed.
Print Assumptions C27_sparse_is_map.

(** A run that meets the hypotheses: hits, history, collisions of the low 33 bits, restart. *)
Definition ex_calls : list iop :=
  [OInsert 5 100 7; OLookup 5; OLookup (5 + 4294967296 * 2); OInsertNew 5 200 8;
   OInsert (5 + 4294967296) 300 9; OReplace 5 101 999; OReplace 5 101 100; ORestart; OSize;
   OPeek 5; ORemoveIf 5 100; ORemoveIf 5 101; OPeek 5; OIter].
Example C27_sparse_example : Forall op_ok ex_calls /\
  option_map snd (s_run KItemHitHistory (s_new 2) ex_calls) = Some
   [RLook None; RLook (Some (mkIR 100 7 0 0)); RLook (Some (mkIR 100 7 0 1));
    RLook (Some (mkIR 100 7 0 2)); RLook None; RBool false; RBool true; RUnit; RSize 2;
    RLook (Some (mkIR 101 7 128 0)); RBool false; RBool true; RLook None;
    REnts [(4294967296 + 5, mkIR 300 9 0 0)]].
Proof. split; [repeat constructor|vm_compute; reflexivity]. Qed.

(** Locks: calls that touch the same hash map take the same mutex, and the mutex exists. *)
Theorem C27_sparse_same_map_same_mutex : forall n nm j h1 h2, nm = 2 ^ j ->
  bucketMap n h1 = bucketMap n h2 ->
  mutexOf nm (bucketMap n h1) = mutexOf nm (bucketMap n h2) /\ mutexOf nm (bucketMap n h1) < nm.
Proof.
  intros n nm j h1 h2 -> H. rewrite H. split; auto. unfold mutexOf. rewrite land_ones_pow.
  apply N.mod_lt. pose proof (pow_pos' j). lia.
Qed.
Print Assumptions C27_sparse_same_map_same_mutex.
Example C27_sparse_mutex_example : mutexOf 1024 (bucketMap 65536 (2 ^ 63 + 2 ^ 40 + 1)) = 256.
Proof. reflexivity. Qed.

(** The number of hash maps is not part of the recovery check (BlockCache.cpp:1601-1609):
    a restart with a smaller number "succeeds", silently loses the entries of the maps that
    no longer exist, and leaves their records unread in the metadata stream. *)
Theorem C27_sparse_restart_resized_refuted : ~ (forall n n' s rest h r,
  s_recover (s_new n') (s_persist s) = Some rest -> length s = n -> s_peek s h = Some (Some r) ->
  s_peek (fst rest) h = Some (Some r) /\ snd rest = []).
Proof.
  intros H. set (r := mkIR 100 7 0 0). set (s := [[]; [(5, r)]] : sidx).
  destruct (H 2%nat 1%nat s ([[]], [mkTB 1 [pers_entry (5, r)]]) (5 + 4294967296) r); try reflexivity.
  discriminate.
Qed.
Print Assumptions C27_sparse_restart_resized_refuted.
