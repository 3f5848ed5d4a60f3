(** C21: one small-object bucket. *)
From Verif Require Import Bytes BucketStorage_model Bucket_model Bucket_spec Bucket_client
  Bucket_proofs Bucket_proofs2.

(** Every history of inserts, removes and finds on a fresh bucket runs without
    undefined behaviour and reports exactly (values, counts, destructor callbacks)
    what the list specification reports; the stored entries are the specification's,
    within the capacity.  The three theorems after this one say in plain terms what
    the specification's find, remove and insert are. *)
Theorem C21_bucket_refines_list : forall (mem : list byte) (ops : list bop),
  (N.of_nat (length mem) < two32)%N ->
  Forall (bop_ok (length mem)) ops ->
  let '(live, outs) := bspec_run (length mem) [] ops in
  exists s, brun (initStorage mem) ops = Some (s, outs) /\ entries s = Some live
    /\ cost_all live <= length mem.
Proof. exact bucket_refines_l. Qed.
Print Assumptions C21_bucket_refines_list.

(** find answers v iff the oldest entry whose key (hash AND bytes) is the requested
    one has value v. *)
Theorem C21_find_exact_key : forall l k v,
  lookup_spec l k = Some v <->
  exists a e b, l = a ++ e :: b /\ ekey e = k /\ eval e = v /\ (forall x, In x a -> ekey x <> k).
Proof. exact lookup_spec_plain. Qed.
Print Assumptions C21_find_exact_key.

Theorem C21_remove_exact_key : forall l k,
  (exists a e b, l = a ++ e :: b /\ ekey e = k /\ (forall x, In x a -> ekey x <> k)
                 /\ remove_spec l k = (a ++ b, [e]))
  \/ ((forall x, In x l -> ekey x <> k) /\ remove_spec l k = (l, [])).
Proof. exact remove_spec_plain. Qed.
Print Assumptions C21_remove_exact_key.

(** insert evicts nothing if the entry fits; otherwise first every expired entry, then
    oldest-first exactly as many live entries as needed (one fewer would not fit), and
    the survivors keep their order, with the new entry last. *)
Theorem C21_insert_evicts_minimally : forall cap expired l e, cost e <= cap ->
  let '(after, dead, ev) := insert_spec cap expired l e in
  (cost_all l + cost e <= cap -> after = l ++ [e] /\ dead = [] /\ ev = []) /\
  (cap < cost_all l + cost e ->
     dead = filter (fun x => expired (eval x)) l /\
     exists kept, filter (fun x => negb (expired (eval x))) l = ev ++ kept
       /\ after = kept ++ [e] /\ cost_all kept + cost e <= cap
       /\ forall n, n < length ev -> cap < cost_all (skipn n (ev ++ kept)) + cost e).
Proof. exact insert_spec_plain. Qed.
Print Assumptions C21_insert_evicts_minimally.

(** Finding: the sampling entry point returns a key that is not the entry's key (the
    value's bytes are appended, because the key is copied as a C string), and a lookup
    of that key misses. *)
Theorem C21_random_alloc_key_refuted :
  exists (mem : list byte) (e : entry) (s : storage) out (off : nat) k v,
    brun (initStorage mem) [BInsert e None] = Some (s, out)
    /\ entries s = Some [e]
    /\ getRandomAlloc s off = Some (Some (k, v))
    /\ v = eval e /\ k <> kbytes (ekey e) /\ find s {| kbytes := k; khash := khash (ekey e) |} = Some None.
Proof. exact random_key_refuted_l. Qed.
Print Assumptions C21_random_alloc_key_refuted.

(** ... and with a full bucket and no NUL byte it reads beyond the bucket. *)
Theorem C21_random_alloc_overread_refuted :
  exists (mem : list byte) (e : entry) (s : storage) out (off : nat),
    brun (initStorage mem) [BInsert e None] = Some (s, out)
    /\ entries s = Some [e] /\ getRandomAlloc s off = None.
Proof. exact random_key_ub_l. Qed.
Print Assumptions C21_random_alloc_overread_refuted.

(** Non-vacuity: same hash but different bytes; an eviction by expiry and by room. *)
Definition en k v := {| ekey := {| kbytes := k; khash := 7 |}; eval := v |}.
Definition demo_bops : list bop :=
  [BInsert (en [1] [10])%N None; BInsert (en [2] [20])%N None; BFind {| kbytes := [2]%N; khash := 7 |};
   BFind {| kbytes := [3]%N; khash := 7 |};
   BInsert (en [3] [30;31])%N (Some (fun v => bytes_eqb v [20]%N));
   BInsert (en [4] [40;41])%N None; BRemove {| kbytes := [3]%N; khash := 7 |}].
Example C21_demo :
  let mem := repeat 255%N 50 in
  Forall (bop_ok (length mem)) demo_bops /\
  bspec_run (length mem) [] demo_bops =
   ([en [4] [40;41]]%N,
    [OInsert 0 0 []; OInsert 0 0 []; OFind (Some [20]%N); OFind None;
     OInsert 1 1 [(en [2] [20], Recycled)]%N; OInsert 1 0 [(en [1] [10], Recycled)]%N;
     ORemove 1 [(en [3] [30;31], Removed)]%N]) /\
  (let* (s, o) := brun (initStorage mem) demo_bops in entries s) = Some [en [4] [40;41]]%N.
Proof.
  cbv zeta. split; [|split; vm_compute; reflexivity].
  unfold demo_bops. repeat constructor; try (vm_compute; lia); try reflexivity; cbn; lia.
Qed.
