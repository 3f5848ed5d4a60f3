(** Specification of the small-object engine: one list of entries per bucket (oldest
    first), and a set of disabled groups of buckets.  Rules, one per outcome. *)
From Verif Require Import Bytes Bucket_model Bucket_spec BloomFilter_model BigHash_model.

Record aeng := mkA {
  alist : N -> list entry;   (* what a good read of bucket i yields *)
  adis : N -> bool           (* bucket i is disabled *)
}.

Section Spec.
Variable cap : nat.                     (* bytes available to entries in a bucket *)
Variable nb : N.                        (* number of buckets *)
Variable expired : list byte -> bool.

Definition bucket_of (k : hkey) : N := (khash k mod nb)%N.
Definition setl (f : N -> list entry) (i : N) (l : list entry) := fun j => if (j =? i)%N then l else f j.
(** An I/O error disables the whole group of 100 buckets. *)
Definition disable (f : N -> bool) (i : N) := fun j => f j || (j / 100 =? i / 100)%N.

(** What a call sees of bucket [i]: nothing if the bytes read were corrupted. *)
Definition seen (a : aeng) (i : N) (r : rdres) : list entry :=
  match r with RdCorrupt _ => [] | _ => alist a i end.

Definition cbs (ev : devent) (l : list entry) := map (fun e => (e, ev)) l.

Inductive aspec : aeng -> event -> eout -> aeng -> Prop :=
| S_ins_disabled : forall a k v r w, adis a (bucket_of k) = true ->
    aspec a (EInsert k v r w) (ORes (res SRejected)) a
| S_ins_readfail : forall a k v w, adis a (bucket_of k) = false ->
    aspec a (EInsert k v RdFail w) (ORes (res SDeviceError))
      {| alist := alist a; adis := disable (adis a) (bucket_of k) |}
| S_ins_ok : forall a k v r rest old after dead ev, adis a (bucket_of k) = false -> r <> RdFail ->
    remove_spec (seen a (bucket_of k) r) k = (rest, old) ->
    insert_spec cap expired rest {| ekey := k; eval := v |} = (after, dead, ev) ->
    aspec a (EInsert k v r WrOk)
      (ORes {| rstat := SOk; rval := None; rcbs := cbs Removed old ++ cbs Recycled (dead ++ ev) |})
      {| alist := setl (alist a) (bucket_of k) after; adis := adis a |}
| S_ins_writefail : forall a k v r b l', adis a (bucket_of k) = false -> r <> RdFail ->
    aspec a (EInsert k v r (WrFail b)) (ORes (res SDeviceError))
      {| alist := setl (alist a) (bucket_of k) l'; adis := disable (adis a) (bucket_of k) |}
| S_look_disabled : forall a k r, adis a (bucket_of k) = true ->
    aspec a (ELookup k r) (ORes (res SNotFound)) a
| S_look_filtered : forall a k r, adis a (bucket_of k) = false ->
    lookup_spec (alist a (bucket_of k)) k = None ->
    aspec a (ELookup k r) (ORes (res SNotFound)) a
| S_look_readfail : forall a k, adis a (bucket_of k) = false ->
    aspec a (ELookup k RdFail) (ORes (res SDeviceError))
      {| alist := alist a; adis := disable (adis a) (bucket_of k) |}
| S_look_miss : forall a k r, adis a (bucket_of k) = false -> r <> RdFail ->
    lookup_spec (seen a (bucket_of k) r) k = None ->
    aspec a (ELookup k r) (ORes (res SNotFound)) a
| S_look_hit : forall a k r v, adis a (bucket_of k) = false -> r <> RdFail ->
    lookup_spec (seen a (bucket_of k) r) k = Some v ->
    aspec a (ELookup k r) (ORes {| rstat := SOk; rval := Some v; rcbs := [] |}) a
| S_rem_disabled : forall a k r w, adis a (bucket_of k) = true ->
    aspec a (ERemove k r w) (ORes (res SNotFound)) a
| S_rem_filtered : forall a k r w, adis a (bucket_of k) = false ->
    lookup_spec (alist a (bucket_of k)) k = None ->
    aspec a (ERemove k r w) (ORes (res SNotFound)) a
| S_rem_readfail : forall a k w, adis a (bucket_of k) = false ->
    aspec a (ERemove k RdFail w) (ORes (res SDeviceError))
      {| alist := alist a; adis := disable (adis a) (bucket_of k) |}
| S_rem_miss : forall a k r w, adis a (bucket_of k) = false -> r <> RdFail ->
    snd (remove_spec (seen a (bucket_of k) r) k) = [] ->
    aspec a (ERemove k r w) (ORes (res SNotFound)) a
| S_rem_ok : forall a k r rest e, adis a (bucket_of k) = false -> r <> RdFail ->
    remove_spec (seen a (bucket_of k) r) k = (rest, [e]) ->
    aspec a (ERemove k r WrOk)
      (ORes {| rstat := SOk; rval := None; rcbs := [(e, Removed)] |})
      {| alist := setl (alist a) (bucket_of k) rest; adis := adis a |}
| S_rem_writefail : forall a k r b l', adis a (bucket_of k) = false -> r <> RdFail ->
    aspec a (ERemove k r (WrFail b)) (ORes (res SDeviceError))
      {| alist := setl (alist a) (bucket_of k) l'; adis := disable (adis a) (bucket_of k) |}
| S_could : forall a k b,
    (b = false -> adis a (bucket_of k) = true \/ lookup_spec (alist a (bucket_of k)) k = None) ->
    aspec a (ECouldExist k) (OBool b) a
| S_reset : forall a g, aspec a (EReset g) ONone {| alist := fun _ => []; adis := fun _ => false |}
| S_corrupt : forall a i b, aspec a (ECorrupt i b) ONone
    {| alist := setl (alist a) i []; adis := adis a |}
| S_restart : forall a g, aspec a (ERestart g) ONone a.

Inductive atrace : aeng -> list event -> list eout -> aeng -> Prop :=
| T_nil : forall a, atrace a [] [] a
| T_cons : forall a e o a1 es os a2, aspec a e o a1 -> atrace a1 es os a2 ->
    atrace a (e :: es) (o :: os) a2.
End Spec.

(** The client's view: the value that key [k] must have after a trace: set by the last
    insert of [k] if that returned Ok; nothing after any other outcome of insert, after
    a remove of [k], or after a reset. *)
Definition last_after (k : hkey) (cur : option (list byte)) (e : event) (o : eout) : option (list byte) :=
  match e with
  | EInsert k' v _ _ =>
    if hkey_eqb k' k then
      match o with ORes r => match rstat r with SOk => Some v | _ => None end | _ => None end
    else cur
  | ERemove k' _ _ => if hkey_eqb k' k then None else cur
  | EReset _ => None
  | _ => cur
  end.
Fixpoint last_value (k : hkey) (cur : option (list byte)) (es : list event) (os : list eout)
  : option (list byte) :=
  match es, os with
  | e :: es', o :: os' => last_value k (last_after k cur e o) es' os'
  | _, _ => cur
  end.

(** No entry is lost and nothing fails: the device behaves. *)
Definition fault_free (e : event) : Prop :=
  match e with
  | EInsert _ _ r w => r = RdOk /\ w = WrOk
  | ELookup _ r => r = RdOk
  | ERemove _ r w => r = RdOk /\ w = WrOk
  | ECorrupt _ _ => False
  | _ => True
  end.
