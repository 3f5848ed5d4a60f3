(** Specification for C03: a finite map from keys to items. *)
From Verif Require Import Bytes HashTable_model.

Record smap := mkS { index : key -> option node; keyof : node -> key }.

Definition put (m : key -> option node) (k : key) (v : option node) : key -> option node :=
  fun x => if bytes_eqb x k then v else m x.

(** The item is indexed: looking up its key gives this very item. *)
Definition indexed (s : smap) (n : node) : bool :=
  match index s (keyof s n) with Some x => x =? n | None => false end.

(** New state and answer; iteration ([CBucket]) is specified separately. *)
Definition spec_exec (s : smap) (c : call) : smap * result :=
  let set k v := {| index := put (index s) k v; keyof := keyof s |} in
  match c with
  | CIsAccessible n => (s, RBool (indexed s n))
  | CInsert n =>
    match index s (keyof s n) with
    | Some _ => (s, RBool false)
    | None => (set (keyof s n) (Some n), RBool true)
    end
  | CInsertOrReplace n throws =>
    match index s (keyof s n) with
    | Some o => if throws then (s, RThrow) else (set (keyof s n) (Some n), RNode (Some o))
    | None => (set (keyof s n) (Some n), RNode None)
    end
  | CReplaceIf o n pred =>
    if indexed s o && pred then (set (keyof s n) (Some n), RBool true) else (s, RBool false)
  | CRemove n =>
    if indexed s n then (set (keyof s n) None, RBool true) else (s, RBool false)
  | CRemoveIf n pred throws =>
    if indexed s n && pred
    then if throws then (s, RThrow) else (set (keyof s n) None, RNode (Some n))
    else (s, RNode None)
  | CFind k => (s, RNode (index s k))
  | CBucket _ => (s, RNone)
  | CReuse n k => ({| index := index s; keyof := fun x => if x =? n then k else keyof s x |}, RNone)
  end.

(** What callers must respect: insertOrReplace's critical section is not run on an item that
    another thread has just indexed; replaceIf's items carry the same key and the new one is not
    indexed; the key bytes of an indexed item do not change. *)
Definition legal (s : smap) (c : call) : Prop :=
  match c with
  | CInsertOrReplace n _ => indexed s n = false
  | CReplaceIf o n _ => keyof s o = keyof s n /\ indexed s n = false
  | CReuse n _ => indexed s n = false
  | _ => True
  end.
Fixpoint legals (s : smap) (cs : list call) : Prop :=
  match cs with [] => True | c :: r => legal s c /\ legals (fst (spec_exec s c)) r end.
Fixpoint spec_execs (s : smap) (cs : list call) : smap * list result :=
  match cs with
  | [] => (s, [])
  | c :: r => let (s1, o) := spec_exec s c in let (s2, os) := spec_execs s1 r in (s2, o :: os)
  end.
Definition init_spec (keys : node -> key) : smap := {| index := fun _ => None; keyof := keys |}.

(** Answers agree, except that [CBucket] is free here. *)
Definition agree (c : call) (a b : result) : Prop := match c with CBucket _ => True | _ => a = b end.
Fixpoint agrees (cs : list call) (a b : list result) : Prop :=
  match cs, a, b with
  | [], [], [] => True
  | c :: cs', x :: a', y :: b' => agree c x y /\ agrees cs' a' b'
  | _, _, _ => False
  end.

(** All buckets of a table with 2^power of them, in order. *)
Definition all_buckets (power : N) : list N := map N.of_nat (seq 0 (N.to_nat (2 ^ power))).

(** What an iterator reading buckets while other calls go on gets: the map at the time, the bucket,
    the items handed out. *)
Fixpoint scanned (s : smap) (cs : list call) (outs : list result) : list (smap * N * list node) :=
  match cs, outs with
  | c :: cs', o :: outs' =>
    let rest := scanned (fst (spec_exec s c)) cs' outs' in
    match c, o with CBucket b, RNodes l => (s, b, l) :: rest | _, _ => rest end
  | _, _ => []
  end.
