(** * What "the destructor runs exactly once" means, and when it provably does. *)
From Coq Require Import List Arith Bool.
Import ListNotations.
From Verif Require Import Destr_model.

Definition event_eq (a b : event) : {a = b} + {a <> b}.
Proof. decide equality; apply Nat.eq_dec. Defined.
(** how often the destructor has run for item [id] *)
Definition destructions (id : nat) (tr : list event) : nat := count_occ event_eq tr (Destructed id).
(** the cache still has the item: a find gets it from RAM or from flash *)
Definition inCache (s : state) (id : nat) : Prop :=
  (exists it, findRam s = Some it /\ iid it = id) \/ content s = Some id.
(** nothing is in progress: no call, no eviction, no flash job, no callback, no handle to an item that was
    removed or replaced *)
Definition quiet (s : state) : Prop :=
  muts s = [] /\ spurs s = [] /\ evs s = [] /\ loose s = [] /\ queue s = [] /\ pend s = [].

(** ** The conditions.  [hazard s a]: action [a] in state [s] is one of those the cache does not cope with. *)
Definition nonempty {A} (l : list A) : bool := match l with [] => false | _ => true end.
Definition hazard (s : state) (a : action) : bool :=
  match a with
  (* two mutating calls on the key overlap *)
  | ASpawn (CInsert | CRemove | CUpdate) => nonempty (muts s)
  (* flash has dropped the copy, its callback has not run yet, and a removal takes the "cannot exist" shortcut *)
  | AMut i b =>
      match pick i (muts s), content s with
      | Some (_, MRm _ RCould, _), None => negb b && nonempty (pend s)
      | _, _ => false
      end
  (* an insertion ends with BadState *)
  | AIns r => match r with InsBad => true | _ => false end
  (* a remove job of the key runs while the callback for a dropped copy is outstanding; or the copy to be
     removed cannot be read *)
  | ARem ok => nonempty (pend s) || (negb ok && match content s with Some _ => true | None => false end)
  (* flash loses the copy without calling back *)
  | ALose => true
  (* an item that flash has dropped while it was in RAM is moved to another slab *)
  | AMove => match findRam s with Some it => evicted it | None => false end
  (* flash is disabled *)
  | ADisable => true
  | _ => false
  end.
(** a run without them *)
Fixpoint calm (s : state) (l : list action) : Prop :=
  match l with
  | [] => True
  | a :: r => hazard s a = false /\ match step s a with Some (s1, _) => calm s1 r | None => True end
  end.
(** a run in which only actions of kind [k] are ones the cache does not cope with *)
Fixpoint calmBut (k : action -> bool) (s : state) (l : list action) : Prop :=
  match l with
  | [] => True
  | a :: r => (hazard s a = true -> k a = true) /\ match step s a with Some (s1, _) => calmBut k s1 r | None => True end
  end.
(** an inserted item is neither in the cache nor destructed, and nothing is in progress any more *)
Definition forgotten (l : list action) : Prop :=
  exists s tr id, run init l = Some (s, tr) /\ quiet s /\ In (Inserted id) tr /\ ~ inCache s id /\ destructions id tr = 0.
(** the destructor has run for an item the cache still has, and nothing is in progress any more *)
Definition tooEarly (l : list action) : Prop :=
  exists s tr id, run init l = Some (s, tr) /\ quiet s /\ inCache s id /\ destructions id tr = 1.
