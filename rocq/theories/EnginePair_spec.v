(** What a lookup may answer, from the completed calls (newest first). *)
From Coq Require Import List Arith Bool.
Import ListNotations.
From Verif Require Import EnginePair_model.

(** (values a lookup of [k] may return, may both engines hold a copy).
    - an insert that answered Ok, stored by the selected engine: only its value;
    - an insert that answered Ok although the selected engine had not answered Ok: no more than
      the new value and the ones possible before;
    - Rejected: the ones possible before; any error: those or the new one, possibly in both engines;
    - a remove that answered NotFound: none; one that answered Ok: none, unless two copies were
      possible (then one of them may remain); an error: as before. *)
Fixpoint view (k : key) (h : list event) : list val * bool :=
  match h with
  | [] => ([], false)
  | e :: r =>
      let '(A, two) := view k r in
      if ekey e =? k then
        match eop e, est e with
        | OInsert v _, Ok => match efirst e with Ok => ([v], false) | _ => (v :: A, false) end
        | OInsert _ _, Rejected => (A, false)
        | OInsert v _, _ => (v :: A, true)
        | ORemove, Ok => if two then (A, false) else ([], false)
        | ORemove, NotFound => ([], false)
        | _, _ => (A, two)
        end
      else (A, two)
  end.

(** No call on [k] in [h] other than lookups. *)
Definition only_lookups (k : key) (h : list event) : Prop :=
  forall e, In e h -> ekey e = k -> eop e = OLookup.
(** No insert of [k] in [h] failed with an error. *)
Definition inserts_clean (k : key) (h : list event) : Prop :=
  forall e, In e h -> ekey e = k -> match eop e with OInsert _ _ => est e = Ok \/ est e = Rejected | _ => True end.
