(** Specification of a flash index: a map from the recognised part of the key hash to a
    record.  Independent of hash maps, buckets and locks. *)
From Verif Require Import Bytes SparseIndex_model.
Open Scope N_scope.

(** the map; [None] = no entry *)
Definition imap := N -> option irec.
Definition iset (m : imap) (t : N) (r : option irec) : imap := fun t' => if t' =? t then r else m t'.

Definition inc8 (v : N) : N := N.min 255 (v + 1).

(** Total-hits mode counts reads for the lifetime of the entry. *)
Definition read_mark (x : xfield) (r : irec) : irec :=
  mkIR (irAddr r) (irHint r) (match x with KTotalHits => inc8 (irX r) | KItemHitHistory => irX r end)
       (inc8 (irHits r)).
(** History mode: one bit per rewrite cycle, newest in the top bit. *)
Definition rewrite_mark (x : xfield) (new : N) (r : irec) : irec :=
  mkIR new (irHint r)
    (match x with KTotalHits => irX r
     | KItemHitHistory => (if irHits r =? 0 then 0 else 128) + irX r / 2 end) 0.

(** exactly the entries of the map, each once *)
Definition entries_of (m : imap) (l : list (N * irec)) : Prop :=
  NoDup (map fst l) /\ forall t r, In (t, r) l <-> m t = Some r.

Section Spec.
Variable tok : N -> N.         (* the recognised part of a key hash *)
Variable x : xfield.

Inductive ispec : imap -> iop -> ires -> imap -> Prop :=
| I_look_hit : forall m h r, m (tok h) = Some r ->
    ispec m (OLookup h) (RLook (Some r)) (iset m (tok h) (Some (read_mark x r)))
| I_look_miss : forall m h, m (tok h) = None -> ispec m (OLookup h) (RLook None) m
| I_peek : forall m h, ispec m (OPeek h) (RLook (m (tok h))) m
| I_insert : forall m h a z,
    ispec m (OInsert h a z) (RLook (m (tok h))) (iset m (tok h) (Some (mkIR a z 0 0)))
| I_insnew_hit : forall m h a z r, m (tok h) = Some r ->
    ispec m (OInsertNew h a z) (RLook (Some r)) m
| I_insnew : forall m h a z, m (tok h) = None ->
    ispec m (OInsertNew h a z) (RLook None) (iset m (tok h) (Some (mkIR a z 0 0)))
| I_repl : forall m h new old r, m (tok h) = Some r -> irAddr r = old ->
    ispec m (OReplace h new old) (RBool true) (iset m (tok h) (Some (rewrite_mark x new r)))
| I_repl_no : forall m h new old, (forall r, m (tok h) = Some r -> irAddr r <> old) ->
    ispec m (OReplace h new old) (RBool false) m
| I_remove : forall m h, ispec m (ORemove h) (RLook (m (tok h))) (iset m (tok h) None)
| I_remif : forall m h a r, m (tok h) = Some r -> irAddr r = a ->
    ispec m (ORemoveIf h a) (RBool true) (iset m (tok h) None)
| I_remif_no : forall m h a, (forall r, m (tok h) = Some r -> irAddr r <> a) ->
    ispec m (ORemoveIf h a) (RBool false) m
| I_reset : forall m, ispec m OReset RUnit (fun _ => None)
| I_size : forall m l, entries_of m l -> ispec m OSize (RSize (N.of_nat (length l))) m
| I_iter : forall m l, entries_of m l -> ispec m OIter (REnts l) m
| I_restart : forall m, ispec m ORestart RUnit m.

Inductive ispecs : imap -> list iop -> list ires -> imap -> Prop :=
| IS_nil : forall m, ispecs m [] [] m
| IS_cons : forall m o r m1 m1' os rs m2, ispec m o r m1 -> (forall t, m1' t = m1 t) ->
    ispecs m1' os rs m2 -> ispecs m (o :: os) (r :: rs) m2.
End Spec.
