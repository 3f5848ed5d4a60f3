(** Specification of the fixed-size flash index: a map from tokens to records, in which an
    insert may displace one other entry of the same shard. *)
From Verif Require Import Bytes SparseIndex_model SparseIndex_spec.
Open Scope N_scope.

Section Spec.
Variable tok : N -> N.          (* the recognised part of a key hash *)
Variable shard : N -> N.        (* the shard of a token *)
Variable q : N -> N.            (* what a size hint is rounded to *)

(** read marks: two bits; the lifetime counter does not exist *)
Definition fread (r : irec) : irec := mkIR (irAddr r) (irHint r) (irX r) (N.min 3 (irHits r + 1)).
Definition frewrite (new : N) (r : irec) : irec := mkIR new (irHint r) (irX r) 0.
(** a key has no free place only if four entries of its shard are in the way *)
Definition crowded (m : imap) (t : N) : Prop :=
  exists l, NoDup l /\ length l = 4%nat /\ forall t', In t' l -> m t' <> None /\ shard t' = shard t.

Inductive fspec : imap -> iop -> ires -> imap -> Prop :=
| F_look_hit : forall m h r, m (tok h) = Some r ->
    fspec m (OLookup h) (RLook (Some (fread r))) (iset m (tok h) (Some (fread r)))
| F_look_miss : forall m h, m (tok h) = None -> fspec m (OLookup h) (RLook None) m
| F_peek : forall m h, fspec m (OPeek h) (RLook (m (tok h))) m
| F_insert : forall m h a z,
    fspec m (OInsert h a z) (RLook (m (tok h))) (iset m (tok h) (Some (mkIR a (q z) 0 0)))
| F_insert_displace : forall m h a z t' r', m (tok h) = None -> crowded m (tok h) ->
    t' <> tok h -> m t' = Some r' -> shard t' = shard (tok h) ->
    fspec m (OInsert h a z) (RLook (Some r')) (iset (iset m t' None) (tok h) (Some (mkIR a (q z) 0 0)))
| F_insnew_hit : forall m h a z r, m (tok h) = Some r ->
    fspec m (OInsertNew h a z) (RLook (Some r)) m
| F_insnew : forall m h a z, m (tok h) = None ->
    fspec m (OInsertNew h a z) (RLook None) (iset m (tok h) (Some (mkIR a (q z) 0 0)))
| F_insnew_full : forall m h a z t' r', m (tok h) = None -> crowded m (tok h) ->
    t' <> tok h -> m t' = Some r' -> shard t' = shard (tok h) ->
    fspec m (OInsertNew h a z) (RLook (Some r')) m
| F_repl : forall m h new old r, m (tok h) = Some r -> irAddr r = old ->
    fspec m (OReplace h new old) (RBool true) (iset m (tok h) (Some (frewrite new r)))
| F_repl_no : forall m h new old, (forall r, m (tok h) = Some r -> irAddr r <> old) ->
    fspec m (OReplace h new old) (RBool false) m
| F_remove : forall m h, fspec m (ORemove h) (RLook (m (tok h))) (iset m (tok h) None)
| F_remif : forall m h a r, m (tok h) = Some r -> irAddr r = a ->
    fspec m (ORemoveIf h a) (RBool true) (iset m (tok h) None)
| F_remif_no : forall m h a, (forall r, m (tok h) = Some r -> irAddr r <> a) ->
    fspec m (ORemoveIf h a) (RBool false) m
| F_reset : forall m, fspec m OReset RUnit (fun _ => None)
| F_size : forall m l, entries_of m l -> fspec m OSize (RSize (N.of_nat (length l))) m
| F_iter : forall m, fspec m OIter (REnts []) m
| F_restart : forall m, fspec m ORestart RUnit m.

Inductive fspecs : imap -> list iop -> list ires -> imap -> Prop :=
| FS_nil : forall m, fspecs m [] [] m
| FS_cons : forall m o r m1 m1' os rs m2, fspec m o r m1 -> (forall t, m1' t = m1 t) ->
    fspecs m1' os rs m2 -> fspecs m (o :: os) (r :: rs) m2.
End Spec.
