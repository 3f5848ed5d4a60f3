(** * What a user of Map relies on, as a finite map from keys to values. *)
From Verif Require Import Bytes DtMap_model.

Definition fmap := N -> option N.
Definition fempty : fmap := fun _ => None.
Definition fset (M : fmap) (k : N) (v : option N) : fmap := fun x => if (x =? k)%N then v else M x.
Definition present (M : fmap) (k : N) : bool := match M k with Some _ => true | None => false end.
(** what one call may answer, and the map after it; a call that throws changes nothing *)
Inductive sstep (M : fmap) : call -> out -> fmap -> Prop :=
| SFind k : sstep M (Find k) (OFound (M k)) M
| SInsOld k v al : M k <> None -> sstep M (Insert k v al) (OBool false) M
| SInsNew k v al : M k = None -> sstep M (Insert k v al) (OBool true) (fset M k (Some v))
| SInsThrow k v al o : M k = None -> o = OBadAlloc \/ o = OMaxed -> sstep M (Insert k v al) o M
| SUps k v al : sstep M (Upsert k v al) (OReplaced (present M k)) (fset M k (Some v))
| SUpsThrow k v al o : o = OBadAlloc \/ o = OMaxed -> sstep M (Upsert k v al) o M
| SErase k : sstep M (Erase k) (OBool (present M k)) (fset M k None)
| SSize keys : NoDup keys -> (forall k, In k keys <-> M k <> None) -> sstep M Size (OSize (length keys)) M
| SIter l : NoDup (map fst l) -> (forall k v, In (k, v) l <-> M k = Some v) -> sstep M Iterate (OList l) M
| SCompact : sstep M Compact OOk M
| SPublish : sstep M Publish OOk M.
(** a run; runtime_error may only come from compact, and is the last thing that happens *)
Inductive srun : fmap -> list call -> list out -> fmap -> Prop :=
| RNil M : srun M [] [] M
| RStep M c o M1 cs os M2 : sstep M c o M1 -> srun M1 cs os M2 -> srun M (c :: cs) (o :: os) M2
| RThrow M cs : srun M (Compact :: cs) [ORuntime] M.
