(** * What a user of RangeMap relies on: a sorted finite map. *)
From Coq Require Import Sorted.
From Verif Require Import Bytes DtMap_spec DtRange_model.
Local Open Scope N_scope.

(** the elements with keys from lo to hi, in increasing order of key *)
Definition slice (M : fmap) (lo hi : N -> Prop) (l : list (N * N)) : Prop :=
  StronglySorted (fun x y => fst x < fst y) l /\ forall k v, In (k, v) l <-> M k = Some v /\ lo k /\ hi k.
Definition anyKey (_ : N) : Prop := True.
Inductive rstep (M : fmap) : rcall -> rout -> fmap -> Prop :=
| TLookup k l : M k <> None -> slice M (fun x => k <= x) anyKey l -> rstep M (RLookup k) (RList l) M
| TLookupNo k : M k = None -> rstep M (RLookup k) (RList []) M
| TInsOld k v al : M k <> None -> rstep M (RInsert k v al) (RBool false) M
| TInsNew k v al : M k = None -> rstep M (RInsert k v al) (RBool true) (fset M k (Some v))
| TInsThrow k v al o : M k = None -> o = RBadAlloc \/ o = RInvalid -> rstep M (RInsert k v al) o M
| TUps k v al : rstep M (RUpsert k v al) (RReplaced (present M k)) (fset M k (Some v))
| TUpsThrow k v al o : o = RBadAlloc \/ o = RInvalid -> rstep M (RUpsert k v al) o M
| TErase k : rstep M (RErase k) (RBool (present M k)) (fset M k None)
| TBefore k keys : NoDup keys -> (forall x, In x keys <-> M x <> None /\ x < k) ->
                   rstep M (RRemoveBefore k) (RCount (length keys)) (fun x => if x <? k then None else M x)
| TRange k1 k2 l : M k1 <> None -> M k2 <> None -> slice M (fun x => k1 <= x) (fun x => x <= k2) l -> rstep M (RRange k1 k2) (RList l) M
| TRangeNo k1 k2 : M k1 = None \/ M k2 = None -> rstep M (RRange k1 k2) (RList []) M
| TApprox k1 k2 l : slice M (fun x => k1 <= x) (fun x => x <= k2) l -> rstep M (RApprox k1 k2) (RList l) M
| TIter l : slice M anyKey anyKey l -> rstep M RIterate (RList l) M
| TSize keys : NoDup keys -> (forall k, In k keys <-> M k <> None) -> rstep M RSize (RCount (length keys)) M
| TCompact : rstep M RCompact ROk M
| TPublish : rstep M RPublish ROk M.
Inductive rrun : fmap -> list rcall -> list rout -> fmap -> Prop :=
| RRNil M : rrun M [] [] M
| RRStep M c o M1 cs os M2 : rstep M c o M1 -> rrun M1 cs os M2 -> rrun M (c :: cs) (o :: os) M2.
(** range queries are asked with the smaller key first *)
Definition ordered (c : rcall) : Prop := match c with RRange k1 k2 | RApprox k1 k2 => k1 <= k2 | _ => True end.
