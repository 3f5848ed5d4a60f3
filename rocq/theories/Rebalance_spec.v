(** C38: what a legal rebalancing decision is. *)
From Verif Require Export Rebalance_model.
Local Open Scope N_scope.

(** The strategies of the library, each with the configured minimum number of
    slabs a class keeps, and what its private state must satisfy (MarginalHits:
    ranks are kept for classes of the pool only). *)
Inductive library_strategy : forall X, strategy X -> N -> (X -> stats -> Prop) -> Prop :=
| ls_freeMem g : library_strategy unit (freeMemStrategy g) (fm_minSlabs g) (fun _ _ => True)
| ls_random m : library_strategy unit (randomStrategy m) m (fun _ _ => True)
| ls_resize m : library_strategy unit (poolResizeStrategy m) m (fun _ _ => True)
| ls_lru F fo (g : lruCfg F) : library_strategy unit (lruTailAgeStrategy fo g) (l_minSlabs g) (fun _ _ => True)
| ls_hits F fo (g : hitsCfg F) : library_strategy unit (hitsPerSlabStrategy fo g) (h_minSlabs g) (fun _ _ => True)
| ls_marginal F fo (g : mhCfg F) m1 sorted :
    library_strategy ranks (marginalHitsStrategy fo g m1 sorted) (m_minSlabs g)
      (fun rk s => incl (map fst rk) (classIds s)).

(** A fallback picks, if anything, a class of the pool that owns a slab. *)
Definition sane_fallback (fb : env -> stats -> option (option nat)) : Prop :=
  forall e s c, fb e s = Some (Some c) -> In c (classIds s) /\ 0 < totalSlabs s c.

(** No class of the pool failed an allocation since the last call. *)
Definition no_new_failures (p : pstate) (s : stats) : Prop :=
  forall c, In c (classIds s) -> c_allocFailures (cs s c) <= allocFailures (p c).

(** Arithmetic that is exact on integers below [B] (IEEE doubles: B = 2^53). *)
Definition exact_below {F} (fo : float_ops F) (B : N) : Prop :=
  (forall a b, a < B -> b < B -> flt fo (ofN fo a) (ofN fo b) = (a <? b)) /\
  (forall a, a < B -> mul fo (ofN fo a) (ofN fo 1) = ofN fo a) /\
  (forall a b, a < B -> b <= a -> sub fo (ofN fo a) (ofN fo b) = ofN fo (a - b)).

(** Successive calls on one pool. *)
Section Calls.
Context {X : Type} (st : strategy X) (fb : env -> stats -> option (option nat)).
Fixpoint calls (x : X) (po : option pstate) (l : list (env * stats)) : option (list ctx * option pstate * X) :=
  match l with
  | [] => Some ([], po, x)
  | (e, s) :: r =>
      let* (c, po1, x1) := pickVictimAndReceiver st fb x po e s in
      let* (cs', po2, x2) := calls x1 po1 r in
      Some (c :: cs', po2, x2)
  end.
End Calls.
