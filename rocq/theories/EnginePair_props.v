(** * C32: the engine pair never serves a stale copy. *)
From Coq Require Import List Arith Bool Lia.
Import ListNotations.
From Verif Require Import EnginePair_model EnginePair_spec EnginePair_proofs.

(** Every Ok lookup, in every execution (any routing, any engine outcomes, evictions, retries,
    interleaved with jobs of other keys), returns a value allowed by the calls completed before it. *)
Theorem C32_lookup_allowed s h1 k v f h :
  reach s -> hist s = h1 ++ mkEv k OLookup Ok v f :: h -> In v (fst (view k h)).
Proof. intros R E. exact (reach_good s R _ _ _ E eq_refl eq_refl). Qed.

(** After an insert that the selected engine accepted and that was reported Ok, lookups (until the
    next insert or remove of the key) return that value or fail. *)
Theorem C32_after_insert s h1 h2 h k v f w big x :
  reach s -> only_lookups k h2 ->
  hist s = h1 ++ mkEv k OLookup Ok v f :: h2 ++ mkEv k (OInsert w big) Ok x Ok :: h -> v = w.
Proof.
  intros R O E. pose proof (C32_lookup_allowed _ _ _ _ _ _ R E) as I.
  rewrite view_only in I by auto. cbn [view] in I. destruct (view k h). cbn [ekey eop est efirst] in I.
  rewrite Nat.eqb_refl in I. cbn in I. destruct I as [I|[]]; auto.
Qed.

(** After a remove that answered NotFound no lookup succeeds until the next insert. *)
Theorem C32_after_remove_notfound s h1 h2 h k v f x g :
  reach s -> only_lookups k h2 ->
  hist s <> h1 ++ mkEv k OLookup Ok v f :: h2 ++ mkEv k ORemove NotFound x g :: h.
Proof.
  intros R O E. pose proof (C32_lookup_allowed _ _ _ _ _ _ R E) as I.
  rewrite view_only in I by auto. cbn [view] in I. destruct (view k h). cbn [ekey eop est efirst] in I.
  rewrite Nat.eqb_refl in I. cbn in I. tauto.
Qed.

(** The same after a remove that answered Ok, if no insert of the key failed with an error before. *)
Theorem C32_after_remove_ok s h1 h2 h k v f x g :
  reach s -> only_lookups k h2 -> inserts_clean k h ->
  hist s <> h1 ++ mkEv k OLookup Ok v f :: h2 ++ mkEv k ORemove Ok x g :: h.
Proof.
  intros R O C E. pose proof (C32_lookup_allowed _ _ _ _ _ _ R E) as I.
  rewrite view_only in I by auto. cbn [view] in I. pose proof (view_clean k h C) as T.
  destruct (view k h). cbn [ekey eop est efirst] in I. cbn in T. subst.
  rewrite Nat.eqb_refl in I. cbn in I. tauto.
Qed.

(** No call for a key ever has two copies unless an insert of it failed: at most one engine holds
    the key whenever no call on it is in progress. *)
Theorem C32_single_copy s k :
  reach s -> job s k = None -> inserts_clean k (hist s) ->
  small (eng_pair s) k = None \/ large (eng_pair s) k = None.
Proof.
  intros R J C. pose proof (reach_kinv s R k) as K. unfold kinv in K. rewrite J in K.
  destruct K as (_ & _ & T). apply T. now apply view_clean.
Qed.

(** couldExist answers false only if no lookup could succeed, provided each engine's own answer
    has that property. *)
Theorem C32_could_exist s k bs bl h1 v f h :
  reach s -> (bs = false -> small (eng_pair s) k = None) -> (bl = false -> large (eng_pair s) k = None) ->
  couldExist bs bl = false ->
  small (eng_pair s) k = None /\ large (eng_pair s) k = None /\
  (forall s', step s s' -> hist s' = h1 ++ hist s -> h1 <> mkEv k OLookup Ok v f :: h).
Proof.
  intros R A B C. unfold couldExist in C. apply orb_false_iff in C. destruct C as [C1 C2].
  specialize (A C1). specialize (B C2). split; [exact A|split; [exact B|]]. intros s' ST HS E. subst h1. destruct ST; cbn [hist settle] in HS.
  - apply (f_equal (@length event)) in HS. cbn in HS. rewrite app_length in HS. lia.
  - unfold settle in HS. destruct (status_eqb st Retry); cbn [hist] in HS; [apply (f_equal (@length event)) in HS; cbn in HS; rewrite app_length in HS; lia|].
    injection HS as ? ?. discriminate.
  - unfold settle in HS. destruct (status_eqb st Retry); cbn [hist] in HS; [apply (f_equal (@length event)) in HS; cbn in HS; rewrite app_length in HS; lia|].
    injection HS as ? ? ? ? ?. subst. unfold look_ok in *. rewrite B in H0. rewrite A in H1.
    unfold lookupInternal in H2. destruct skip; cbn [status_eqb] in H2.
    + injection H2 as E1 E2 E3. specialize (H1 E1). discriminate.
    + destruct rl as [xl vl], rs as [xs vs]. cbn [fst snd] in *. destruct xl; cbn [status_eqb fst snd] in H2; try discriminate.
      * specialize (H0 eq_refl). discriminate.
      * injection H2; intros; subst. specialize (H1 eq_refl). discriminate.
  - unfold settle in HS. destruct (status_eqb st Retry); cbn [hist] in HS; [apply (f_equal (@length event)) in HS; cbn in HS; rewrite app_length in HS; lia|].
    injection HS as ? ?. discriminate.
  - apply (f_equal (@length event)) in HS. cbn in HS. rewrite app_length in HS. lia.
  - apply (f_equal (@length event)) in HS. cbn in HS. rewrite app_length in HS. lia.
Qed.

(** ** Executions *)
Lemma ne (a b : effect) : (match a, b with Keep, Keep | Lose, Lose | Take, Take => False | _, _ => True end) -> a <> b.
Proof. now destruct a, b. Qed.
(** Large value 1, then small value 2 with a Retry from the other engine's remove; lookup gives 2. *)
Example C32_ex : exists s, reach s /\ hist s =
  [mkEv 7 OLookup Ok 2 Ok; mkEv 7 (OInsert 2 false) Ok 0 Ok; mkEv 7 (OInsert 1 true) Ok 0 Ok].
Proof.
  eexists; split.
  - pose proof r_init as R.
    match type of R with reach ?x => pose proof (r_step x _ R (st_start x 7 (OInsert 1 true) eq_refl)) as R'; clear R; rename R' into R end.
    match type of R with reach ?x => pose proof (r_step x _ R (st_insert x 7 1 true false Ok (Ok, Take) (NotFound, Lose) _ _ _ eq_refl eq_refl eq_refl eq_refl)) as R'; clear R; rename R' into R end.
    match type of R with reach ?x => pose proof (r_step x _ R (st_start x 7 (OInsert 2 false) eq_refl)) as R'; clear R; rename R' into R end.
    match type of R with reach ?x => pose proof (r_step x _ R (st_insert x 7 2 false false Ok (Ok, Take) (Retry, Keep) _ _ _ eq_refl eq_refl eq_refl eq_refl)) as R'; clear R; rename R' into R end.
    match type of R with reach ?x => pose proof (r_step x _ R (st_insert x 7 2 false true Ok (Ok, Take) (Ok, Lose) _ _ _ eq_refl eq_refl eq_refl eq_refl)) as R'; clear R; rename R' into R end.
    match type of R with reach ?x => pose proof (r_step x _ R (st_start x 7 OLookup eq_refl)) as R'; clear R; rename R' into R end.
    match type of R with reach ?x => pose proof (r_step x _ R (st_lookup x 7 false Ok (NotFound, 0) (Ok, 2) _ _ _ eq_refl ltac:(cbv; congruence) ltac:(cbv; congruence) eq_refl)) as R'; clear R; rename R' into R end.
    exact R.
  - reflexivity.
Qed.

(** Defect: the selected engine rejects the insert, the other engine's remove needs a retry; the
    retry reports Ok (EnginePair.cpp:85 forgets the rejection) and lookups serve the old value. *)
Theorem C32_insert_ok_after_retry_refuted :
  exists s, reach s /\ hist s =
    [mkEv 7 OLookup Ok 1 Ok; mkEv 7 (OInsert 2 false) Ok 0 Rejected; mkEv 7 (OInsert 1 false) Ok 0 Ok].
Proof.
  eexists; split.
  - pose proof r_init as R.
    match type of R with reach ?x => pose proof (r_step x _ R (st_start x 7 (OInsert 1 false) eq_refl)) as R'; clear R; rename R' into R end.
    match type of R with reach ?x => pose proof (r_step x _ R (st_insert x 7 1 false false Ok (Ok, Take) (NotFound, Lose) _ _ _ eq_refl eq_refl eq_refl eq_refl)) as R'; clear R; rename R' into R end.
    match type of R with reach ?x => pose proof (r_step x _ R (st_start x 7 (OInsert 2 false) eq_refl)) as R'; clear R; rename R' into R end.
    match type of R with reach ?x => pose proof (r_step x _ R (st_insert x 7 2 false false Ok (Rejected, Keep) (Retry, Keep) _ _ _ eq_refl (ne Keep Take I) eq_refl eq_refl)) as R'; clear R; rename R' into R end.
    match type of R with reach ?x => pose proof (r_step x _ R (st_insert x 7 2 false true Rejected (Ok, Take) (NotFound, Lose) _ _ _ eq_refl eq_refl eq_refl eq_refl)) as R'; clear R; rename R' into R end.
    match type of R with reach ?x => pose proof (r_step x _ R (st_start x 7 OLookup eq_refl)) as R'; clear R; rename R' into R end.
    match type of R with reach ?x => pose proof (r_step x _ R (st_lookup x 7 false Ok (NotFound, 0) (Ok, 1) _ _ _ eq_refl ltac:(cbv; congruence) ltac:(cbv; congruence) eq_refl)) as R'; clear R; rename R' into R end.
    exact R.
  - reflexivity.
Qed.

(** Defect: an insert that failed to remove the other copy (BadState) leaves two copies; a later
    remove that reports Ok deletes only the small one and the large one is served again. *)
Theorem C32_remove_ok_after_error_refuted :
  exists s, reach s /\ hist s =
    [mkEv 7 OLookup Ok 1 Ok; mkEv 7 ORemove Ok 0 Ok; mkEv 7 (OInsert 2 false) BadState 0 Ok;
     mkEv 7 (OInsert 1 true) Ok 0 Ok].
Proof.
  eexists; split.
  - pose proof r_init as R.
    match type of R with reach ?x => pose proof (r_step x _ R (st_start x 7 (OInsert 1 true) eq_refl)) as R'; clear R; rename R' into R end.
    match type of R with reach ?x => pose proof (r_step x _ R (st_insert x 7 1 true false Ok (Ok, Take) (NotFound, Lose) _ _ _ eq_refl eq_refl eq_refl eq_refl)) as R'; clear R; rename R' into R end.
    match type of R with reach ?x => pose proof (r_step x _ R (st_start x 7 (OInsert 2 false) eq_refl)) as R'; clear R; rename R' into R end.
    match type of R with reach ?x => pose proof (r_step x _ R (st_insert x 7 2 false false Ok (Ok, Take) (DeviceError, Keep) _ _ _ eq_refl eq_refl (ne Keep Take I) eq_refl)) as R'; clear R; rename R' into R end.
    match type of R with reach ?x => pose proof (r_step x _ R (st_start x 7 ORemove eq_refl)) as R'; clear R; rename R' into R end.
    match type of R with reach ?x => pose proof (r_step x _ R (st_remove x 7 false Ok (Ok, Lose) (Ok, Lose) _ _ _ eq_refl eq_refl ltac:(cbv; congruence) eq_refl eq_refl)) as R'; clear R; rename R' into R end.
    match type of R with reach ?x => pose proof (r_step x _ R (st_start x 7 OLookup eq_refl)) as R'; clear R; rename R' into R end.
    match type of R with reach ?x => pose proof (r_step x _ R (st_lookup x 7 false Ok (Ok, 1) (NotFound, 0) _ _ _ eq_refl ltac:(cbv; congruence) ltac:(cbv; congruence) eq_refl)) as R'; clear R; rename R' into R end.
    exact R.
  - reflexivity.
Qed.

Print Assumptions C32_lookup_allowed.
Print Assumptions C32_after_insert.
Print Assumptions C32_after_remove_notfound.
Print Assumptions C32_after_remove_ok.
Print Assumptions C32_single_copy.
Print Assumptions C32_could_exist.
Print Assumptions C32_insert_ok_after_retry_refuted.
Print Assumptions C32_remove_ok_after_error_refuted.
