(** Proofs for C15, part 5: transfer, eviction, moving a regular item. *)
From Verif Require Import Bytes DList_model DList_spec Chain_model Chain_spec Chain_proofs Chain_proofs2 Chain_proofs3 Chain_proofs4.
Ltac Zify.zify_post_hook ::= idtac.

Lemma transfer_ok s q p p2 : R s q -> legal (msize s) q (Transfer p p2) -> step_ok s q (Transfer p p2).
Proof.
  intros HR (D & (c & r & h & v & Ep) & k2 & h2 & E2). remember (c :: r) as k eqn:Ek.
  destruct (parent_facts _ _ _ _ _ _ HR Ep) as (L & I0 & T & ND & Lk & V & K & Np & B).
  destruct (parent_facts _ _ _ _ _ _ HR E2) as (L2 & I2 & T2 & ND2 & Lk2 & V2 & K2 & Np2 & B2).
  unfold step_ok. cbn [exec spec_exec]. rewrite Ep, E2. unfold transferChain. destruct k2 as [|x k2].
  2: { exists s. unfold transferLocked. rewrite I2. cbn. auto. }
  assert (N2 : ~ In p2 k). { intros X. specialize (K p2 X). congruence. }
  destruct (transferLocked_ok s p p2 k) as (s1 & -> & M1 & V1 & G1 & O1 & P1 & P2 & Lk1 & T1 & T1' & To); auto.
  { congruence. } { now rewrite I2. }
  cbn [fst snd]. eexists. split; [reflexivity|].
  assert (Nn : nonempty k = true) by (now rewrite Ek).
  assert (X : let s' := replaceIfAccessible s1 p p2 in agree (fun n => In n (p :: k) \/ n = p2) s s' /\ log s' = log s /\ live s' = live s /\
    tbl s' = tbl s1 /\ it s' p = mkItem false false 0 None (S h) false false /\ it s' p2 = mkItem false (nonempty k) 0 None (S h2) v v /\
    forall x, x <> p -> x <> p2 -> it s' x = it s1 x).
  { assert (Ip : it s1 p = mkItem false false 0 None (S h) v v) by (rewrite P1, I0; reflexivity).
    assert (Ip2 : it s1 p2 = mkItem false true 0 None (S h2) false false) by (rewrite P2, I2; reflexivity).
    unfold replaceIfAccessible. rewrite Ip. cbn [acc]. destruct v.
    - sp.
      + split; [exact M1|]. intros n Nn'. nrm. repeat (rewrite updf_other by (intros ->; apply Nn'; cbn; auto)).
        rewrite O1 by (intros [->|[->|Z]]; apply Nn'; cbn; auto). rewrite V1, To by (intros ->; apply Nn'; cbn; auto). auto.
      + exact G1.
      + exact V1.
      + reflexivity.
      + run. reflexivity.
      + run. now rewrite Nn.
      + intros x X1 X2. nrm. now rewrite !updf_other.
    - sp; auto.
      + split; [exact M1|]. intros n Nn'. rewrite O1 by (intros [->|[->|Z]]; apply Nn'; cbn; auto).
        rewrite V1, To by (intros ->; apply Nn'; cbn; auto). auto.
      + rewrite Nn. exact Ip2. }
  destruct X as (A & G & Lv & Tb & Ip & Ip2 & Io). set (s' := replaceIfAccessible s1 p p2) in *.
  assert (Lk' : links s' p2 true k).
  { eapply links_frame; [|exact Lk1]. intros x Ix. rewrite Io by (intros ->; contradiction). now rewrite Lv, V1. }
  apply (step s q s' _ (fun n => In n (p :: k) \/ n = p2) HR).
  - apply closed_or; [exact (fam_closed _ _ _ _ _ _ HR Ep)|]. apply (one_closed _ _ _ HR); rewrite E2; discriminate.
  - exact A.
  - intros n Nn'. rewrite who_sets_out by (intros Z; apply Nn'; cbn; auto).
    rewrite !who_set_other; auto; intros ->; apply Nn'; cbn; auto.
  - rewrite G. destruct HR as (-> & _). reflexivity.
  - intros n Pn _. destruct HR as (_ & Bd & _). apply Bd. destruct Pn as [[<-|Pn]| ->]; [congruence|rewrite (K n Pn); discriminate|congruence].
  - intros n Pn. destruct (dec_in k n) as [Ik|Nk]; unfold Rn.
    + rewrite who_sets_in by exact Ik. destruct (links_in _ _ _ _ _ Lk' Ik) as (Y & _). split; [exact Y|]. split.
      * rewrite Tb, To by (intros ->; contradiction). exact (proj1 (proj2 (linked_facts _ _ _ _ HR (K n Ik)))).
      * exists k, (S h2), v. rewrite who_sets_out by exact N2. rewrite who_set_same. auto.
    + rewrite who_sets_out by exact Nk. destruct Pn as [[<-|Pn]| ->]; [|contradiction|].
      * rewrite who_set_other, who_set_same by auto. rewrite Lv, Tb. sp; auto; try exact Logic.I; try constructor. contradiction.
      * rewrite who_set_same. rewrite Lv, Tb. sp; auto. intros x Ix. now rewrite who_sets_in.
  - intros n. destruct (dec_in (p :: k) n), (Nat.eq_dec n p2); auto. right. tauto.
Qed.

Lemma owner_parent s q r : R s q -> (exists p, who q r = Linked p) \/ (exists k h, who q r = Parent k h true) ->
  live s r = true /\ inmm (it s r) = true /\
  (if ischained (it s r) then parent (it s r) else r) = owner q r /\
  exists k h v, who q (owner q r) = Parent k h v /\ In r (owner q r :: k).
Proof.
  intros HR [(p & E)|(k & h & E)]; unfold owner; rewrite E.
  - destruct (linked_facts _ _ _ _ HR E) as (L & _ & k & h & v & Ep & Ik).
    destruct (parent_facts _ _ _ _ _ _ HR Ep) as (_ & _ & _ & _ & Lk & _).
    destruct (links_in _ _ _ _ _ Lk Ik) as (_ & x & b & ->). cbn. sp; auto. exists k, h, v. auto.
  - destruct (parent_facts _ _ _ _ _ _ HR E) as (L & -> & _). cbn. sp; auto. exists k, h, true. auto.
Qed.

Lemma kill_ok s q p k v r rec b : R s q -> who q p = Parent k 0 v -> (b = true -> In r (p :: k)) ->
  exists s', releaseBack (setMM (setAcc (if b then setMM s r false else s) p false) p false) p false rec =
    Some (s', match rec with Some x => memb x (p :: k) | None => false end) /\ R s' (gone q p k false rec).
Proof.
  intros HR Ep Hb. destruct (parent_facts _ _ _ _ _ _ HR Ep) as (L & I0 & T & ND & Lk & V & K & Np & B).
  set (s0 := if b then setMM s r false else s).
  assert (S0 : live s0 = live s /\ tbl s0 = tbl s /\ log s0 = log s /\ msize s0 = msize s /\
    (forall x, ~ In x (p :: k) -> it s0 x = it s x) /\
    forall x, let i := it s x in exists m, it s0 x = mkItem (ischained i) (haschain i) (parent i) (next i) (refs i) m (acc i)).
  { unfold s0. destruct b; sp; auto.
    - intros x Nx. nrm. rewrite updf_other; auto. intros ->. apply Nx. auto.
    - intros x. nrm. unfold updf. destruct (Nat.eqb_spec x r) as [->|]; [eauto|]. exists (inmm (it s x)). now destruct (it s x).
    - intros x. exists (inmm (it s x)). now destruct (it s x). }
  destruct S0 as (S1 & S2 & S3 & S4 & S5 & S6). set (s1 := setMM (setAcc s0 p false) p false).
  assert (I1 : forall x, x <> p -> it s1 x = it s0 x). { intros x D. unfold s1. nrm. now rewrite !updf_other. }
  apply (gone_ok s q p k 0 v s1 false rec HR Ep).
  - split; [exact S4|]. intros n Nn. rewrite I1 by (intros ->; apply Nn; now left). rewrite S5 by exact Nn. unfold s1. nrm. now rewrite S1, S2.
  - exact S3.
  - unfold s1. nrm. now rewrite S1.
  - unfold s1. nrm. rewrite !updf_same. cbn. destruct (S6 p) as (m & ->). rewrite I0. reflexivity.
  - unfold s1. nrm. now rewrite S2.
  - eapply flinks_frame; [|exact (links_flinks _ _ _ _ Lk)]. intros c Ic. rewrite I1 by (intros ->; contradiction). destruct (S6 c) as (m & ->).
    unfold s1. nrm. rewrite S1. auto.
  - intros c r0 ->. rewrite I1 by (intros ->; apply Np; now left). destruct (S6 c) as (m & ->). cbn [parent acc].
    destruct Lk as (_ & -> & _). auto.
  - intros c Ic. unfold s1. nrm. now rewrite S2.
Qed.

Lemma evict_ok s q r : R s q -> legal (msize s) q (Evict r) -> step_ok s q (Evict r).
Proof.
  intros HR Lg. destruct (owner_parent _ _ _ HR Lg) as (L & M & O & k & h & v & Ep & Ir).
  unfold step_ok. cbn [exec spec_exec]. unfold evict. rewrite L, M, O. cbn [andb negb]. set (p := owner q r) in *. rewrite Ep.
  destruct (parent_facts _ _ _ _ _ _ HR Ep) as (Lp & I0 & _ & _ & _ & V & _). rewrite Lp, I0. cbn [negb refs inmm].
  destruct h as [|h]; [|exists s; auto]. assert (v = true) as -> by (destruct V; congruence). cbn [Nat.eqb andb negb].
  destruct (kill_ok s q p k true r (Some r) true HR Ep (fun _ => Ir)) as (s' & E & HR'). cbv zeta. rewrite E.
  exists s'. apply memb_in in Ir. rewrite Ir. auto.
Qed.
Lemma evictSlab_ok s q r : R s q -> legal (msize s) q (EvictSlab r) -> step_ok s q (EvictSlab r).
Proof.
  intros HR Lg. destruct (owner_parent _ _ _ HR Lg) as (L & M & O & k & h & v & Ep & Ir).
  unfold step_ok. cbn [exec spec_exec]. unfold evictSlab. rewrite L, M, O. cbn [andb negb]. set (p := owner q r) in *. rewrite Ep.
  destruct (parent_facts _ _ _ _ _ _ HR Ep) as (Lp & I0 & _ & _ & _ & V & _). rewrite Lp, I0. cbn [negb refs inmm].
  destruct h as [|h]; [|exists s; auto]. assert (v = true) as -> by (destruct V; congruence). cbn [Nat.eqb andb negb].
  destruct (kill_ok s q p k true r None false HR Ep ltac:(discriminate)) as (s' & E & HR'). cbv zeta. rewrite E. exists s'. auto.
Qed.

Lemma withHas_id i b : haschain i = b -> withHas i b = i. Proof. intros <-. now destruct i. Qed.

Lemma moveRegular_ok s q p p2 raced : R s q -> legal (msize s) q (MoveRegular p p2 raced) -> step_ok s q (MoveRegular p p2 raced).
Proof.
  intros HR ((k & h & Ep) & E2 & B2). destruct (parent_facts _ _ _ _ _ _ HR Ep) as (L & I0 & T & ND & Lk & V & K & Np & B).
  destruct (free_facts _ _ _ HR E2) as (L2 & T2). assert (D : p <> p2) by congruence.
  assert (N2 : ~ In p2 k). { intros X. specialize (K p2 X). congruence. }
  unfold step_ok. cbn [exec spec_exec]. unfold moveRegular. rewrite Ep, L, I0. cbn [inmm ischained refs negb andb].
  destruct h as [|h]; [|exists s; auto]. cbn [Nat.eqb negb].
  unfold allocParent, alloc. rewrite L2. apply Nat.ltb_lt in B2 as B2'. rewrite B2'. cbn [negb orb].
  set (s1 := setMM (say (put (setLive s p2 true) p2 _) (EAlloc p2)) p2 true).
  assert (S1 : it s1 p2 = mkItem false false 0 None 1 true false /\ (forall x, x <> p2 -> it s1 x = it s x) /\
    live s1 p2 = true /\ (forall x, x <> p2 -> live s1 x = live s x) /\ tbl s1 = tbl s /\ msize s1 = msize s /\ log s1 = EAlloc p2 :: log s).
  { unfold s1. sp; try reflexivity.
    - nrm. rewrite !updf_same. reflexivity.
    - intros x X. nrm. now rewrite !updf_other.
    - nrm. now rewrite updf_same.
    - intros x X. nrm. now rewrite updf_other. }
  destruct S1 as (Sa & Sb & Sc & Sd & Se & Sf & Sg).
  assert (Lk1 : links s1 p true k).
  { eapply links_frame; [|exact Lk]. intros x Ix. rewrite Sb, Sd by (intros ->; contradiction). auto. }
  assert (I1 : it s1 p = mkItem false (nonempty k) 0 None 0 true true) by (rewrite Sb by exact D; exact I0).
  assert (X : exists s3, (if haschain (it s1 p) then transferLocked s1 p p2 else Some (s1, true)) = Some (s3, true) /\
    msize s3 = msize s1 /\ live s3 = live s1 /\ log s3 = log s1 /\ (forall x, ~ In x (p :: p2 :: k) -> it s3 x = it s1 x) /\
    it s3 p = mkItem false false 0 None 0 true true /\ it s3 p2 = mkItem false (nonempty k) 0 None 1 true false /\ links s3 p2 true k /\
    tbl s3 p = None /\ tbl s3 p2 = hd_error k /\ (forall x, x <> p -> x <> p2 -> tbl s3 x = tbl s1 x)).
  { rewrite I1. cbn [haschain]. destruct k as [|c r].
    - cbn [nonempty] in *. exists s1. sp; auto; try exact Logic.I; rewrite Se; auto.
    - cbn [nonempty] in *. destruct (transferLocked_ok s1 p p2 (c :: r)) as (s3 & E & A1 & A2 & A3 & A4 & A5 & A6 & A7 & A8 & A9 & A10).
      + rewrite Sd by exact D. exact L.
      + exact Sc.
      + exact D.
      + exact Np.
      + exact N2.
      + exact ND.
      + rewrite Sf. exact B.
      + discriminate.
      + rewrite Se. exact T.
      + rewrite Se. exact T2.
      + rewrite Sa. reflexivity.
      + exact Lk1.
      + exists s3. rewrite E. sp; auto; [rewrite A5, I1|rewrite A6, Sa]; reflexivity. }
  destruct X as (s3 & E3 & M3 & V3 & G3 & O3 & Ip3 & Ip23 & Lk3 & Tp3 & Tp23 & To3). rewrite E3. cbn [negb].
  assert (L3p : live s3 p = true) by (rewrite V3, Sd by exact D; exact L).
  assert (L3p2 : live s3 p2 = true) by (rewrite V3; exact Sc).
  assert (Fr3 : forall n, ~ In n (p :: k) -> n <> p2 -> it s3 n = it s n /\ live s3 n = live s n /\ tbl s3 n = tbl s n).
  { intros n Nn Nn2. rewrite O3 by (intros [->|[->|Z]]; [apply Nn; now left|congruence|apply Nn; now right]).
    rewrite Sb, V3, Sd by exact Nn2. rewrite To3, Se by (try exact Nn2; intros ->; apply Nn; now left). auto. }
  assert (Cl : closed q (fun n => In n (p :: k) \/ n = p2)).
  { apply closed_or; [exact (fam_closed _ _ _ _ _ _ HR Ep)|]. apply (one_closed _ _ _ HR); rewrite E2; discriminate. }
  assert (Dec : forall n, (In n (p :: k) \/ n = p2) \/ ~ (In n (p :: k) \/ n = p2)).
  { intros n. destruct (dec_in (p :: k) n), (Nat.eq_dec n p2); auto. right. tauto. }
  destruct raced.
  - (* the move fails *)
    assert (I4 : acc (it (setAcc s3 p false) p) = false) by (nrm; now rewrite updf_same). rewrite I4. clear I4.
    set (s5 := setMM (setAcc s3 p false) p2 false).
    assert (I5 : it s5 p2 = mkItem false (nonempty k) 0 None 1 false false) by (unfold s5; run; reflexivity).
    assert (I5p : it s5 p = mkItem false false 0 None 0 true false) by (unfold s5; run; reflexivity).
    assert (I5o : forall x, x <> p -> x <> p2 -> it s5 x = it s3 x) by (intros x X1 X2; unfold s5; nrm; now rewrite !updf_other).
    unfold release. rewrite (decRef_at s5 p2 _ _ _ _ _ _ _ L3p2 I5). cbv zeta. rewrite it_put, Nat.eqb_refl. cbn [refs inmm acc Nat.eqb negb andb].
    set (s6 := put s5 p2 _).
    assert (I6o : forall x, x <> p2 -> it s6 x = it s5 x) by (intros x X; unfold s6; rewrite it_put, (proj2 (Nat.eqb_neq x p2)) by exact X; reflexivity).
    destruct (releaseBack_ok s6 p2 k true None) as (s7 & -> & A7 & L7 & T7 & D7 & G7).
    { exact L3p2. } { unfold s6. now rewrite it_put, Nat.eqb_refl. } { exact Tp23. } { constructor; auto. }
    { eapply flinks_frame; [|exact (links_flinks _ _ _ _ Lk3)]. intros c Ic.
      rewrite I6o, I5o by (intros ->; contradiction). auto. }
    { change (msize s6) with (msize s3). rewrite M3, Sf. exact B. }
    { intros c r ->. rewrite I6o, I5o by (intros ->; first [apply N2; now left|apply Np; now left]). destruct Lk3 as (_ & -> & _). auto. }
    destruct A7 as (M7 & A7). destruct (A7 p) as (A71 & A72 & A73). { intros [->|Z]; [congruence|contradiction]. }
    set (s8 := setMM s7 p false).
    destruct (releaseBack_ok s8 p [] false None) as (s9 & -> & A9 & L9 & T9 & _ & G9).
    { unfold s8. nrm. rewrite A72. exact L3p. }
    { unfold s8. nrm. rewrite updf_same, A71, I6o, I5p by exact D. reflexivity. }
    { unfold s8. nrm. rewrite A73. exact Tp3. }
    { constructor; [intros []|constructor]. } { exact Logic.I. } { cbn. lia. } { discriminate. }
    exists s9. split; [reflexivity|]. cbn [fst snd]. destruct A9 as (M9 & A9).
    assert (I9 : forall n, n <> p -> it s9 n = it s7 n /\ live s9 n = live s7 n /\ tbl s9 n = tbl s7 n).
    { intros n Nn. destruct (A9 n) as (-> & -> & ->); [intros [->|[]]; congruence|]. unfold s8. nrm. rewrite updf_other by exact Nn. auto. }
    apply (step s q s9 _ (fun n => In n (p :: k) \/ n = p2) HR Cl).
    + split; [rewrite M9; unfold s8; nrm; rewrite M7; change (msize s6) with (msize s3); congruence|]. intros n Nn.
      destruct (I9 n) as (-> & -> & ->); [intros ->; apply Nn; left; now left|].
      destruct (A7 n) as (-> & -> & ->); [intros [->|Z]; apply Nn; [now right|left; now right]|].
      rewrite I6o, I5o by (intros ->; apply Nn; cbn; auto). unfold s6, s5. nrm. apply Fr3; [intros Z; apply Nn; now left|intros ->; apply Nn; now right].
    + intros n Nn. rewrite who_told, who_sets_out by (intros Z; apply Nn; now left). reflexivity.
    + rewrite G9. unfold s8. nrm. rewrite G7. unfold s6, s5. nrm. rewrite G3, Sg. unfold told. cbn [evs sets rev app map].
      destruct HR as (-> & _). repeat (rewrite rev_app_distr || rewrite <- app_assoc || cbn [rev app]).
      assert (Zf : map (freed None) k = map EFree k) by reflexivity. rewrite Zf. reflexivity.
    + intros n [Pn| ->]; rewrite who_told; [rewrite who_sets_in by exact Pn; congruence|]. intros _. exact B2.
    + intros n Pn. unfold Rn. rewrite who_told. destruct (dec_in (p :: k) n) as [Ik|Nk].
      * rewrite who_sets_in by exact Ik. destruct Ik as [<-|Ik]; [auto|]. destruct (I9 n) as (_ & -> & ->); [intros ->; contradiction|].
        destruct (D7 n Ik) as (-> & ->). split; [reflexivity|]. unfold s6, s5. nrm.
        rewrite To3, Se by (intros ->; contradiction). exact (proj1 (proj2 (linked_facts _ _ _ _ HR (K n Ik)))).
      * rewrite who_sets_out by exact Nk. destruct Pn as [Pn| ->]; [contradiction|]. rewrite E2.
        destruct (I9 p2) as (_ & -> & ->); [congruence|]. auto.
    + exact Dec.
  - rewrite Ip3. cbn [acc]. set (s5 := setMM (setAcc (setAcc s3 p2 true) p false) p false).
    assert (I5 : it s5 p2 = mkItem false (nonempty k) 0 None 1 true true) by (unfold s5; run; reflexivity).
    rewrite (release_keep s5 p2 _ _ _ _ _ _ _ false L3p2 I5) by auto. unfold freeMem. change (live (put s5 p2 _) p) with (live s3 p). rewrite L3p.
    eexists. split; [reflexivity|]. cbn [fst snd].
    apply (step s q _ _ (fun n => In n (p :: k) \/ n = p2) HR Cl).
    + split; [exact (eq_trans M3 Sf)|]. intros n Nn. unfold s5. nrm. repeat (rewrite updf_other by (intros ->; apply Nn; cbn; auto)).
      apply Fr3; [intros Z; apply Nn; now left|intros ->; apply Nn; now right].
    + intros n Nn. rewrite who_told, who_sets_out by (intros Z; apply Nn; left; now right).
      rewrite !who_set_other; auto; intros ->; apply Nn; cbn; auto.
    + unfold s5. nrm. rewrite G3, Sg. destruct HR as (-> & _). reflexivity.
    + intros n Pn _. destruct Pn as [Pn| ->]; [|exact B2]. destruct HR as (_ & Bd & _). apply Bd.
      destruct Pn as [<-|Pn]; [congruence|rewrite (K n Pn); discriminate].
    + match goal with |- forall n, _ -> Rn ?S _ n => set (s9 := S) end.
      assert (It : forall x, x <> p -> x <> p2 -> it s9 x = it s3 x).
      { intros x X1 X2. unfold s9, s5. nrm. now rewrite !updf_other. }
      assert (Lk9 : links s9 p2 true k).
      { eapply links_frame; [|exact Lk3]. intros x Ix. rewrite It by (intros ->; contradiction). unfold s9, s5. nrm.
        rewrite updf_other by (intros ->; contradiction). auto. }
      intros n Pn. unfold Rn. rewrite who_told. destruct (dec_in k n) as [Ik|Nk].
      * rewrite who_sets_in by exact Ik. destruct (links_in _ _ _ _ _ Lk9 Ik) as (Y & _). split; [exact Y|]. split.
        -- unfold s9, s5. nrm. rewrite To3, Se by (intros ->; contradiction). exact (proj1 (proj2 (linked_facts _ _ _ _ HR (K n Ik)))).
        -- exists k, 0, true. rewrite who_sets_out by exact N2. rewrite who_set_same. auto.
      * rewrite who_sets_out by exact Nk. destruct Pn as [[<-|Pn]| ->]; [|contradiction|].
        -- rewrite who_set_other, who_set_same by auto. unfold s9, s5. nrm. rewrite updf_same. auto.
        -- rewrite who_set_same. sp; auto.
           ++ unfold s9, s5. nrm. rewrite updf_other by auto. exact L3p2.
           ++ unfold s9. nrm. now rewrite updf_same.
           ++ intros c Ic. rewrite who_sets_in by exact Ic. reflexivity.
    + exact Dec.
Qed.
