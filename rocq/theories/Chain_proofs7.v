(** Proofs for C15, part 7: all calls, histories. *)
From Verif Require Import Bytes DList_model DList_spec Chain_model Chain_spec Chain_proofs Chain_proofs2 Chain_proofs3 Chain_proofs4 Chain_proofs5 Chain_proofs6.
Ltac Zify.zify_post_hook ::= idtac.

Lemma replaced s q p h v o n l b s' st es : let k := l ++ o :: b in
  R s q -> who q p = Parent k h v -> (who q n = Loose p 1 \/ who q n = Free) -> n < msize s ->
  agree (fun x => In x (p :: k) \/ x = n) s s' -> log s' = rev es ++ log s ->
  it s' p = it s p -> live s' p = live s p -> tbl s' p = hd_error (l ++ n :: b) -> (forall x, x <> p -> tbl s' x = tbl s x) ->
  links s' p true (l ++ n :: b) ->
  (st = Loose p 1 /\ live s' o = true /\ it s' o = mkItem true false p None 1 false false \/ st = Free /\ live s' o = false) ->
  R s' (told (set (set (set q p (Parent (replace_node k o n) h v)) o st) n (Linked p)) es).
Proof.
  intros k HR Ep En Bn A G Ip Lp Tp To Lk' Ho. destruct (parent_facts _ _ _ _ _ _ HR Ep) as (L & I0 & T & ND & Lk & V & K & Np & B).
  assert (Tn : tbl s n = None). { destruct En as [E|E]; [destruct (loose_facts _ _ _ _ _ HR E)|destruct (free_facts _ _ _ HR E)]; tauto. }
  assert (Nn : ~ In n k). { intros X. specialize (K n X). destruct En; congruence. }
  assert (Dpn : p <> n) by (destruct En; congruence).
  assert (Iok : In o k) by apply in_elt. assert (Dpo : p <> o) by (intros ->; contradiction). assert (Dno : n <> o) by (intros ->; contradiction).
  assert (Erep : replace_node k o n = l ++ n :: b) by exact (replace_node_app l o n b ND). rewrite Erep.
  assert (Sub : forall x, In x (l ++ n :: b) -> x = n \/ (In x k /\ x <> o)).
  { intros x Ix. apply in_app_or in Ix. apply NoDup_remove_2 in ND. destruct Ix as [Ix|[<-|Ix]]; [right|now left|right]; split.
    - apply in_or_app. auto. - intros ->. apply ND. apply in_or_app. auto.
    - apply in_or_app. right. now right. - intros ->. apply ND. apply in_or_app. auto. }
  assert (ND' : NoDup (l ++ n :: b)).
  { apply NoDup_Add with (a := n) (l := l ++ b); [apply Add_app|]. split; [exact (NoDup_remove_1 _ _ _ ND)|].
    intros X. apply Nn. apply in_app_or in X. apply in_or_app. destruct X; [auto|right; now right]. }
  apply (step s q s' _ (fun x => In x (p :: k) \/ x = n) HR).
  - apply closed_or; [exact (fam_closed _ _ _ _ _ _ HR Ep)|]. apply (one_closed _ _ _ HR); destruct En as [E|E]; rewrite E; discriminate.
  - exact A.
  - intros x Nx. rewrite who_told, !who_set_other; auto; intros ->; apply Nx; first [now right|left; now left|left; right; exact Iok].
  - rewrite G. destruct HR as (-> & _). reflexivity.
  - intros x Px _. destruct Px as [Px| ->]; [|exact Bn]. destruct HR as (_ & Bd & _). apply Bd. destruct Px as [<-|Px]; [congruence|rewrite (K x Px); discriminate].
  - intros x Px. unfold Rn. rewrite who_told. destruct (Nat.eq_dec x n) as [->|Dxn].
    { rewrite who_set_same. assert (In n (l ++ n :: b)) by apply in_elt. destruct (links_in _ _ _ _ _ Lk' H) as (Y & _). split; [exact Y|]. split.
      - rewrite To by auto. exact Tn.
      - exists (l ++ n :: b), h, v. rewrite !who_set_other, who_set_same by auto. auto. }
    rewrite who_set_other by exact Dxn. destruct (Nat.eq_dec x o) as [->|Dxo].
    { rewrite who_set_same. assert (To' : tbl s' o = None) by (rewrite To by auto; exact (proj1 (proj2 (linked_facts _ _ _ _ HR (K o Iok))))).
      destruct Ho as [(-> & Ho1 & Ho2)|(-> & Ho)]; auto. }
    rewrite who_set_other by exact Dxo. destruct Px as [[<-|Px]|Px]; [| |contradiction].
    + rewrite who_set_same. rewrite Lp, Ip. sp; auto.
      * rewrite I0. unfold k. destruct l; reflexivity.
      * intros c Ic. destruct (Sub c Ic) as [->|(Ic' & Dc)]; [now rewrite who_set_same|].
        rewrite !who_set_other; auto; intros ->; contradiction.
    + rewrite who_set_other by (intros ->; contradiction). rewrite (K x Px).
      assert (Ix : In x (l ++ n :: b)).
      { apply in_app_or in Px. apply in_or_app. destruct Px as [|[->|]]; [auto|congruence|right; now right]. }
      destruct (links_in _ _ _ _ _ Lk' Ix) as (Y & _). split; [exact Y|]. split.
      * rewrite To by (intros ->; contradiction). exact (proj1 (proj2 (linked_facts _ _ _ _ HR (K x Px)))).
      * exists (l ++ n :: b), h, v. rewrite !who_set_other, who_set_same by auto. auto.
  - intros x. destruct (dec_in (p :: k) x), (Nat.eq_dec x n); auto. right. tauto.
Qed.

Lemma replace_ok s q o n p : R s q -> legal (msize s) q (Replace o n p) -> step_ok s q (Replace o n p).
Proof.
  intros HR (Eo & (k & h & v & Ep) & En). unfold step_ok. cbn [exec spec_exec]. rewrite Ep. unfold replaceChained.
  assert (Hd : exists s1, release s n false = Some s1 /\ R s1 (drop q n false)).
  { apply drop_ok; [exact HR|]. destruct En as [(b & E)|E]; eauto. }
  destruct Hd as (sd & Ed & HRd).
  destruct En as [(b & En)|(k' & h' & v' & En)]; rewrite En.
  2:{ destruct (parent_facts _ _ _ _ _ _ HR En) as (_ & -> & _). cbn [ischained negb]. rewrite orb_true_r. cbn [orb]. rewrite Ed.
      exists sd. destruct (who q o); auto. }
  destruct (loose_facts _ _ _ _ _ HR En) as (Ln & In0 & Tn & _).
  destruct (who q o) as [|ko ho vo|a ho|a] eqn:Eo'; [congruence| | |].
  - destruct (parent_facts _ _ _ _ _ _ HR Eo') as (_ & -> & _). cbn [ischained negb orb]. rewrite Ed. exists sd. auto.
  - destruct (loose_facts _ _ _ _ _ HR Eo') as (_ & -> & _). cbn [ischained negb orb inmm]. rewrite !orb_true_r. rewrite Ed. exists sd. auto.
  - destruct (linked_facts _ _ _ _ HR Eo') as (Lo & To & ka & ha & va & Ea & Iok).
    destruct (parent_facts _ _ _ _ _ _ HR Ea) as (_ & _ & _ & _ & Lka & _).
    destruct (links_in _ _ _ _ _ Lka Iok) as (_ & x & y & Io). rewrite Io, In0. cbn [ischained negb orb inmm parent].
    rewrite orb_false_r. destruct (Nat.eqb_spec a p) as [->|Dap].
    2:{ cbn [negb andb]. rewrite !orb_true_r. cbn [orb]. rewrite Ed. exists sd. auto. }
    cbn [negb andb]. rewrite !orb_false_r. rewrite (Nat.eqb_sym p b). destruct (Nat.eqb_spec b p) as [->|Dbp].
    2:{ cbn [negb]. rewrite Ed. exists sd. auto. }
    cbn [negb fst snd]. rewrite Ep in Ea. injection Ea as <- <- <-. apply in_split in Iok. destruct Iok as (l & r & ->).
    destruct (parent_facts _ _ _ _ _ _ HR Ep) as (L & I0 & T & ND & Lk & V & K & Np & B).
    assert (Nn : ~ In n (l ++ o :: r)). { intros X. specialize (K n X). congruence. }
    assert (Dno : n <> o) by (intros ->; apply Nn; apply in_elt). assert (Dpn : p <> n) by congruence.
    assert (Dpo : p <> o) by congruence.
    apply links_app in Lk. destruct Lk as (Ll & _ & Io' & Lr). cbn [andb] in Io'. clear Io. rename Io' into Io.
    rewrite (incRef_at _ _ _ _ _ _ _ _ _ Lo Io). set (s2 := setMM (setMM _ o false) n true).
    assert (Nl : forall z, In z l -> z <> o /\ z <> n).
    { intros z Iz. split; intros ->; [apply NoDup_remove_2 in ND; apply ND|apply Nn]; apply in_or_app; auto. }
    assert (Nr : forall z, In z r -> z <> o /\ z <> n).
    { intros z Iz. split; intros ->; [apply NoDup_remove_2 in ND; apply ND|apply Nn]; apply in_or_app; auto. right. now right. }
    assert (I2 : forall z, z <> o -> z <> n -> it s2 z = it s z) by (intros z Z1 Z2; unfold s2; nrm; now rewrite !updf_other).
    destruct (replaceInChain_ok s2 o n p l r 1 false false) as (s3 & E3 & M3 & V3 & G3 & T3 & To3 & I3 & I3o & I3n & Ll3 & Lr3); auto.
    { eapply llinks_frame; [|exact Ll]. intros z Iz. destruct (Nl z Iz). now rewrite I2. }
    { unfold s2. run. reflexivity. }
    { eapply links_frame; [|exact Lr]. intros z Iz. destruct (Nr z Iz). now rewrite I2. }
    { unfold s2. run. reflexivity. }
    rewrite E3. assert (Ln3 : live s3 n = true) by (rewrite V3; exact Ln). assert (Lo3 : live s3 o = true) by (rewrite V3; exact Lo).
    rewrite (release_keep s3 n _ _ _ _ _ _ _ false Ln3 I3n) by auto. eexists. split; [reflexivity|].
    set (s4 := put s3 n _). assert (I4 : forall z, z <> n -> it s4 z = it s3 z) by (intros z Z; unfold s4; nrm; now rewrite updf_other).
    apply (replaced s q p (S h) v o n l r s4 (Loose p 1) [] HR Ep (or_introl En)).
    + destruct HR as (_ & Bd & _). apply Bd. congruence.
    + split; [unfold s4; nrm; exact M3|]. intros z Nz. rewrite I4 by (intros ->; apply Nz; now right).
      assert (Z1 : z <> n) by (intros ->; apply Nz; now right). assert (Z2 : ~ In z (l ++ o :: r)) by (intros Z; apply Nz; left; now right).
      assert (Z3 : z <> o) by (intros ->; apply Z2; apply in_elt). assert (Z4 : z <> p) by (intros ->; apply Nz; left; now left).
      rewrite I3, I2 by auto. unfold s4. nrm. rewrite V3, To3 by auto. auto.
    + exact G3.
    + rewrite I4, I3, I2 by auto. reflexivity.
    + unfold s4. nrm. now rewrite V3.
    + exact T3.
    + intros z Z. unfold s4. nrm. now rewrite To3.
    + apply links_app. sp.
      * eapply llinks_frame; [|exact Ll3]. intros z Iz. rewrite I4 by (apply Nl; exact Iz). auto.
      * exact Ln3.
      * unfold s4. now rewrite it_put, Nat.eqb_refl.
      * eapply links_frame; [|exact Lr3]. intros z Iz. rewrite I4 by (apply Nr; exact Iz). auto.
    + left. rewrite I4 by auto. auto.
Qed.

Lemma moveChained_ok s q o n : R s q -> legal (msize s) q (MoveChained o n) -> step_ok s q (MoveChained o n).
Proof.
  intros HR ((p & Eo) & En & Bn). unfold step_ok. cbn [exec spec_exec]. unfold moveChained, owner. rewrite Eo.
  destruct (linked_facts _ _ _ _ HR Eo) as (Lo & To & k & h & v & Ep & Iok). apply in_split in Iok. destruct Iok as (l & r & ->).
  destruct (parent_facts _ _ _ _ _ _ HR Ep) as (L & I0 & T & ND & Lk & V & K & Np & B). apply links_app in Lk. destruct Lk as (Ll & _ & Io & Lr). cbn [andb] in Io.
  rewrite Lo, Io. cbn [inmm ischained parent negb andb]. rewrite L, I0, Ep. cbn [negb refs inmm].
  destruct h as [|h]; [|exists s; auto]. assert (v = true) as -> by (destruct V; congruence). cbn [Nat.eqb andb negb fst snd].
  destruct (free_facts _ _ _ HR En) as (Ln & Tn).
  assert (Nn : ~ In n (l ++ o :: r)). { intros X. specialize (K n X). congruence. }
  assert (Dno : n <> o) by congruence. assert (Dpn : p <> n) by congruence. assert (Dpo : p <> o) by congruence.
  unfold allocChild, alloc. rewrite Ln. apply Nat.ltb_lt in Bn as Bn'. rewrite Bn'. cbn [orb negb].
  set (s2 := setMM _ n true).
  assert (Nl : forall z, In z l -> z <> o /\ z <> n).
  { intros z Iz. split; intros ->; [apply NoDup_remove_2 in ND; apply ND|apply Nn]; apply in_or_app; auto. }
  assert (Nr : forall z, In z r -> z <> o /\ z <> n).
  { intros z Iz. split; intros ->; [apply NoDup_remove_2 in ND; apply ND|apply Nn]; apply in_or_app; auto. right. now right. }
  assert (I2 : forall z, z <> n -> it s2 z = it s z) by (intros z Z; unfold s2; nrm; now rewrite !updf_other).
  assert (V2 : forall z, z <> n -> live s2 z = live s z) by (intros z Z; unfold s2; nrm; now rewrite !updf_other).
  assert (V2n : live s2 n = true) by (unfold s2; nrm; now rewrite updf_same).
  destruct (replaceInChain_ok s2 o n p l r 0 true true) as (s3 & E3 & M3 & V3 & G3 & T3 & To3 & I3 & I3o & I3n & Ll3 & Lr3); auto.
  { eapply llinks_frame; [|exact Ll]. intros z Iz. destruct (Nl z Iz). now rewrite I2, V2. }
  { rewrite V2 by auto. exact Lo. }
  { rewrite I2 by auto. exact Io. }
  { eapply links_frame; [|exact Lr]. intros z Iz. destruct (Nr z Iz). now rewrite I2, V2. }
  { unfold s2. run. reflexivity. }
  { discriminate. }
  rewrite E3. set (s4 := setMM s3 o false).
  assert (I4 : it s4 n = mkItem true false p (hd_error r) 2 true (isnil l)) by (unfold s4; nrm; now rewrite updf_other).
  assert (L4 : live s4 n = true) by (unfold s4; nrm; now rewrite V3).
  rewrite (release_keep s4 n _ _ _ _ _ _ _ true L4 I4) by auto. unfold freeMem.
  assert (L5 : live (put s4 n (mkItem true false p (hd_error r) 1 true (isnil l))) o = true). { unfold s4. nrm. rewrite V3, V2 by auto. exact Lo. }
  rewrite L5. eexists. split; [reflexivity|]. match goal with |- R ?S _ => set (s6 := S) end.
  assert (I6 : forall z, z <> n -> z <> o -> it s6 z = it s3 z) by (intros z Z1 Z2; unfold s6, s4; nrm; now rewrite !updf_other).
  assert (V6 : forall z, z <> o -> live s6 z = live s2 z) by (intros z Z; unfold s6, s4; nrm; now rewrite updf_other, V3).
  apply (replaced s q p 0 true o n l r s6 Free [EAlloc n; EFree o] HR Ep (or_intror En) Bn).
  - split; [unfold s6, s4; nrm; exact M3|]. intros z Nz.
    assert (Z1 : z <> n) by (intros ->; apply Nz; now right). assert (Z2 : ~ In z (l ++ o :: r)) by (intros Z; apply Nz; left; now right).
    assert (Z3 : z <> o) by (intros ->; apply Z2; apply in_elt). assert (Z4 : z <> p) by (intros ->; apply Nz; left; now left).
    rewrite I6, I3, I2, V6, V2 by auto. unfold s6, s4. nrm. rewrite To3 by auto. auto.
  - unfold s6, s4. nrm. rewrite G3. reflexivity.
  - rewrite I6, I3, I2 by auto. reflexivity.
  - rewrite V6, V2 by auto. reflexivity.
  - exact T3.
  - intros z Z. unfold s6, s4. nrm. now rewrite To3.
  - apply links_app. sp.
    + eapply llinks_frame; [|exact Ll3]. intros z Iz. destruct (Nl z Iz). rewrite I6, V6, V3 by auto. auto.
    + now rewrite V6.
    + unfold s6, s4. nrm. now rewrite updf_same.
    + eapply links_frame; [|exact Lr3]. intros z Iz. destruct (Nr z Iz). rewrite I6, V6, V3 by auto. auto.
  - right. split; [reflexivity|]. unfold s6. nrm. now rewrite updf_same.
Qed.

Lemma put_put s n i j : put (put s n i) n j = mkCache (msize s) (updf (updf (it s) n i) n j) (live s) (tbl s) (log s). Proof. reflexivity. Qed.
Lemma R_ext s s' q : R s q -> msize s' = msize s -> (forall n, it s' n = it s n) -> live s' = live s -> tbl s' = tbl s -> log s' = log s -> R s' q.
Proof.
  intros HR M I0 L T G. apply (step s q s' q (fun _ => False) HR); auto.
  - intros n p _. tauto.
  - split; [exact M|]. intros n _. now rewrite I0, L, T.
  - rewrite G. destruct HR as (-> & _). reflexivity.
  - contradiction.
  - contradiction.
Qed.
Lemma exec_ok s q c : R s q -> legal (msize s) q c -> step_ok s q c.
Proof.
  intros HR Lg. destruct c.
  - destruct Lg as (E & B). unfold step_ok. cbn [exec spec_exec fst snd]. unfold allocParent.
    destruct (alloc_ok s q n _ (Parent [] 1 false) HR E B (or_introl (conj eq_refl eq_refl))) as (s' & -> & HR' & _). exists s'. auto.
  - destruct Lg as (E & B & _). unfold step_ok. cbn [exec spec_exec fst snd]. unfold allocChild.
    destruct (alloc_ok s q n _ (Loose p 1) HR E B (or_intror (ex_intro _ p (conj eq_refl eq_refl)))) as (s' & -> & HR' & _). exists s'. auto.
  - destruct Lg as (k & h & v & E). destruct (parent_facts _ _ _ _ _ _ HR E) as (L & I0 & _). unfold step_ok. cbn [exec spec_exec]. rewrite E.
    eexists. split; [reflexivity|]. cbn [fst snd].
    assert (X : R (put s p (mkItem false (nonempty k) 0 None (S h) true true)) (set q p (Parent k (S h) true))).
    { apply one_ok; auto; rewrite E; [discriminate|auto]. }
    eapply R_ext; [exact X| |..]; try reflexivity. intros n. nrm. unfold updf. destruct (n =? p); [rewrite Nat.eqb_refl, I0|]; reflexivity.
  - destruct Lg as (k & h & v & E). destruct (parent_facts _ _ _ _ _ _ HR E) as (L & I0 & _). unfold step_ok. cbn [exec spec_exec]. rewrite E.
    eexists. split; [reflexivity|]. cbn [fst snd].
    assert (X : R (put s p (mkItem false (nonempty k) 0 None (S h) false false)) (set q p (Parent k (S h) false))).
    { apply one_ok; auto; rewrite E; [discriminate|auto]. }
    eapply R_ext; [exact X| |..]; try reflexivity. intros n. nrm. unfold updf. destruct (n =? p); [rewrite Nat.eqb_refl, I0|]; reflexivity.
  - assert (X : (exists k h v, who q n = Parent k h v) \/ exists p h, who q n = Loose p h).
    { destruct Lg as [(k & h & v & E)|[(p & h & E)|(k & h & E)]]; eauto. }
    unfold step_ok. cbn [exec spec_exec]. destruct X as [(k & h & v & E)|(p & h & E)]; rewrite E.
    + destruct (parent_facts _ _ _ _ _ _ HR E) as (L & I0 & _). rewrite (incRef_at _ _ _ _ _ _ _ _ _ L I0). eexists. split; [reflexivity|].
      apply one_ok; auto; rewrite E; [discriminate|auto].
    + destruct (loose_facts _ _ _ _ _ HR E) as (L & I0 & _). rewrite (incRef_at _ _ _ _ _ _ _ _ _ L I0). eexists. split; [reflexivity|].
      apply one_ok; auto; rewrite E; [discriminate|auto].
  - unfold step_ok. cbn [exec spec_exec fst snd]. destruct (drop_ok s q n nascent HR) as (s' & -> & HR'); [|exists s'; auto].
    destruct Lg as [E|[E|[]]]; auto.
  - apply add_ok; auto.
  - apply pop_ok; auto.
  - apply transfer_ok; auto.
  - apply replace_ok; auto.
  - destruct Lg as (k & h & v & E). unfold step_ok. cbn [exec spec_exec]. rewrite E, (view_ok _ _ _ _ _ _ HR E). exists s. auto.
  - apply evict_ok; auto.
  - apply evictSlab_ok; auto.
  - apply moveChained_ok; auto.
  - apply moveRegular_ok; auto.
Qed.

(** The memory size never changes. *)
Ltac ms := repeat match goal with
  | H : (let* _ := ?e in _) = Some _ |- _ => destruct e as [[]|] eqn:?; [|discriminate H]
  | H : (let* _ := ?e in _) = Some _ |- _ => destruct e as [] eqn:?; [|discriminate H]
  | H : match ?e with _ => _ end = Some _ |- _ => destruct e eqn:?; try discriminate H
  | H : Some _ = Some _ |- _ => injection H as <- || (injection H as <- <-)
  end.
Lemma incRef_ms s n s' : incRef s n = Some s' -> msize s' = msize s. Proof. unfold incRef. intros X. ms. reflexivity. Qed.
Lemma decRef_ms s n s' : decRef s n = Some s' -> msize s' = msize s. Proof. unfold decRef. intros X. ms. reflexivity. Qed.
Lemma freeMem_ms s n s' : freeMem s n = Some s' -> msize s' = msize s. Proof. unfold freeMem. intros X. ms. reflexivity. Qed.
Ltac mss := repeat match goal with
  | H : incRef _ _ = Some _ |- _ => apply incRef_ms in H
  | H : decRef _ _ = Some _ |- _ => apply decRef_ms in H
  | H : freeMem _ _ = Some _ |- _ => apply freeMem_ms in H
  end; nrm; try congruence.
Lemma ior_ms s c s' o : insertOrReplace s c = Some (s', o) -> msize s' = msize s.
Proof. unfold insertOrReplace. intros X. ms; mss. Qed.
Lemma tblRemove_ms s c s' o : tblRemove s c = (s', o) -> msize s' = msize s.
Proof. unfold tblRemove. destruct (acc (it s c)); intros [= <- <-]; reflexivity. Qed.
Lemma findChained_ms s c s' o : findChained s c = Some (s', o) -> msize s' = msize s.
Proof. unfold findChained. intros X. ms; mss. Qed.
Lemma freeChain_ms fuel : forall s cur rec b s' b', freeChain fuel s cur rec b = Some (s', b') -> msize s' = msize s.
Proof.
  induction fuel as [|f IH]; intros s cur rec b s' b' X; destruct cur; cbn [freeChain] in X; ms; try reflexivity;
  try (apply IH in X); mss.
Qed.
