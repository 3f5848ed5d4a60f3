(** Proofs for C15, part 4: pop, transfer, eviction, moving a regular item. *)
From Verif Require Import Bytes DList_model DList_spec Chain_model Chain_spec Chain_proofs Chain_proofs2 Chain_proofs3.
Ltac Zify.zify_post_hook ::= idtac.

Lemma dec_in (l : list node) n : In n l \/ ~ In n l. Proof. destruct (in_dec Nat.eq_dec n l); auto. Qed.

Lemma pop_ok s q p : R s q -> legal (msize s) q (Pop p) -> step_ok s q (Pop p).
Proof.
  intros HR (k & h & v & Ep). destruct (parent_facts _ _ _ _ _ _ HR Ep) as (L & I0 & T & ND & Lk & V & K & Np & B).
  unfold step_ok. cbn [exec spec_exec]. rewrite Ep. destruct k as [|c r].
  { exists s. cbn [fst snd]. unfold popChained. rewrite I0. auto. }
  cbn [fst snd]. assert (Nc : p <> c) by (intros ->; apply Np; now left).
  assert (X : exists s', popChained s p = Some (s', OItem c) /\ agree (fun n => In n (p :: c :: r)) s s' /\ log s' = log s /\
    live s' p = true /\ it s' p = mkItem false (nonempty r) 0 None (S h) v v /\ tbl s' p = hd_error r /\
    live s' c = true /\ it s' c = mkItem true false p None 1 false false /\ tbl s' c = tbl s c /\
    links s' p true r /\ (forall x, In x r -> tbl s' x = tbl s x)).
  { unfold popChained, findChained. rewrite I0, T. cbn [haschain nonempty negb hd_error]. destruct Lk as (Lc & Ic & Lr).
    inversion ND as [|? ? Ncr ND']; subst. destruct r as [|x r]; cbn [hd_error] in *.
    - unfold incRef, tblRemove. run. unfold decRef. run. eexists. split; [reflexivity|]. sp; try (run; reflexivity || exact Logic.I || contradiction).
      agr.
    - destruct Lr as (Lx & Ix & Lr). assert (Nxc : x <> c) by (intros ->; apply Ncr; now left).
      assert (Nxp : x <> p) by (intros ->; apply Np; right; now left).
      unfold incRef, insertOrReplace. run. unfold incRef, release, decRef. run. eexists. split; [reflexivity|].
      inversion ND' as [|? ? Nxr ND'']; subst. sp; try (run; reflexivity).
      + agr.
      + split; [run; reflexivity|]. split; [run; reflexivity|]. eapply links_frame; [|exact Lr]. intros y Iy. nrm.
        repeat (rewrite updf_other by (intros ->; first [contradiction|apply Np; right; now right|apply Ncr; now right])). auto.
      + intros y Iy. nrm. rewrite updf_other; [reflexivity|]. intros ->. apply Np. right. exact Iy. }
  destruct X as (s' & E & A & G & X1 & X2 & X3 & X4 & X5 & X6 & X7 & X8). exists s'. split; [exact E|].
  inversion ND as [|? ? Ncr ND']; subst.
  apply (step s q s' _ (fun n => In n (p :: c :: r)) HR).
  - exact (fam_closed _ _ _ _ _ _ HR Ep).
  - exact A.
  - intros n Nn. rewrite !who_set_other; auto; intros ->; apply Nn; cbn; auto.
  - rewrite G. destruct HR as (-> & _). reflexivity.
  - intros n Pn _. destruct HR as (_ & Bd & _). apply Bd. destruct Pn as [<-|Pn]; [congruence|rewrite (K n Pn); discriminate].
  - intros n [<-|[<-|Pn]]; unfold Rn.
    + rewrite who_set_other, who_set_same by auto. sp; auto. intros x Ix. rewrite !who_set_other.
      * apply K. now right. * intros ->. apply Np. now right. * intros ->. contradiction.
    + rewrite who_set_same. rewrite X6. sp; auto. exact (proj1 (proj2 (linked_facts _ _ _ _ HR (K c (or_introl eq_refl))))).
    + rewrite !who_set_other; [|intros ->; apply Np; now right|intros ->; contradiction]. rewrite (K n (or_intror Pn)).
      destruct (links_in _ _ _ _ _ X7 Pn) as (Y1 & _). split; [exact Y1|]. split.
      * rewrite (X8 n Pn). exact (proj1 (proj2 (linked_facts _ _ _ _ HR (K n (or_intror Pn))))).
      * exists r, (S h), v. rewrite who_set_other, who_set_same by auto. auto.
  - intros n. apply dec_in.
Qed.

(** * Transfer *)
Fixpoint alinks (s : cache) (k : list node) : Prop :=
  match k with
  | [] => True
  | c :: r => live s c = true /\ next (it s c) = hd_error r /\ acc (it s c) = false /\ alinks s r
  end.
Lemma alinks_frame s s' k : (forall c, In c k -> live s' c = live s c /\ it s' c = it s c) -> alinks s k -> alinks s' k.
Proof.
  induction k as [|c r IH]; intros E L; [exact Logic.I|]. destruct L as (L1 & L2 & L3 & L4). cbn [alinks].
  destruct (E c (or_introl eq_refl)) as (-> & ->). sp; auto. apply IH; [|exact L4]. intros x X. apply E. now right.
Qed.
Lemma links_alinks s p k : links s p false k -> alinks s k.
Proof.
  induction k as [|c r IH]; intros L; [exact Logic.I|]. destruct L as (L1 & L2 & L3). cbn [alinks]. rewrite L2. cbn. sp; auto.
Qed.
Definition withParent (i : item) (p : node) : item := mkItem (ischained i) (haschain i) p (next i) (refs i) (inmm i) (acc i).
Definition withHas (i : item) (b : bool) : item := mkItem (ischained i) b (parent i) (next i) (refs i) (inmm i) (acc i).
Lemma rekey_ok p2 : forall k s fuel, alinks s k -> NoDup k -> length k <= fuel ->
  exists s', rekey fuel s (hd_error k) p2 = Some (s', true) /\ msize s' = msize s /\ live s' = live s /\ tbl s' = tbl s /\ log s' = log s /\
    forall x, it s' x = if memb x k then withParent (it s x) p2 else it s x.
Proof.
  induction k as [|c r IH]; intros s fuel L ND F; [exists s; destruct fuel; auto 10|].
  destruct L as (L1 & L2 & L3 & L4). cbn in F. destruct fuel as [|f]; [lia|]. cbn [hd_error rekey]. rewrite L1, L3, L2.
  inversion ND as [|? ? Nc ND']; subst.
  destruct (IH (setParent s c p2) f) as (s' & E & A1 & A2 & A3 & A4 & A5); [|exact ND'|lia|].
  { eapply alinks_frame; [|exact L4]. intros x Ix. nrm. rewrite updf_other by (intros ->; contradiction). auto. }
  exists s'. rewrite E. sp; auto. intros x. rewrite A5. cbn [memb existsb]. fold (memb x r). nrm. unfold updf.
  destruct (Nat.eqb_spec x c) as [->|D]; [|reflexivity]. apply memb_false in Nc. rewrite Nc. reflexivity.
Qed.

Lemma transferLocked_ok s p p2 k : live s p = true -> live s p2 = true -> p <> p2 -> ~ In p k -> ~ In p2 k -> NoDup k -> length k <= msize s ->
  k <> [] -> tbl s p = hd_error k -> tbl s p2 = None -> haschain (it s p2) = false -> links s p true k ->
  exists s', transferLocked s p p2 = Some (s', true) /\ msize s' = msize s /\ live s' = live s /\ log s' = log s /\
    (forall x, ~ In x (p :: p2 :: k) -> it s' x = it s x) /\
    it s' p = withHas (it s p) false /\ it s' p2 = withHas (it s p2) true /\ links s' p2 true k /\
    tbl s' p = None /\ tbl s' p2 = hd_error k /\ (forall x, x <> p -> x <> p2 -> tbl s' x = tbl s x).
Proof.
  intros L L2 D Np Np2 ND B Ne T T2 H2 Lk. destruct k as [|c r]; [congruence|]. clear Ne. cbn [hd_error] in *.
  pose proof Lk as (Lc & Ic & Lr). unfold transferLocked. rewrite H2. unfold findChained. rewrite T.
  rewrite (incRef_at _ _ _ _ _ _ _ _ _ Lc Ic). unfold tblRemove. rewrite it_put, Nat.eqb_refl. cbn [acc parent].
  set (s2 := setAcc (setTbl (put s c _) p None) c false). inversion ND as [|? ? Nc ND']; subst.
  assert (I2 : forall x, it s2 x = if x =? c then mkItem true false p (hd_error r) 2 true false else it s x).
  { intros x. unfold s2. nrm. unfold updf. destruct (x =? c); [rewrite Nat.eqb_refl|]; reflexivity. }
  destruct (rekey_ok p2 (c :: r) s2 (S (msize s))) as (s3 & E & M3 & V3 & T3 & G3 & I3).
  { cbn [alinks]. rewrite I2, Nat.eqb_refl. cbn [next acc]. split; [exact Lc|]. split; [reflexivity|]. split; [reflexivity|]. eapply alinks_frame; [|exact (links_alinks _ _ _ Lr)].
    intros x Ix. rewrite I2. destruct (Nat.eqb_spec x c) as [->|]; [contradiction|]. split; reflexivity. }
  { exact ND. } { lia. }
  cbn [hd_error] in E. rewrite E. cbn [negb].
  assert (Npc : p <> c) by (intros ->; apply Np; now left). assert (Np2c : p2 <> c) by (intros ->; apply Np2; now left).
  assert (I3c : it s3 c = mkItem true false p2 (hd_error r) 2 true false).
  { rewrite I3. cbn [memb existsb]. rewrite Nat.eqb_refl. cbn [orb]. rewrite I2, Nat.eqb_refl. reflexivity. }
  assert (I3p : it s3 p = it s p).
  { rewrite I3, I2. apply memb_false in Np. rewrite Np. now rewrite (proj2 (Nat.eqb_neq p c)). }
  assert (I3p2 : it s3 p2 = it s p2).
  { rewrite I3, I2. apply memb_false in Np2. rewrite Np2. now rewrite (proj2 (Nat.eqb_neq p2 c)). }
  assert (T3p : tbl s3 p = None) by (rewrite T3; unfold s2; nrm; now rewrite updf_same).
  assert (T3p2 : tbl s3 p2 = None) by (rewrite T3; unfold s2; nrm; rewrite updf_other by auto; exact T2).
  assert (L3c : live s3 c = true) by (rewrite V3; exact Lc).
  unfold insertOrReplace. run. unfold release, decRef. run. eexists. split; [reflexivity|]. sp; try (run; reflexivity).
  - run. exact M3.
  - run. rewrite V3. reflexivity.
  - run. rewrite G3. reflexivity.
  - intros x Nx. nrm. repeat (rewrite updf_other by (intros ->; apply Nx; cbn; auto)). rewrite I3, I2.
    assert (Z : memb x (c :: r) = false) by (apply memb_false; intros Z; apply Nx; right; now right). rewrite Z.
    destruct (Nat.eqb_spec x c) as [->|]; [|reflexivity]. exfalso. apply Nx. cbn. auto.
  - run. rewrite I3p. reflexivity.
  - run. rewrite I3p2. reflexivity.
  - split; [run; reflexivity|]. split; [run; reflexivity|].
    assert (Z : forall l, incl l r -> links s p false l -> links
      (mkCache (msize s3) (updf (updf (updf (updf (it s3) p2 (mkItem (ischained (it s3 p2)) true (parent (it s3 p2)) (next (it s3 p2)) (refs (it s3 p2)) (inmm (it s3 p2)) (acc (it s3 p2)))) c
        (mkItem true false p2 (hd_error r) 2 true true)) p (mkItem (ischained (it s3 p)) false (parent (it s3 p)) (next (it s3 p)) (refs (it s3 p)) (inmm (it s3 p)) (acc (it s3 p)))) c
        (mkItem true false p2 (hd_error r) 1 true true)) (live s3) (updf (tbl s3) p2 (Some c)) (log s3)) p2 false l).
    { induction l as [|y l IH]; intros Il Ll; [exact Logic.I|]. destruct Ll as (A & A2 & A3).
      assert (Iy : In y r) by (apply Il; now left). cbn [links live it].
      split; [rewrite V3; exact A|]. split; [|apply IH; [intros z Iz; apply Il; now right|exact A3]].
      repeat (rewrite updf_other by (intros ->; first [contradiction|apply Np; now right|apply Np2; now right])).
      rewrite I3, I2. assert (Z : memb y (c :: r) = true) by (apply memb_in; now right). rewrite Z.
      destruct (Nat.eqb_spec y c) as [->|]; [contradiction|]. rewrite A2. reflexivity. }
    apply Z; [apply incl_refl|exact Lr].
  - intros x X1 X2. nrm. rewrite updf_other by exact X2. rewrite T3. unfold s2. nrm. rewrite updf_other by exact X1. reflexivity.
Qed.
