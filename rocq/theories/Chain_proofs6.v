(** Proofs for C15, part 6: replacing an item of a chain. *)
From Verif Require Import Bytes DList_model DList_spec Chain_model Chain_spec Chain_proofs Chain_proofs2 Chain_proofs3 Chain_proofs4 Chain_proofs5.
Ltac Zify.zify_post_hook ::= idtac.

Definition isnil (l : list node) : bool := negb (nonempty l).
(** The items before [z]. *)
Fixpoint llinks (s : cache) (p : node) (a : bool) (l : list node) (z : ptr) : Prop :=
  match l with
  | [] => True
  | c :: r => live s c = true /\ it s c = mkItem true false p (match r with [] => z | x :: _ => Some x end) 1 true a /\ llinks s p false r z
  end.
Lemma links_app s p l o b : forall a, links s p a (l ++ o :: b) <->
  llinks s p a l (Some o) /\ live s o = true /\ it s o = mkItem true false p (hd_error b) 1 true (a && isnil l) /\ links s p false b.
Proof.
  induction l as [|c r IH]; intros a; cbn [app links llinks isnil nonempty negb].
  - rewrite andb_true_r. tauto.
  - rewrite IH, andb_false_r. cbn [andb]. replace (hd_error (r ++ o :: b)) with (match r with [] => Some o | x :: _ => Some x end) by (destruct r; reflexivity).
    tauto.
Qed.
Lemma llinks_frame s s' p l z : forall a, (forall x, In x l -> it s' x = it s x /\ live s' x = live s x) -> llinks s p a l z -> llinks s' p a l z.
Proof.
  induction l as [|c r IH]; intros a E L; [exact Logic.I|]. destruct L as (L1 & L2 & L3). destruct (E c (or_introl eq_refl)) as (E1 & E2).
  cbn [llinks]. rewrite E1, E2. sp; auto. apply IH; [|exact L3]. intros x X. apply E. now right.
Qed.
Lemma NoDup_app_l (l r : list node) : NoDup (l ++ r) -> NoDup l.
Proof.
  induction l as [|x l IH]; intros ND; [constructor|]. inversion ND; subst. constructor; auto. intros X. apply H1. apply in_or_app. auto.
Qed.
Definition withNext (i : item) (x : ptr) : item := mkItem (ischained i) (haschain i) (parent i) x (refs i) (inmm i) (acc i).
Lemma last_in (r : list node) : forall c d, In (last (c :: r) d) (c :: r).
Proof. induction r as [|x r IH]; intros c d; [now left|]. right. apply (IH x d). Qed.
Lemma llinks_set s s' p l z z' d : forall a, NoDup l -> llinks s p a l z -> (forall x, In x l -> live s' x = live s x) ->
  (forall x, In x l -> it s' x = if x =? last l d then withNext (it s x) z' else it s x) -> llinks s' p a l z'.
Proof.
  induction l as [|c r IH]; intros a ND L V E; [exact Logic.I|]. destruct L as (L1 & L2 & L3). inversion ND as [|? ? Nc ND']; subst.
  cbn [llinks]. rewrite (V c), (E c) by now left. destruct r as [|x r].
  - cbn [last]. rewrite Nat.eqb_refl, L2. sp; auto.
  - assert (D : c <> last (c :: x :: r) d). { intros X. apply Nc. rewrite X. exact (last_in r x d). }
    rewrite (proj2 (Nat.eqb_neq _ _) D). sp; auto. apply IH; auto.
    + intros y Iy. apply V. now right.
    + intros y Iy. apply E. now right.
Qed.
Lemma llinks_last s p z r : forall a c d, llinks s p a (c :: r) z -> exists b, it s (last (c :: r) d) = mkItem true false p z 1 true b /\ live s (last (c :: r) d) = true.
Proof.
  induction r as [|x r IH]; intros a c d (L1 & L2 & L3); [eauto|]. exact (IH false x d L3).
Qed.
(** Only liveness and next pointers. *)
Fixpoint nlinks (s : cache) (l : list node) (z : ptr) : Prop :=
  match l with [] => True | c :: r => live s c = true /\ next (it s c) = (match r with [] => z | x :: _ => Some x end) /\ nlinks s r z end.
Lemma llinks_nlinks s s' p l z : forall a, llinks s p a l z ->
  (forall x, In x l -> live s' x = live s x /\ next (it s' x) = next (it s x)) -> nlinks s' l z.
Proof.
  induction l as [|c r IH]; intros a L E; [exact Logic.I|]. destruct L as (L1 & L2 & L3). destruct (E c (or_introl eq_refl)) as (E1 & E2).
  cbn [nlinks]. rewrite E1, E2, L2. sp; auto. eapply IH; [exact L3|]. intros x X. apply E. now right.
Qed.
Lemma findPrev_ok s o l : forall h fuel d, nlinks s (h :: l) (Some o) -> ~ In o l -> length l <= fuel ->
  findPrev fuel s h (next (it s h)) o = Some (last (h :: l) d).
Proof.
  induction l as [|x l IH]; intros h fuel d (L1 & L2 & L3) No F; rewrite L2.
  - destruct fuel; cbn; now rewrite Nat.eqb_refl.
  - cbn in F. destruct fuel as [|f]; [lia|]. cbn [findPrev].
    rewrite (proj2 (Nat.eqb_neq x o)) by (intros ->; apply No; now left). destruct L3 as (L3 & L3'). rewrite L3.
    rewrite (IH x f d); [reflexivity|split; auto| |lia]. intros X. apply No. now right.
Qed.

Lemma replace_node_app l o n b : NoDup (l ++ o :: b) -> replace_node (l ++ o :: b) o n = l ++ n :: b.
Proof.
  intros ND. apply NoDup_remove_2 in ND.
  assert (Z : forall m, ~ In o m -> replace_node m o n = m).
  { induction m as [|x m IH]; intros N; [reflexivity|]. cbn. rewrite (proj2 (Nat.eqb_neq x o)) by (intros ->; apply N; now left).
    f_equal. apply IH. intros X. apply N. now right. }
  unfold replace_node in *. rewrite map_app. cbn [map]. rewrite Nat.eqb_refl. rewrite !Z; auto; intros X; apply ND; apply in_or_app; auto.
Qed.

Lemma replaceInChain_ok s o n p l b ro mo fm : let k := l ++ o :: b in
  NoDup k -> ~ In n k -> ~ In p k -> length k <= msize s ->
  llinks s p true l (Some o) -> live s o = true -> it s o = mkItem true false p (hd_error b) (S ro) mo (isnil l) -> links s p false b ->
  live s n = true -> it s n = mkItem true false p None 1 true false -> tbl s p = hd_error k -> (fm = false -> ro <> 0) ->
  exists s', replaceInChain s o n p fm = Some s' /\ msize s' = msize s /\ live s' = live s /\ log s' = log s /\
    tbl s' p = hd_error (l ++ n :: b) /\ (forall x, x <> p -> tbl s' x = tbl s x) /\
    (forall x, ~ In x k -> x <> n -> it s' x = it s x) /\
    it s' o = mkItem true false p None ro mo false /\ it s' n = mkItem true false p (hd_error b) 2 true (isnil l) /\
    llinks s' p true l (Some n) /\ links s' p false b.
Proof.
  intros k ND Nn Np B Ll Lo Io Lb Ln In' T Hf.
  assert (Dno : n <> o) by (intros ->; apply Nn; apply in_elt).
  assert (Dpo : p <> o) by (intros ->; apply Np; apply in_elt).
  assert (Nob : ~ In o b) by (apply NoDup_remove_2 in ND; intros X; apply ND; apply in_or_app; auto).
  assert (Nnb : ~ In n b) by (intros X; apply Nn; apply in_or_app; right; now right).
  unfold replaceInChain, findChained. rewrite T. destruct l as [|h l].
  - subst k. cbn [app hd_error] in *. rewrite (incRef_at _ _ _ _ _ _ _ _ _ Lo Io). rewrite Nat.eqb_refl.
    unfold insertOrReplace. run. unfold incRef. run. unfold release, decRef. run.
    destruct fm.
    + unfold incRef, release, decRef. run. eexists. split; [reflexivity|]. sp; try (run; reflexivity || exact Logic.I).
      * intros x X. run. reflexivity.
      * intros x X1 X2. nrm. rewrite !updf_other; auto; intros ->; apply X1; now left.
      * eapply links_frame; [|exact Lb]. intros x Ix. nrm. rewrite !updf_other by (intros ->; contradiction). auto.
    + destruct ro as [|ro]; [exfalso; now apply Hf|].
      unfold incRef, release, decRef. run. eexists. split; [reflexivity|]. sp; try (run; reflexivity || exact Logic.I).
      * intros x X. run. reflexivity.
      * intros x X1 X2. nrm. rewrite !updf_other; auto; intros ->; apply X1; now left.
      * eapply links_frame; [|exact Lb]. intros x Ix. nrm. rewrite !updf_other by (intros ->; contradiction). auto.
  - cbn [app] in k. subst k. cbn [app hd_error isnil nonempty negb] in *. pose proof Ll as (Lh & Ih & Ll').
    inversion ND as [|? ? Nh ND']; subst.
    assert (Dho : h <> o) by (intros ->; apply Nh; apply in_elt).
    assert (Dhn : h <> n) by (intros ->; apply Nn; now left).
    rewrite (incRef_at _ _ _ _ _ _ _ _ _ Lh Ih). rewrite (proj2 (Nat.eqb_neq h o)) by exact Dho. set (s1 := put s h _).
    assert (Nol : ~ In o l). { apply NoDup_remove_2 in ND'. intros X. apply ND'. apply in_or_app. auto. }
    rewrite (findPrev_ok s1 o l h (S (msize s)) h).
    2:{ eapply llinks_nlinks; [exact Ll|]. intros x Ix. unfold s1. nrm. split; [reflexivity|]. unfold updf. destruct (Nat.eqb_spec x h) as [->|]; [|reflexivity].
        rewrite Ih. reflexivity. }
    2: exact Nol.
    2:{ cbn [length] in B. rewrite app_length in B. lia. }
    set (pr := last (h :: l) h).
    assert (Ipr : In pr (h :: l)) by apply last_in.
    assert (Nnl : ~ In n (h :: l)). { intros X. apply Nn. apply (in_or_app (h :: l)). auto. }
    assert (Dpn : pr <> n) by (intros Z; apply Nnl; rewrite <- Z; exact Ipr).
    assert (Dpo' : pr <> o) by (intros Z; rewrite Z in Ipr; destruct Ipr; [congruence|contradiction]).
    destruct (llinks_last s p (Some o) l true h h Ll) as (bb & Ilast & Llast). fold pr in Ilast, Llast.
    set (s3 := setNext (setNext (setNext s1 pr (Some n)) n _) o None).
    assert (S3 : msize s3 = msize s /\ live s3 = live s /\ log s3 = log s /\ tbl s3 = tbl s) by (unfold s3, s1; auto).
    destruct S3 as (M3 & V3 & G3 & T3).
    assert (I3o : it s3 o = mkItem true false p None (S ro) mo false).
    { unfold s3, s1. run. reflexivity. }
    assert (I3n : it s3 n = mkItem true false p (hd_error b) 1 true false).
    { unfold s3, s1. run. reflexivity. }
    assert (I3x : forall x, x <> o -> x <> n -> x <> h -> it s3 x = if x =? pr then withNext (it s x) (Some n) else it s x).
    { intros x X1 X2 X3. unfold s3, s1. nrm. rewrite !(updf_other _ o), !(updf_other _ n) by auto. unfold updf.
      destruct (Nat.eqb_spec x pr) as [->|]; rewrite (proj2 (Nat.eqb_neq _ h)) by auto; reflexivity. }
    assert (I3h : it s3 h = mkItem true false p (match l with [] => Some n | x :: _ => Some x end) 2 true true).
    { unfold s3, s1. nrm. rewrite !(updf_other _ o), !(updf_other _ n) by auto. destruct l as [|x l].
      - subst pr. cbn [last]. rewrite !updf_same. reflexivity.
      - assert (D : h <> pr). { intros Z. apply Nh. apply in_or_app. left. rewrite Z. subst pr. exact (last_in l x h). }
        rewrite !updf_other by auto. now rewrite updf_same. }
    assert (X : exists s', (if fm then let* s4 := release s3 h false in let* s5 := decRef s4 o in incRef s5 n
        else let* s4 := decRef s3 o in let* s5 := incRef s4 n in release s5 h false) = Some s' /\ msize s' = msize s /\ live s' = live s /\ log s' = log s /\ tbl s' = tbl s /\
        it s' o = mkItem true false p None ro mo false /\ it s' n = mkItem true false p (hd_error b) 2 true false /\
        it s' h = mkItem true false p (match l with [] => Some n | x :: _ => Some x end) 1 true true /\
        forall x, x <> o -> x <> n -> x <> h -> it s' x = it s3 x).
    { assert (live s3 h = true) by (rewrite V3; exact Lh). assert (live s3 o = true) by (rewrite V3; exact Lo). assert (live s3 n = true) by (rewrite V3; exact Ln).
      clearbody s3. destruct fm; unfold release, decRef, incRef; run; unfold release, decRef, incRef; run; eexists; (split; [reflexivity|]); sp; auto; try (run; reflexivity);
        intros x X1 X2 X3; nrm; rewrite !updf_other; auto. }
    destruct X as (s' & E' & M' & V' & G' & T' & I'o & I'n & I'h & I'x). exists s'.
    split; [exact E'|]. sp; auto; try congruence.
    + intros x Nx Dx. rewrite I'x, I3x; try (intros ->; apply Nx; (now left) || (right; apply in_elt)); auto.
      rewrite (proj2 (Nat.eqb_neq x pr)); [reflexivity|]. intros ->. apply Nx. apply (in_or_app (h :: l)). now left.
    + cbn [llinks]. rewrite V', I'h. sp; auto. destruct l as [|x l]; [exact Logic.I|]. eapply (llinks_set s s' p (x :: l) (Some o) (Some n) h).
      * exact (NoDup_app_l _ _ ND').
      * exact Ll'.
      * intros y Iy. now rewrite V'.
      * intros y Iy. assert (y <> h). { intros ->. apply Nh. apply in_or_app. now left. }
        assert (y <> o) by (intros ->; contradiction). assert (y <> n) by (intros ->; apply Nnl; now right).
        rewrite I'x, I3x by auto. reflexivity.
    + eapply links_frame; [|exact Lb]. intros x Ix. assert (x <> o) by (intros ->; contradiction). assert (x <> n) by (intros ->; contradiction).
      assert (x <> h). { intros ->. apply Nh. apply in_or_app. right. now right. }
      rewrite I'x, I3x, V' by auto. split; [|reflexivity]. rewrite (proj2 (Nat.eqb_neq x pr)); [reflexivity|]. intros Z.
      assert (ND2 : NoDup ((h :: l) ++ o :: b)) by exact ND. rewrite <- Z in Ipr. clear - ND2 Ipr Ix. revert Ipr. generalize dependent (h :: l). intros m ND2 Im.
      apply in_split in Im. destruct Im as (m1 & m2 & ->). rewrite <- app_assoc in ND2. apply NoDup_remove_2 in ND2. apply ND2.
      apply in_or_app. right. apply in_or_app. right. now right.
Qed.
