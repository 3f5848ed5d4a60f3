(** Every step preserves the invariant. *)
From Coq Require Import Permutation.
From Verif Require Import Bytes Compress_model AllocClass_model AllocClass_spec AllocClass_proofs.

Section Steps.
Context (c : acfg) (LC : legalCfg c).
Local Notation al := (al c). Local Notation relT := (relT c). Local Notation unc := (unc c).
Local Notation InvA := (InvA c).

Ltac prj := cbn [sAc sLk live freeing ctxs curS curOff allocd freeS freed canA relMap nActive fst snd] in *.
Ltac inv0 I := destruct I as [Isl Ihd Imk Icu Icn Iln Irl Ifr Iph Icx Iac].

Lemma per_pos : 0 < perSlab c.
Proof. apply (fits_per c LC 0). destruct LC. lia. Qed.
Lemma b2n_le b : b2n b <= 1. Proof. destruct b; cbn; lia. Qed.

Lemma unc_carve s k m : k < perSlab c ->
  b2n (unc (Some s) (N.of_nat k * cSize c) m) =
  b2n (aeqb (allocForIdx c s k) m) + b2n (unc (Some s) (N.of_nat (S k) * cSize c) m).
Proof.
  intros K. unfold AllocClass_proofs.unc. pose proof (sz_pos c LC) as SP.
  destruct (Nat.eqb_spec s (fst m)) as [E|E]; cbn [andb].
  2:{ destruct (aeqb (allocForIdx c s k) m) eqn:Q; [|reflexivity]. apply aeqb_eq in Q. subst m. cbn in E. congruence. }
  destruct (al m) eqn:A; [|rewrite !andb_false_r].
  2:{ destruct (aeqb (allocForIdx c s k) m) eqn:Q; [|reflexivity]. apply aeqb_eq in Q. subst m.
      rewrite allocForIdx_al in A by auto. discriminate. }
  rewrite !andb_true_r. apply al_form in A as (i & Hi & Em); [|exact LC].
  rewrite Em. cbn [snd allocForIdx].
  destruct (aeqb (allocForIdx c s k) (allocForIdx c (fst m) i)) eqn:Q.
  - apply aeqb_eq in Q. apply (f_equal (allocIdx c)) in Q. rewrite !allocIdx_for in Q by exact LC. subst i.
    destruct (N.leb_spec (N.of_nat k * cSize c) (N.of_nat k * cSize c)); [|lia].
    destruct (N.leb_spec (N.of_nat (S k) * cSize c) (N.of_nat k * cSize c)); [nia|]. reflexivity.
  - assert (k <> i). { intros ->. rewrite E, aeqb_refl in Q. discriminate. }
    destruct (N.leb_spec (N.of_nat k * cSize c) (N.of_nat i * cSize c)); destruct (N.leb_spec (N.of_nat (S k) * cSize c) (N.of_nat i * cSize c)); try reflexivity; exfalso; nia.
Qed.
Lemma unc_full s k m : ~ k < perSlab c -> unc (Some s) (N.of_nat k * cSize c) m = false.
Proof.
  intros K. unfold AllocClass_proofs.unc. destruct (al m) eqn:A; [|rewrite !andb_false_r; reflexivity].
  apply al_form in A as (i & Hi & Em); [|exact LC]. rewrite Em. cbn [snd fst allocForIdx]. pose proof (sz_pos c LC).
  destruct (N.leb_spec (N.of_nat k * cSize c) (N.of_nat i * cSize c)); [nia|]. rewrite andb_false_r. reflexivity.
Qed.
Lemma unc_zero s m : unc (Some s) 0 m = (s =? fst m) && al m.
Proof. unfold AllocClass_proofs.unc. destruct (N.leb_spec 0 (snd m)); [|lia]. rewrite andb_true_r. reflexivity. Qed.

Lemma carve_inv a k lv fg cx h s j : InvA a k lv fg cx h -> curS a = Some s -> curOff a = (N.of_nat j * cSize c)%N ->
  j < perSlab c ->
  InvA (mkAc (Some s) (curOff a + cSize c) (allocd a) (freeS a) (freed a) (canA a) (relMap a) (nActive a)) k
    ((s, curOff a) :: lv) fg cx h.
Proof.
  intros I C O J. inv0 I. constructor; prj; auto.
  - intros t E. inversion E; subst t. destruct (Icu s C) as [? _]. split; [auto|]. exists (S j). split; [lia|]. rewrite O. lia.
  - intros m. specialize (Icn m). rewrite C, O in Icn. rewrite (unc_carve s j m J) in Icn.
    cbn [cA]. rewrite O. replace (N.of_nat j * cSize c + cSize c)%N with (N.of_nat (S j) * cSize c)%N by lia.
    change (s, (N.of_nat j * cSize c)%N) with (allocForIdx c s j). lia.
Qed.

Lemma cA_zero_of s a k lv fg cx h : InvA a k lv fg cx h -> cS s (allocd a) + b2n (inR (relMap a) s) = 0 ->
  forall m, fst m = s -> cA m lv = 0 /\ cA m fg = 0 /\ cA m (freed a) = 0 /\ cA m (offl k) = 0 /\
     b2n (relT (relMap a) m) = 0 /\ b2n (unc (curS a) (curOff a) m) = 0.
Proof. intros I Z m E. pose proof (i_cnt _ _ _ _ _ _ _ I m) as Q. rewrite E, Z in Q. cbn in Q. lia. Qed.

Lemma setup_inv a k lv fg cx h l s : InvA a k lv fg cx h -> freeS a = l ++ [s] ->
  (forall m, unc (curS a) (curOff a) m = false) ->
  InvA (mkAc (Some s) 0 (allocd a ++ [s]) l (freed a) (canA a) (relMap a) (nActive a)) k lv fg cx h.
Proof.
  intros I F U. pose proof (cA_zero_of s a k lv fg cx h I) as Z0. inv0 I.
  assert (Q : forall t, cS t (allocd a ++ [s]) + cS t l = cS t (allocd a) + cS t (freeS a)).
  { intros t. rewrite F, !cS_app. cbn [cS]. lia. }
  assert (One : cS s (allocd a) + b2n (inR (relMap a) s) = 0).
  { pose proof (Isl s) as L. rewrite F, cS_app in L. cbn [cS] in L. rewrite Nat.eqb_refl in L. cbn [b2n Nat.b2n] in L. change (Nat.b2n true) with 1 in L. lia. }
  constructor; prj; auto.
  - intros t. rewrite Q. apply Isl.
  - intros t. rewrite Q. apply Ihd.
  - intros t. rewrite Q. apply Imk.
  - intros t E. inversion E; subst t. split; [rewrite cS_app; cbn; rewrite Nat.eqb_refl; cbn; lia|]. exists 0. split; [lia|reflexivity].
  - intros m. rewrite unc_zero. specialize (Icn m). rewrite U in Icn. rewrite cS_app. cbn [cS].
    destruct (Nat.eqb_spec s (fst m)) as [E|E].
    + specialize (Z0 One m (eq_sym E)). rewrite <- E in *. cbn [andb]. destruct (al m); cbn [b2n Nat.b2n] in *; lia.
    + cbn [andb b2n Nat.b2n] in *. lia.
  - destruct k as [|t [| | | |]|t]; auto. cbn in *. rewrite Q. exact Iph.
Qed.

Lemma alloc_inv a k lv fg cx h a' r : InvA a k lv fg cx h -> allocateLocked c a = (a', r) ->
  InvA a' k (optL r ++ lv) fg cx h.
Proof.
  intros I E. unfold allocateLocked in E. destruct (freed a) as [|x fr] eqn:F.
  - destruct (canCarve c a) eqn:CC.
    + unfold canCarve in CC. unfold carve in E. destruct (curS a) as [s|] eqn:C; [|discriminate]. inversion E; subst. cbn [optL app].
      destruct (i_cur _ _ _ _ _ _ _ I s C) as (_ & j & J & O). idtac.
      eapply carve_inv; eauto. apply (fits_per c LC j). rewrite <- O. apply N.leb_le. exact CC.
    + destruct (freeS a) as [|y fs] eqn:FS.
      * inversion E; subst. cbn [optL app]. rewrite <- F, <- FS. inv0 I. constructor; prj; auto.
      * destruct (rev (freeS a)) as [|s rl] eqn:RV.
        { apply (f_equal (@rev nat)) in RV. rewrite rev_involutive in RV. rewrite FS in RV. discriminate. }
        assert (FE : freeS a = rev rl ++ [s]). { apply (f_equal (@rev nat)) in RV. rewrite rev_involutive in RV. exact RV. }
        unfold setupCurrent in E. rewrite RV in E. unfold carve in E. prj. inversion E; subst. cbn [optL app].
        assert (U : forall m, unc (curS a) (curOff a) m = false).
        { intros m. unfold canCarve in CC. destruct (curS a) as [t|] eqn:C; [|reflexivity].
          destruct (i_cur _ _ _ _ _ _ _ I t C) as (_ & j & J & O). rewrite O. apply unc_full.
          rewrite <- (fits_per c LC j), <- O. apply N.leb_gt in CC. lia. }
        rewrite FE, removelast_last.
        pose proof (setup_inv _ _ _ _ _ _ _ _ I FE U) as I2.
        refine (carve_inv _ _ _ _ _ _ _ 0 I2 _ _ per_pos); reflexivity.
  - inversion E; subst. cbn [optL app]. inv0 I. constructor; prj; auto.
    + intros m. specialize (Icn m). rewrite F in Icn. cbn [cA] in *. lia.
    + intros m H. apply Ifr. rewrite F. right. exact H.
Qed.

Lemma addSlab_inv a k lv fg cx h s a' h' : InvA a k lv fg cx h -> ~ owns a s -> hPool (h s) = Some (cPool c) -> hMark (h s) = false ->
  addSlabLocked c a h s = (a', h') -> InvA a' k lv fg cx h'.
Proof.
  intros I NO HP HM E. unfold addSlabLocked in E. inversion E; subst. clear E.
  assert (Z0 : cS s (allocd a) = 0 /\ cS s (freeS a) = 0 /\ inR (relMap a) s = false).
  { unfold owns in NO. repeat split.
    - destruct (cS s (allocd a)) eqn:Q; [reflexivity|]. exfalso. apply NO. left. apply cS_In. lia.
    - destruct (cS s (freeS a)) eqn:Q; [reflexivity|]. exfalso. apply NO. right; left. apply cS_In. lia.
    - unfold inR. destruct (relMap a s) eqn:Q; [|reflexivity]. exfalso. apply NO. right; right. congruence. }
  destruct Z0 as (Z1 & Z2 & Z3). inv0 I. constructor; prj; auto.
  - intros t. specialize (Isl t). rewrite cS_app. cbn [cS]. destruct (Nat.eqb_spec s t) as [<-|]; cbn [b2n Nat.b2n] in *.
    + rewrite Z1, Z2, Z3. cbn. lia.
    + lia.
  - intros t. specialize (Ihd t). rewrite cS_app. cbn [cS]. unfold hdrOurs, fupd in *. rewrite (Nat.eqb_sym t s). destruct (Nat.eqb_spec s t) as [<-|]; cbn [b2n Nat.b2n].
    + cbn. split; [lia|auto].
    + rewrite Ihd. lia.
  - intros t. specialize (Imk t). rewrite cS_app. cbn [cS]. unfold fupd. rewrite (Nat.eqb_sym t s). destruct (Nat.eqb_spec s t) as [<-|]; cbn [b2n Nat.b2n].
    + intros _. cbn. rewrite Z3. exact HM.
    + intros H. apply Imk. lia.
  - destruct k as [|t [| | | |]|t]; auto. cbn in *. rewrite cS_app. lia.
Qed.

Lemma relT_upd_other r s v m : fst m <> s -> relT (fupd r s v) m = relT r m.
Proof. intros. unfold AllocClass_proofs.relT, fupd. destruct (Nat.eqb_spec (fst m) s); [contradiction|reflexivity]. Qed.
Lemma inR_upd r s v t : inR (fupd r s v) t = if t =? s then isSome v else inR r t.
Proof. unfold inR, fupd. destruct (t =? s); reflexivity. Qed.

(** Setting a bit. *)
Lemma relT_set r s v i v' m : r s = Some v -> setTrue v i = Some v' ->
  relT (fupd r s (Some v')) m = relT r m || ((fst m =? s) && (allocIdx c m =? i) && al m).
Proof.
  intros R E. destruct (setTrue_inv _ _ _ E) as (_ & _ & X).
  unfold AllocClass_proofs.relT, fupd. destruct (Nat.eqb_spec (fst m) s) as [->|NE]; cbn [andb]; [|rewrite orb_false_r; reflexivity].
  rewrite R, X. destruct (Nat.eqb_spec (allocIdx c m) i); cbn [andb]; [|rewrite orb_false_r; reflexivity].
  destruct (al m), (nth (allocIdx c m) v false); reflexivity.
Qed.
Lemma relT_mono r s v i v' m : r s = Some v -> setTrue v i = Some v' -> relT r m = true -> relT (fupd r s (Some v')) m = true.
Proof. intros R E T. rewrite (relT_set r s v i v' m R E), T. reflexivity. Qed.

(** Bits only get set: what the rest of the invariant says about the map survives. *)
Lemma covers_mono r r' s act : (forall m, relT r m = true -> relT r' m = true) -> covers c r s act -> covers c r' s act.
Proof. intros M [A B]. split; [exact A|]. intros m E L. destruct (B m E L); auto. Qed.
Lemma ctxOk_mono r r' x : (forall m, relT r m = true -> relT r' m = true) -> ctxOk c r x -> ctxOk c r' x.
Proof. intros M [A B]. split; [eapply covers_mono; eauto|]. intros P m E L. apply M. auto. Qed.
Lemma phOk_mono r r' l1 l2 k : (forall m, relT r m = true -> relT r' m = true) -> (forall s, r s = None -> r' s = None) ->
  phOk c r l1 l2 k -> phOk c r' l1 l2 k.
Proof.
  intros M NN. destruct k as [|t [| | | |]|t]; auto.
  - cbn. intros (A & B & C). split; [exact A|]. split; [exact B|]. intros m H. destruct (C m H); auto.
  - cbn. apply covers_mono. exact M.
Qed.

Lemma free_inv a k lv fg cx h m a' : InvA a k lv fg cx h -> In m fg -> freeLocked c a h m = Some a' ->
  InvA a' k lv (remA m fg) cx h.
Proof.
  intros I IM E. pose proof (fun m' => cA_remA m m' fg IM) as RM.
  pose proof (i_cnt _ _ _ _ _ _ _ I m) as Cm. apply cA_In in IM.
  assert (AL : al m = true) by (destruct (al m); [reflexivity|cbn in Cm; lia]).
  rewrite AL in Cm. cbn [b2n Nat.b2n] in Cm. rewrite Nat.mul_1_r in Cm.
  unfold freeLocked in E. destruct (hMark (h (fst m))) eqn:HM.
  - destruct (relMap a (fst m)) as [v|] eqn:R; [|discriminate].
    destruct (nth_error v (allocIdx c m)) as [[|]|] eqn:NE; try discriminate.
    destruct (setTrue v (allocIdx c m)) as [v'|] eqn:ST; [|discriminate]. inversion E; subst. clear E.
    assert (RT : relT (relMap a) m = false).
    { unfold AllocClass_proofs.relT. rewrite R. rewrite (nth_error_nth v _ false NE). reflexivity. }
    assert (RS : forall m', b2n (relT (fupd (relMap a) (fst m) (Some v')) m') = b2n (relT (relMap a) m') + b2n (aeqb m m')).
    { intros m'. rewrite (relT_set _ _ _ _ _ m' R ST).
      destruct (aeqb m m') eqn:Q.
      - apply aeqb_eq in Q. subst m'. rewrite RT, AL, !Nat.eqb_refl. reflexivity.
      - replace ((fst m' =? fst m) && (allocIdx c m' =? allocIdx c m) && al m') with false; [rewrite orb_false_r; cbn; lia|].
        symmetry. apply not_true_is_false. intros T. apply andb_true_iff in T as [T T3]. apply andb_true_iff in T as [T1 T2].
        apply Nat.eqb_eq in T1, T2. rewrite (al_idx c LC m m') in Q; auto; [rewrite aeqb_refl in Q; discriminate]. }
    assert (RI : forall t, inR (fupd (relMap a) (fst m) (Some v')) t = inR (relMap a) t).
    { intros t. rewrite inR_upd. unfold inR. destruct (Nat.eqb_spec t (fst m)) as [->|]; [rewrite R|]; reflexivity. }
    assert (MO : forall m', relT (relMap a) m' = true -> relT (fupd (relMap a) (fst m) (Some v')) m' = true).
    { intros m'. eapply relT_mono; eauto. }
    assert (NNo : forall t, relMap a t = None -> fupd (relMap a) (fst m) (Some v') t = None).
    { intros t H. unfold fupd. destruct (Nat.eqb_spec t (fst m)) as [->|]; [congruence|exact H]. }
    inv0 I. constructor; prj; auto.
    + intros t. rewrite RI. apply Isl.
    + intros t. rewrite RI. apply Ihd.
    + intros t. rewrite RI. apply Imk.
    + intros m'. specialize (Icn m'). specialize (RM m'). rewrite RI, RS. lia.
    + intros t w. unfold fupd. destruct (Nat.eqb_spec t (fst m)) as [->|]; [|apply Iln].
      intros W. inversion W; subst. destruct (setTrue_inv _ _ _ ST) as (_ & L & _). rewrite L. eapply Iln; eauto.
    + intros t. rewrite RI. apply Irl.
    + intros m' H. destruct (Ifr m' H) as [X|X]; auto.
    + eapply phOk_mono; eauto.
    + intros x H. eapply ctxOk_mono; eauto.
  - inversion E; subst. clear E. inv0 I.
    assert (RN : relMap a (fst m) = None).
    { pose proof (Imk (fst m)) as Q. unfold inR in *. destruct (relMap a (fst m)) eqn:R; [|reflexivity].
      cbn [isSome b2n Nat.b2n] in *. exfalso. rewrite Q in HM; [discriminate|lia]. }
    constructor; prj; auto.
    + intros m'. specialize (Icn m'). specialize (RM m'). cbn [cA]. lia.
    + intros m' [<-|H]; auto.
Qed.

Lemma freeCall_inv a k lv fg cx h m : InvA a k lv fg cx h -> In m lv -> InvA a k (remA m lv) (m :: fg) cx h.
Proof.
  intros I IM. inv0 I. constructor; prj; auto. intros m'. specialize (Icn m'). pose proof (cA_remA m m' lv IM). cbn [cA]. lia.
Qed.
End Steps.
