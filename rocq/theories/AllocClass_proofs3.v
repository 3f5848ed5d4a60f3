(** Slab release preserves the invariant. *)
From Verif Require Import Bytes Compress_model AllocClass_model AllocClass_spec AllocClass_proofs AllocClass_proofs2.

Section Steps.
Context (c : acfg) (LC : legalCfg c).
Local Notation al := (al c). Local Notation relT := (relT c). Local Notation unc := (unc c).
Local Notation InvA := (InvA c).
Ltac prj := cbn [sAc sLk live freeing ctxs curS curOff allocd freeS freed canA relMap nActive fst snd] in *.
Ltac inv0 I := destruct I as [Isl Ihd Imk Icu Icn Iln Irl Ifr Iph Icx Iac].

Lemma existsb_eqb s l : existsb (Nat.eqb s) l = true <-> In s l.
Proof. rewrite existsb_exists. split; [intros (x & A & B); apply Nat.eqb_eq in B; congruence|intros; exists s; rewrite Nat.eqb_refl; auto]. Qed.

Lemma hdr_check h s :
  negb (match hClass (h s) with Some k => k =? cId c | None => false end) ||
  negb (match hPool (h s) with Some k => k =? cPool c | None => false end) || hMark (h s) = false ->
  hdrOurs c h s /\ hMark (h s) = false.
Proof.
  intros E. apply orb_false_iff in E as [E M]. apply orb_false_iff in E as [A B]. apply negb_false_iff in A, B.
  unfold hdrOurs. destruct (hClass (h s)) as [x|]; [|discriminate]. destruct (hPool (h s)) as [y|]; [|discriminate].
  apply Nat.eqb_eq in A, B. subst. auto.
Qed.
Lemma hdr_check_conv h s : hdrOurs c h s -> hMark (h s) = false ->
  negb (match hClass (h s) with Some k => k =? cId c | None => false end) ||
  negb (match hPool (h s) with Some k => k =? cPool c | None => false end) || hMark (h s) = false.
Proof. intros [A B] M. rewrite A, B, M, !Nat.eqb_refl. reflexivity. Qed.

Lemma start_free_inv a lv fg cx h s a' h' : InvA a LkFree lv fg cx h -> startRelease c a h s = SReleased a' h' ->
  InvA a' LkFree lv fg cx h' /\ cS s (allocd a) = 0 /\ cS s (freeS a) = 1 /\ inR (relMap a) s = false /\ 
  (forall t, cS t (freeS a') = if t =? s then 0 else cS t (freeS a)).
Proof.
  intros I E. unfold startRelease in E.
  match goal with H : (if ?b then _ else _) = _ |- _ => destruct b eqn:HC end; [discriminate|].
  apply hdr_check in HC as [HO HM]. destruct (existsb (Nat.eqb s) (freeS a)) eqn:EX.
  2:{ destruct (relMap a s); [discriminate|]. destruct (existsb (Nat.eqb s) (allocd a)); discriminate. }
  inversion E; subst. clear E. apply existsb_eqb in EX.
  pose proof (fun t => swapRemove_cS s (freeS a) t EX) as SW. apply cS_In in EX. inv0 I.
  pose proof (Isl s) as L.
  assert (Z3 : inR (relMap a) s = false) by (destruct (inR (relMap a) s); [cbn in L; lia|reflexivity]).
  rewrite Z3 in L. cbn [b2n Nat.b2n] in L.
  assert (Fq : forall t, cS t (swapRemove s (freeS a)) = if t =? s then 0 else cS t (freeS a)).
  { intros t. specialize (SW t). rewrite (Nat.eqb_sym s t) in SW. destruct (Nat.eqb_spec t s) as [E|E]; [subst t|]; cbn [b2n Nat.b2n] in SW; lia. }
  split; [|split; [lia|split; [lia|split; [exact Z3|exact Fq]]]].
  constructor; prj; auto.
  - intros t. specialize (Isl t). rewrite Fq. destruct (t =? s); lia.
  - intros t. specialize (Ihd t). rewrite Fq. unfold hdrOurs, fupd in *. destruct (Nat.eqb_spec t s) as [->|]; [|exact Ihd].
    cbn. rewrite Z3. cbn. split; [intros []; discriminate|lia].
  - intros t. specialize (Imk t). rewrite Fq. unfold fupd. destruct (Nat.eqb_spec t s) as [->|]; [|exact Imk].
    rewrite Z3. cbn. lia.
Qed.

Lemma start_mark_inv a lv fg cx h s a' h' : InvA a LkFree lv fg cx h -> startRelease c a h s = SMarked a' h' ->
  InvA a' (LkPrune s P0) lv fg cx h'.
Proof.
  intros I E. unfold startRelease in E.
  match goal with H : (if ?b then _ else _) = _ |- _ => destruct b eqn:HC end; [discriminate|].
  apply hdr_check in HC as [HO HM]. destruct (existsb (Nat.eqb s) (freeS a)) eqn:EX; [discriminate|].
  destruct (relMap a s) eqn:RS; [discriminate|]. destruct (existsb (Nat.eqb s) (allocd a)) eqn:EA; [|discriminate].
  inversion E; subst. clear E. apply existsb_eqb in EA.
  pose proof (fun t => swapRemove_cS s (allocd a) t EA) as SW. apply cS_In in EA. inv0 I.
  set (isCur := match curS a with Some k => k =? s | None => false end) in *.
  assert (Z3 : inR (relMap a) s = false) by (unfold inR; rewrite RS; reflexivity).
  pose proof (Isl s) as L. rewrite Z3 in L. cbn [b2n Nat.b2n] in L.
  assert (Fq : forall t, cS t (swapRemove s (allocd a)) = if t =? s then 0 else cS t (allocd a)).
  { intros t. specialize (SW t). rewrite (Nat.eqb_sym s t) in SW. destruct (Nat.eqb_spec t s) as [E|E]; [subst t|]; cbn [b2n Nat.b2n] in SW; lia. }
  set (v := if isCur then markTail (N.to_nat (curOff a / cSize c)) (repeat false (perSlab c)) else repeat false (perSlab c)) in *.
  assert (VL : length v = perSlab c /\ forall m, fst m = s -> al m = true ->
     nth (allocIdx c m) v false = unc (curS a) (curOff a) m).
  { unfold v, isCur. destruct (curS a) as [k|] eqn:C; [destruct (Nat.eqb_spec k s) as [->|NE]|].
    - destruct (Icu s eq_refl) as (_ & j & J & O). rewrite O. pose proof (sz_pos c LC). rewrite N.div_mul by lia. rewrite Nat2N.id.
      split; [rewrite markTail_length; rewrite repeat_length; auto|].
      intros m M A. rewrite markTail_nth by exact J. apply al_form in A as (i & Hi & Em); [|exact LC].
      unfold AllocClass_proofs.unc. rewrite Em. rewrite allocIdx_for by exact LC. cbn [fst snd allocForIdx]. rewrite M, Nat.eqb_refl. cbn [andb].
      rewrite <- (M), <- Em. assert (A2 : al m = true) by (apply al_form; [exact LC|exists i; auto]). rewrite A2, andb_true_r.
      destruct (Nat.leb_spec j i), (N.leb_spec (N.of_nat j * cSize c) (N.of_nat i * cSize c)); try nia; cbn [andb];
        destruct (Nat.ltb_spec i (perSlab c)); auto; lia.
    - split; [apply repeat_length|]. intros m M A. rewrite nth_repeat_b, andb_false_r. unfold AllocClass_proofs.unc.
      rewrite M. destruct (Nat.eqb_spec k s); [contradiction|]. reflexivity.
    - split; [apply repeat_length|]. intros m M A. rewrite nth_repeat_b, andb_false_r. reflexivity. }
  destruct VL as [VL VN]. clearbody v.
  assert (RN : forall m, fst m = s -> relT (relMap a) m = false).
  { intros m M. unfold AllocClass_proofs.relT. rewrite M, RS. reflexivity. }
  assert (CQ : forall m, b2n (relT (fupd (relMap a) s (Some v)) m) + b2n (unc (if isCur then None else curS a) (if isCur then 0%N else curOff a) m)
     = b2n (relT (relMap a) m) + b2n (unc (curS a) (curOff a) m)).
  { intros m. destruct (Nat.eq_dec (fst m) s) as [M|M].
    - rewrite RN by exact M. unfold AllocClass_proofs.relT at 1. unfold fupd. rewrite M, Nat.eqb_refl.
      destruct (al m) eqn:A.
      + rewrite VN by auto. unfold isCur. destruct (curS a) as [k|] eqn:C.
        * destruct (Nat.eqb_spec k s) as [->|NE]; rewrite ?andb_true_r; cbn; [destruct (s =? fst m); cbn; lia|].
          unfold AllocClass_proofs.unc. rewrite M. destruct (Nat.eqb_spec k s); [contradiction|]. reflexivity.
        * reflexivity.
      + rewrite andb_false_r. unfold AllocClass_proofs.unc. destruct isCur, (curS a); rewrite ?A, ?andb_false_r; reflexivity.
    - rewrite relT_upd_other by exact M. unfold isCur. destruct (curS a) as [k|] eqn:C; [|reflexivity].
      destruct (Nat.eqb_spec k s) as [->|NE]; [|reflexivity]. unfold AllocClass_proofs.unc.
      destruct (Nat.eqb_spec s (fst m)); [congruence|]. reflexivity. }
  constructor; prj; auto.
  - intros t. specialize (Isl t). rewrite Fq, inR_upd. destruct (t =? s) eqn:Q; [apply Nat.eqb_eq in Q; subst t; cbn; lia|lia].
  - intros t. specialize (Ihd t). rewrite Fq, inR_upd. unfold hdrOurs, fupd in *. destruct (Nat.eqb_spec t s) as [->|]; [|exact Ihd].
    cbn. split; [lia|intros _; exact HO].
  - intros t. specialize (Imk t). rewrite Fq, inR_upd. unfold fupd. destruct (Nat.eqb_spec t s) as [->|]; [reflexivity|exact Imk].
  - intros t H. unfold isCur in *. destruct (curS a) as [k|] eqn:C; [|discriminate]. destruct (Nat.eqb_spec k s) as [->|NE]; [discriminate|].
    inversion H; subst t. destruct (Icu k eq_refl) as (X & Y). split; [|exact Y]. rewrite Fq. destruct (Nat.eqb_spec k s); [contradiction|exact X].
  - intros m. specialize (Icn m). specialize (CQ m). cbn [offl] in *. rewrite Fq, inR_upd.
    destruct (Nat.eqb_spec (fst m) s) as [M|M]; [|lia]. rewrite M, Z3 in Icn. cbn [b2n Nat.b2n isSome] in *. 
    assert (cS s (allocd a) = 1) as Q1 by lia. rewrite Q1 in Icn. cbn [Nat.add] in *. lia.
  - intros t w. unfold fupd. destruct (Nat.eqb_spec t s); [intros W; inversion W; subst; exact VL|apply Iln].
  - intros t. specialize (Irl t). rewrite inR_upd. cbn [prOn] in *. rewrite (Nat.eqb_sym s t). destruct (Nat.eqb_spec t s) as [->|]; [|exact Irl].
    rewrite Z3 in Irl. cbn [isSome b2n Nat.b2n] in *. lia.
  - intros m H. destruct (Ifr m H) as [X|[]]. unfold fupd. cbn [loose]. destruct (Nat.eqb_spec (fst m) s); auto.
  - intros x H. eapply ctxOk_mono; [|apply Icx; exact H]. intros m T. destruct (Nat.eq_dec (fst m) s) as [M|M].
    + rewrite RN in T by exact M. discriminate.
    + rewrite relT_upd_other; auto.
Qed.

(** Partition. *)
Lemma partition_spec n s : forall fr ins nots fr' ins' nots', partitionFree n s fr ins nots = (fr', ins', nots') ->
  (forall m, cA m fr' + cA m ins' + cA m nots' = cA m fr + cA m ins + cA m nots) /\
  ((forall m, In m ins -> fst m = s) -> forall m, In m ins' -> fst m = s) /\
  ((forall m, In m nots -> fst m <> s) -> forall m, In m nots' -> fst m <> s).
Proof.
  induction n as [|n IH]; intros fr ins nots fr' ins' nots' E; cbn in E; [inversion E; subst; auto|].
  destruct fr as [|x r]; [inversion E; subst; auto|].
  destruct (Nat.eqb_spec (fst x) s) as [X|X]; apply IH in E as (A & B & C).
  - split; [intros m; rewrite A; cbn [cA]; lia|]. split; [|exact C]. intros H. apply B. intros m [<-|Q]; auto.
  - split; [intros m; rewrite A; cbn [cA]; lia|]. split; [exact B|]. intros H. apply C. intros m [<-|Q]; auto.
Qed.

Lemma swap_inv a lv fg cx h s a' fr ins nots : InvA a (LkPrune s P0) lv fg cx h -> pruneSwap a s = (a', (fr, ins, nots)) ->
  InvA a' (LkPrune s (P1 fr ins nots)) lv fg cx h.
Proof.
  intros I E. unfold pruneSwap in E. apply pair_equal_spec in E as [E1 E2]. subst a'. apply partition_spec in E2 as (A & B & C). inv0 I.
  constructor; prj; auto.
  - intros m. specialize (Icn m). specialize (A m). cbn [offl cA] in *. rewrite !cA_app. lia.
  - cbn. split; [apply B; intros m []|]. split; [apply C; intros m []|].
    intros m H. assert (In m (freed a)) as H2.
    { apply cA_In. specialize (A m). cbn [cA] in A. destruct H as [H|H]; apply cA_In in H; lia. }
    destruct (Ifr m H2) as [X|X]; auto.
Qed.

(** Marking a batch. *)
Lemma markIn_spec s : forall ins v r, r s = Some v -> length v = perSlab c ->
  (forall m, In m ins -> fst m = s /\ al m = true) ->
  (forall m, b2n (relT r m) + cA m ins <= 1) ->
  exists v', markIn c v ins = Some v' /\ length v' = length v /\
    (forall m, b2n (relT (fupd r s (Some v')) m) = b2n (relT r m) + cA m ins).
Proof.
  induction ins as [|x q IH]; intros v r R LV H1 H2; cbn [markIn].
  - exists v. split; [reflexivity|]. split; [reflexivity|]. intros m. cbn [cA]. rewrite Nat.add_0_r. f_equal.
    unfold AllocClass_proofs.relT, fupd. destruct (Nat.eqb_spec (fst m) s) as [->|]; [rewrite R|]; reflexivity.
  - destruct (H1 x (or_introl eq_refl)) as [X1 X2]. assert (LI : allocIdx c x < length v).
    { rewrite LV. unfold AllocClass_proofs.al in X2. apply andb_true_iff in X2 as [_ X2]. apply Nat.ltb_lt. exact X2. }
    destruct (setTrue_ok v _ LI) as (w & E & L & _). rewrite E.
    assert (RS : forall m, b2n (relT (fupd r s (Some w)) m) = b2n (relT r m) + b2n (aeqb x m)).
    { intros m. rewrite (relT_set c r s v (allocIdx c x) w m R E). destruct (aeqb x m) eqn:Q.
      - specialize (H2 m). cbn [cA] in H2. rewrite Q in H2. cbn [b2n Nat.b2n] in H2. apply aeqb_eq in Q. subst m.
        rewrite X1, X2, !Nat.eqb_refl. cbn [andb]. destruct (relT r x); cbn in *; lia.
      - replace ((fst m =? s) && (allocIdx c m =? allocIdx c x) && al m) with false; [rewrite orb_false_r; cbn; lia|].
        symmetry. apply not_true_is_false. intros T. apply andb_true_iff in T as [T T3]. apply andb_true_iff in T as [T1 T2].
        apply Nat.eqb_eq in T1, T2. rewrite (al_idx c LC x m) in Q; auto; [rewrite aeqb_refl in Q; discriminate|congruence]. }
    destruct (IH w (fupd r s (Some w))) as (v' & E' & L' & RM).
    + unfold fupd. rewrite Nat.eqb_refl. reflexivity.
    + lia.
    + intros m M. apply H1. right. exact M.
    + intros m. rewrite RS. specialize (H2 m). cbn [cA] in H2. lia.
    + exists v'. split; [exact E'|]. split; [lia|]. intros m. specialize (RM m). specialize (RS m).
      replace (relT (fupd (fupd r s (Some w)) s (Some v')) m) with (relT (fupd r s (Some v')) m) in RM.
      * rewrite RM, RS. cbn [cA]. lia.
      * unfold AllocClass_proofs.relT, fupd. destruct (fst m =? s); reflexivity.
Qed.

Lemma al_of_cnt a k lv fg cx h m : InvA a k lv fg cx h ->
  0 < cA m lv + cA m fg + cA m (freed a) + cA m (offl k) -> al m = true /\ 0 < cS (fst m) (allocd a) + b2n (inR (relMap a) (fst m)).
Proof. intros I H. pose proof (i_cnt _ _ _ _ _ _ _ I m) as Q. destruct (al m); cbn [b2n Nat.b2n] in Q; [split; [reflexivity|]|]; nia. Qed.

Lemma merge_total a lv fg cx h s fr ins nots : InvA a (LkPrune s (P1 fr ins nots)) lv fg cx h ->
  exists a' v', pruneMerge c a s ins nots = Some a' /\
   a' = mkAc (curS a) (curOff a) (allocd a) (freeS a) (nots ++ freed a) (match nots with [] => canA a | _ => true end) (fupd (relMap a) s (Some v')) (nActive a) /\
   length v' = perSlab c /\ inR (relMap a) s = true /\
   (forall m, b2n (relT (fupd (relMap a) s (Some v')) m) = b2n (relT (relMap a) m) + cA m ins).
Proof.
  intros I. pose proof I as I0. inv0 I. destruct Iph as (P1a & P1b & P1c).
  pose proof (Irl s) as RS. cbn [prOn] in RS. rewrite Nat.eqb_refl in RS. cbn [b2n Nat.b2n] in RS.
  unfold pruneMerge. unfold inR in *. destruct (relMap a s) as [v|] eqn:R; [|cbn in RS; lia].
  destruct (markIn_spec s ins v (relMap a) R (Iln s v R)) as (v' & E & L & M).
  - intros m H. split; [auto|]. apply (al_of_cnt _ _ _ _ _ _ m I0). cbn [offl]. rewrite !cA_app. apply cA_In in H. lia.
  - intros m. specialize (Icn m). cbn [offl] in Icn. rewrite !cA_app in Icn. specialize (Isl (fst m)). unfold inR in *.
    assert (cS (fst m) (allocd a) + b2n (isSome (relMap a (fst m))) <= 1) as Q by lia. destruct (al m); cbn [b2n Nat.b2n] in Icn; nia.
  - rewrite E. eexists _, v'. split; [reflexivity|]. split; [reflexivity|]. rewrite L, (Iln s v R). auto.
Qed.

Lemma merge_inv a lv fg cx h s fr ins nots a' k' : InvA a (LkPrune s (P1 fr ins nots)) lv fg cx h ->
  pruneMerge c a s ins nots = Some a' ->
  (k' = LkPrune s P3 /\ fr = [] \/ exists fr' ins' nots', partitionFree kPruneLimit s fr [] [] = (fr', ins', nots') /\ k' = LkPrune s (P1 fr' ins' nots')) ->
  InvA a' k' lv fg cx h.
Proof.
  intros I E K. destruct (merge_total _ _ _ _ _ _ _ _ _ I) as (a1 & v' & E1 & -> & LV & RI & RM). rewrite E1 in E. inversion E; subst a'. clear E E1.
  assert (RI2 : forall t, inR (fupd (relMap a) s (Some v')) t = inR (relMap a) t).
  { intros t. rewrite inR_upd. destruct (Nat.eqb_spec t s) as [->|]; [rewrite RI|]; reflexivity. }
  assert (MO : forall m', relT (relMap a) m' = true -> relT (fupd (relMap a) s (Some v')) m' = true).
  { intros m' T. specialize (RM m'). rewrite T in RM. cbn [b2n Nat.b2n] in RM. destruct (relT (fupd _ _ _) m'); [reflexivity|cbn in RM; lia]. }
  assert (NNo : forall t, relMap a t = None -> fupd (relMap a) s (Some v') t = None).
  { intros t H. unfold fupd. destruct (Nat.eqb_spec t s) as [->|]; [unfold inR in RI; rewrite H in RI; discriminate|exact H]. }
  assert (OF : forall m, cA m (offl k') + cA m ins + cA m nots = cA m (fr ++ ins ++ nots)).
  { intros m. rewrite !cA_app. destruct K as [[-> ->]|(f & i & n & P & ->)]; [cbn; lia|].
    apply partition_spec in P as (A & _ & _). specialize (A m). cbn [offl cA] in *. rewrite !cA_app. lia. }
  assert (PR : forall t, prOn k' t = (s =? t)) by (destruct K as [[-> ->]|(f & i & n & P & ->)]; reflexivity).
  inv0 I. destruct Iph as (Pa & Pb & Pc). constructor; prj; auto.
  - intros t. rewrite RI2. apply Isl.
  - intros t. rewrite RI2. apply Ihd.
  - intros t. rewrite RI2. apply Imk.
  - intros m. rewrite RI2, RM, cA_app. specialize (Icn m). cbn [offl] in Icn. specialize (OF m). lia.
  - intros t w. unfold fupd. destruct (Nat.eqb_spec t s) as [->|]; [|apply Iln]. intros W; inversion W; subst; exact LV.
  - intros t. rewrite RI2, PR. apply Irl.
  - intros m H. left. apply NNo. apply in_app_or in H as [H|H].
    + destruct (Pc m (or_intror H)) as [X|X]; [exact X|]. exfalso. exact (Pb m H X).
    + destruct (Ifr m H) as [X|[]]. exact X.
  - destruct K as [[-> ->]|(f & i & n & P & ->)]; [exact Logic.I|]. apply partition_spec in P as (A & B & C).
    cbn. split; [apply B; intros m []|]. split; [apply C; intros m []|].
    intros m H. assert (In m fr) as H2.
    { apply cA_In. specialize (A m). cbn [cA] in A. destruct H as [H|H]; apply cA_In in H; lia. }
    destruct (Pc m (or_introl H2)) as [X|X]; auto.
  - intros x H. eapply ctxOk_mono; eauto.
Qed.

Lemma pruneAbort_inv a lv fg cx h s fr ins nots : InvA a (LkPrune s (P1 fr ins nots)) lv fg cx h ->
  InvA (pruneAbort a fr ins nots) (LkPrune s PA2) lv fg cx h.
Proof.
  intros I. inv0 I. destruct Iph as (Pa & Pb & Pc). constructor; unfold pruneAbort; prj; auto.
  - intros m. specialize (Icn m). cbn [offl cA] in *. rewrite !cA_app in *. lia.
  - intros m H. cbn [loose]. apply in_app_or in H as [H|H]; [|destruct (Ifr m H) as [X|[]]; auto].
    apply in_app_or in H as [H|H]; [right; symmetry; auto|]. apply in_app_or in H.
    destruct (Pc m); [tauto|auto|auto].
  - exact Logic.I.
Qed.

(** Restoring. *)
Lemma restoreFrom_cA s m : forall v i fl, 
  cA m (restoreFrom c s i v fl) = cA m fl + b2n ((fst m =? s) && (snd m mod cSize c =? 0)%N && (i <=? allocIdx c m) && nth (allocIdx c m - i) v false).
Proof.
  induction v as [|b r IH]; intros i fl; cbn [restoreFrom].
  - destruct (allocIdx c m - i); cbn [nth]; rewrite andb_false_r; cbn; lia.
  - rewrite IH. destruct (Nat.eq_dec i (allocIdx c m)) as [E|E].
    + replace (S i <=? allocIdx c m) with false by (symmetry; apply Nat.leb_gt; lia).
      replace (allocIdx c m - i) with 0 by lia. cbn [nth]. rewrite !andb_false_r. cbn [andb b2n Nat.b2n].
      replace (i <=? allocIdx c m) with true by (symmetry; apply Nat.leb_le; lia). rewrite andb_true_r.
      destruct b; [|rewrite andb_false_r; cbn; lia]. cbn [cA]. rewrite andb_true_r.
      replace (aeqb (allocForIdx c s i) m) with ((fst m =? s) && (snd m mod cSize c =? 0)%N); [lia|].
      unfold aeqb, allocForIdx. cbn [fst snd]. rewrite (Nat.eqb_sym s). f_equal. unfold allocIdx in E. pose proof (sz_pos c LC).
      pose proof (N.div_mod (snd m) (cSize c) ltac:(lia)). rewrite E, N2Nat.id.
      destruct (N.eqb_spec (snd m mod cSize c) 0), (N.eqb_spec (snd m / cSize c * cSize c) (snd m)); auto; lia.
    + assert (cA m (if b then allocForIdx c s i :: fl else fl) = cA m fl) as ->.
      { destruct b; [|reflexivity]. cbn [cA]. destruct (aeqb (allocForIdx c s i) m) eqn:Q; [|reflexivity].
        apply aeqb_eq in Q. subst m. rewrite allocIdx_for in E by exact LC. congruence. }
      f_equal. f_equal. destruct (Nat.leb_spec (S i) (allocIdx c m)), (Nat.leb_spec i (allocIdx c m)); try lia.
      * replace (allocIdx c m - i) with (S (allocIdx c m - S i)) by lia. reflexivity.
Qed.
Lemma restore_cA s m v r fl : r s = Some v -> length v = perSlab c ->
  cA m (restoreFrom c s 0 v fl) = cA m fl + (if fst m =? s then b2n (relT r m) else 0).
Proof.
  intros R L. rewrite restoreFrom_cA. rewrite Nat.sub_0_r. cbn [Nat.leb]. rewrite andb_true_r.
  destruct (Nat.eqb_spec (fst m) s) as [E|E]; [|reflexivity]. cbn [andb]. unfold AllocClass_proofs.relT. rewrite E, R.
  unfold AllocClass_proofs.al. destruct (Nat.ltb_spec (allocIdx c m) (perSlab c)).
  - rewrite andb_true_r. f_equal. f_equal. apply andb_comm.
  - rewrite nth_overflow by lia. rewrite !andb_false_r. reflexivity.
Qed.

Lemma dropCtx_cX s l t : cX t (dropCtx s l) = if t =? s then 0 else cX t l.
Proof.
  unfold dropCtx. induction l as [|x r IH]; cbn; [destruct (t =? s); reflexivity|]. destruct (Nat.eqb_spec (xSlab x) s) as [E|E]; cbn; rewrite IH.
  - rewrite E, (Nat.eqb_sym s t). destruct (t =? s); reflexivity.
  - destruct (Nat.eqb_spec t s) as [E2|E2]; [|reflexivity]. rewrite E2. destruct (Nat.eqb_spec (xSlab x) s); [contradiction|reflexivity].
Qed.
Lemma dropCtx_len s l : length (dropCtx s l) + cX s l = length l.
Proof. unfold dropCtx. induction l as [|x r IH]; cbn; [reflexivity|]. destruct (xSlab x =? s); cbn; lia. Qed.
Lemma setCtx_cX s p l t : cX t (setCtx s p l) = cX t l.
Proof. unfold setCtx. induction l as [|x r IH]; cbn; [reflexivity|]. rewrite IH. destruct (Nat.eqb_spec (xSlab x) s) as [E|]; cbn; rewrite ?E; reflexivity. Qed.

(** The slab leaves the release map and goes back to the allocated list. *)
Lemma unrelease_inv a k lv fg cx h s v k' cx' h' ca na : InvA a k lv fg cx h -> relMap a s = Some v ->
  (k' = k /\ prOn k s = false \/ k = LkPrune s PA2 /\ k' = LkFree) ->
  (forall t, cX t cx' = if t =? s then 0 else cX t cx) -> (forall x, In x cx' -> In x cx /\ xSlab x <> s) ->
  na = Z.of_nat (length cx') ->
  (forall t, t <> s -> h' t = h t) -> hClass (h' s) = Some (cId c) -> hPool (h' s) = hPool (h s) -> hMark (h' s) = false ->
  InvA (mkAc (curS a) (curOff a) (allocd a ++ [s]) (freeS a) (restoreFrom c s 0 v (freed a)) ca (fupd (relMap a) s None) na) k' lv fg cx' h'.
Proof.
  intros I R K CX CI NA HO HC HP HM. pose proof (fun m => restore_cA s m v (relMap a) (freed a) R (i_len _ _ _ _ _ _ _ I _ _ R)) as RC. inv0 I.
  assert (Z3 : inR (relMap a) s = true) by (unfold inR; rewrite R; reflexivity).
  pose proof (Isl s) as L. rewrite Z3 in L. cbn [b2n Nat.b2n] in L.
  assert (SUM : forall t, cS t (allocd a ++ [s]) + cS t (freeS a) + b2n (inR (fupd (relMap a) s None) t) = cS t (allocd a) + cS t (freeS a) + b2n (inR (relMap a) t)).
  { intros t. rewrite cS_app, inR_upd. cbn [cS]. rewrite (Nat.eqb_sym s t). destruct (Nat.eqb_spec t s) as [->|]; [rewrite Z3|]; cbn [isSome b2n Nat.b2n]; lia. }
  assert (OFF : offl k' = offl k) by (destruct K as [[-> _]|[-> ->]]; reflexivity).
  assert (HS : hdrOurs c h s) by (apply Ihd; rewrite Z3; cbn; lia).
  constructor; prj; auto.
  - intros t. rewrite SUM. apply Isl.
  - intros t. rewrite SUM. rewrite <- Ihd. unfold hdrOurs in *. destruct (Nat.eq_dec t s) as [->|NE]; [|rewrite HO by exact NE; tauto].
    rewrite HC, HP. tauto.
  - intros t. rewrite SUM, inR_upd. destruct (Nat.eqb_spec t s) as [->|NE]; [intros _; exact HM|]. rewrite HO by exact NE. apply Imk.
  - intros t E. destruct (Icu t E) as [X Y]. split; [|exact Y]. rewrite cS_app. lia.
  - intros m. specialize (Icn m). rewrite OFF, RC, cS_app, inR_upd. cbn [cS]. rewrite (Nat.eqb_sym s).
    destruct (Nat.eqb_spec (fst m) s) as [M|M].
    + assert (relT (fupd (relMap a) s None) m = false) as ->.
      { unfold AllocClass_proofs.relT, fupd. rewrite M, Nat.eqb_refl. reflexivity. }
      rewrite M, Z3 in Icn. rewrite M. cbn [isSome b2n Nat.b2n] in *. lia.
    + rewrite relT_upd_other by exact M. cbn [b2n Nat.b2n] in *. lia.
  - intros t w. unfold fupd. destruct (t =? s); [discriminate|apply Iln].
  - intros t. rewrite inR_upd, CX. specialize (Irl t). destruct (Nat.eqb_spec t s) as [->|NE].
    + cbn. destruct K as [[-> K]|[-> ->]]; [rewrite K|]; reflexivity.
    + destruct K as [[-> K]|[-> ->]]; [exact Irl|]. cbn [prOn] in *. destruct (Nat.eqb_spec s t); [congruence|]. exact Irl.
  - intros m H. unfold fupd. destruct (Nat.eqb_spec (fst m) s) as [M|M]; [left; reflexivity|].
    assert (In m (freed a)) as H2. { apply cA_In in H. rewrite RC in H. destruct (Nat.eqb_spec (fst m) s); [contradiction|]. apply cA_In. lia. }
    destruct (Ifr m H2) as [X|X]; [auto|]. destruct K as [[-> K]|[-> ->]]; [auto|]. cbn in X. congruence.
  - destruct K as [[-> K]|[-> ->]]; [|exact Logic.I]. destruct k as [|t [| | | |]|t]; auto; cbn in *.
    + destruct Iph as (A & B & C). split; [exact A|]. split; [exact B|]. intros m H. unfold fupd. destruct (Nat.eqb_spec (fst m) s); [auto|]. apply C. exact H.
    + destruct Iph as [A B]. split; [exact A|]. intros m E H. rewrite relT_upd_other; [auto|]. apply Nat.eqb_neq in K. congruence.
    + rewrite cS_app. lia.
  - intros x H. destruct (CI x H) as [H1 H2]. destruct (Icx x H1) as [[A B] C]. split; [split; [exact A|]|].
    + intros m E Q. rewrite relT_upd_other; [auto|congruence].
    + intros P m E Q. rewrite relT_upd_other; [auto|congruence].
Qed.

(** The slab leaves the class: every allocation in it was free. *)
Lemma leave_inv a k lv fg cx h s k' cx' h' na : InvA a k lv fg cx h -> inR (relMap a) s = true ->
  (forall m, fst m = s -> al m = true -> relT (relMap a) m = true) ->
  (k' = k /\ prOn k s = false \/ (exists act, k = LkPrune s (P4 act)) /\ k' = LkFree) ->
  (forall t, cX t cx' = if t =? s then 0 else cX t cx) -> (forall x, In x cx' -> In x cx /\ xSlab x <> s) ->
  na = Z.of_nat (length cx') ->
  (forall t, t <> s -> h' t = h t) -> hClass (h' s) = None ->
  InvA (mkAc (curS a) (curOff a) (allocd a) (freeS a) (freed a) (canA a) (fupd (relMap a) s None) na) k' lv fg cx' h'.
Proof.
  intros I Z3 AF K CX CI NA HO HC. inv0 I.
  pose proof (Isl s) as L. rewrite Z3 in L. cbn [b2n Nat.b2n] in L.
  assert (OFF : offl k' = offl k) by (destruct K as [[-> _]|[(? & ->) ->]]; reflexivity).
  constructor; prj; auto.
  - intros t. specialize (Isl t). rewrite inR_upd. destruct (Nat.eqb_spec t s) as [->|]; [cbn; lia|exact Isl].
  - intros t. rewrite inR_upd. unfold hdrOurs. destruct (Nat.eqb_spec t s) as [->|NE].
    + rewrite HC. cbn. split; [intros []; discriminate|lia].
    + rewrite HO by exact NE. apply Ihd.
  - intros t. rewrite inR_upd. destruct (Nat.eqb_spec t s) as [->|NE]; [cbn; lia|]. rewrite HO by exact NE. apply Imk.
  - intros m. specialize (Icn m). rewrite OFF, inR_upd. destruct (Nat.eqb_spec (fst m) s) as [M|M].
    + assert (relT (fupd (relMap a) s None) m = false) as ->.
      { unfold AllocClass_proofs.relT, fupd. rewrite M, Nat.eqb_refl. reflexivity. }
      rewrite M, Z3 in Icn. rewrite M. pose proof (AF m M) as A. destruct (al m) eqn:Q; cbn [isSome b2n Nat.b2n] in *.
      * rewrite (A eq_refl) in Icn. cbn [b2n Nat.b2n] in Icn. lia.
      * lia.
    + rewrite relT_upd_other by exact M. exact Icn.
  - intros t w. unfold fupd. destruct (t =? s); [discriminate|apply Iln].
  - intros t. rewrite inR_upd, CX. specialize (Irl t). destruct (Nat.eqb_spec t s) as [->|NE].
    + cbn. destruct K as [[-> K]|[(? & ->) ->]]; [rewrite K|]; reflexivity.
    + destruct K as [[-> K]|[(? & ->) ->]]; [exact Irl|]. cbn [prOn] in *. destruct (Nat.eqb_spec s t); [congruence|]. exact Irl.
  - intros m H. unfold fupd. destruct (Nat.eqb_spec (fst m) s) as [M|M]; [left; reflexivity|].
    destruct (Ifr m H) as [X|X]; [auto|]. destruct K as [[-> K]|[(? & ->) ->]]; [auto|]. destruct X.
  - destruct K as [[-> K]|[(? & ->) ->]]; [|exact Logic.I]. destruct k as [|t [| | | |]|t]; auto; cbn in *.
    + destruct Iph as (A & B & C). split; [exact A|]. split; [exact B|]. intros m H. unfold fupd. destruct (Nat.eqb_spec (fst m) s); [auto|]. apply C. exact H.
    + destruct Iph as [A B]. split; [exact A|]. intros m E H. rewrite relT_upd_other; [auto|]. apply Nat.eqb_neq in K. congruence.
  - intros x H. destruct (CI x H) as [H1 H2]. destruct (Icx x H1) as [[A B] C]. split; [split; [exact A|]|].
    + intros m E Q. rewrite relT_upd_other; [auto|congruence].
    + intros P m E Q. rewrite relT_upd_other; [auto|congruence].
Qed.

(** Collecting the active allocations. *)
Lemma activeFrom_In s m : forall v i, In m (activeFrom c s i v) <->
  exists j, j < length v /\ nth j v false = false /\ m = allocForIdx c s (i + j).
Proof.
  induction v as [|b r IH]; intros i; cbn [activeFrom].
  - split; [intros []|intros (j & H & _); cbn in H; lia].
  - rewrite in_app_iff, IH. split.
    + intros [H|(j & A & B & E)].
      * destruct b; [destruct H|]. destruct H as [<-|[]]. exists 0. rewrite Nat.add_0_r. cbn. split; [lia|auto].
      * exists (S j). cbn. split; [lia|]. split; [exact B|]. rewrite E. f_equal. lia.
    + intros ([|j] & A & B & E); cbn in A, B.
      * left. rewrite B. left. rewrite E, Nat.add_0_r. reflexivity.
      * right. exists j. split; [lia|]. split; [exact B|]. rewrite E. f_equal. lia.
Qed.
Lemma collect_covers r s v : r s = Some v -> length v = perSlab c -> covers c r s (activeFrom c s 0 v).
Proof.
  intros R L. split.
  - intros m H. apply activeFrom_In in H as (j & A & _ & ->). split; [reflexivity|]. apply allocForIdx_al; [exact LC|cbn; lia].
  - intros m M A. destruct (nth (allocIdx c m) v false) eqn:B.
    + left. unfold AllocClass_proofs.relT. rewrite M, R, B, A. reflexivity.
    + right. apply activeFrom_In. pose proof A as A2. apply al_form in A as (i & I & E); [|exact LC]. exists i.
      rewrite E, allocIdx_for in B by exact LC. rewrite L. split; [exact I|]. split; [exact B|]. rewrite E at 1. rewrite M. reflexivity.
Qed.
Lemma allfreed_relT r s v : r s = Some v -> length v = perSlab c -> forallb (fun b => b) v = true ->
  forall m, fst m = s -> al m = true -> relT r m = true.
Proof.
  intros R L F m M A. unfold AllocClass_proofs.relT. rewrite M, R, A, andb_true_r.
  assert (allocIdx c m < length v). { rewrite L. unfold AllocClass_proofs.al in A. apply andb_true_iff in A as [_ A]. apply Nat.ltb_lt. exact A. }
  rewrite forallb_forall in F. apply F. apply nth_In. exact H.
Qed.

(** ** Every step *)
Lemma lk_only a k k' lv fg cx h : InvA a k lv fg cx h -> offl k' = offl k -> (forall s, prOn k' s = prOn k s) ->
  (forall s, loose k s -> loose k' s) -> phOk c (relMap a) (allocd a) (freeS a) k' -> InvA a k' lv fg cx h.
Proof.
  intros I O P LO H. inv0 I. constructor; prj; auto.
  - intros m. rewrite O. apply Icn.
  - intros s. rewrite P. apply Irl.
  - intros m M. destruct (Ifr m M); auto.
Qed.
Lemma ctx_only a k lv fg cx h s p : InvA a k lv fg cx h ->
  (p = CFreed -> forall m, fst m = s -> al m = true -> relT (relMap a) m = true) -> InvA a k lv fg (setCtx s p cx) h.
Proof.
  intros I F. inv0 I. constructor; prj; auto.
  - intros t. rewrite setCtx_cX. apply Irl.
  - intros x H. unfold setCtx in H. apply in_map_iff in H as (y & E & H). specialize (Icx y H).
    destruct (Nat.eqb_spec (xSlab y) s) as [Q|Q]; [|subst; exact Icx]. subst x. destruct Icx as [A B].
    split; cbn [xSlab xAct xPh]; [rewrite <- Q; exact A|exact F].
  - unfold setCtx. rewrite map_length. exact Iac.
Qed.
Lemma ctx_inR a k lv fg cx h x : InvA a k lv fg cx h -> In x cx -> inR (relMap a) (xSlab x) = true /\ prOn k (xSlab x) = false /\ cX (xSlab x) cx = 1.
Proof.
  intros I H. assert (0 < cX (xSlab x) cx) as P by (apply cX_In; exists x; auto).
  pose proof (i_rel _ _ _ _ _ _ _ I (xSlab x)) as R. pose proof (b2n_le (inR (relMap a) (xSlab x))).
  split; [destruct (inR _ _); [reflexivity|cbn in R; lia]|]. split; [destruct (prOn k (xSlab x)); [cbn in R; lia|reflexivity]|lia].
Qed.
Lemma dropCtx_In s cx x : In x (dropCtx s cx) -> In x cx /\ xSlab x <> s.
Proof. unfold dropCtx. intros H. apply filter_In in H as [A B]. split; [exact A|]. apply negb_true_iff, Nat.eqb_neq in B. exact B. Qed.

Theorem step_inv x l y : Inv c x -> astep c x l y -> Inv c y.
Proof.
  intros I ST. unfold Inv in *. destruct ST; cbn [fst snd sAc sLk live freeing ctxs] in *.
  - exact I.
  - eapply alloc_inv; eauto.
  - eapply addSlab_inv; eauto.
  - eapply freeCall_inv; eauto.
  - eapply free_inv; eauto.
  - rewrite H in I. eapply start_free_inv; eauto.
  - rewrite H in I. eapply start_mark_inv; eauto.
  - rewrite H in I. eapply swap_inv; eauto.
  - rewrite H in I. eapply merge_inv; [exact I|exact H0|]. right. subst. exists fr', ins', nots'. auto.
  - rewrite H in I. eapply merge_inv; [exact I|exact H0|]. left. auto.
  - rewrite H in I. apply pruneAbort_inv. exact I.
  - rewrite H in I. unfold startAborted, restoreFreed in H0. destruct (relMap (sAc t) s) as [v|] eqn:R; [|discriminate]. inversion H0; subst. clear H0.
    cbn [curS curOff allocd freeS freed canA relMap nActive].
    pose proof (i_rel _ _ _ _ _ _ _ I s) as RR. cbn [prOn] in RR. rewrite Nat.eqb_refl in RR. pose proof (b2n_le (inR (relMap (sAc t)) s)).
    cbn [b2n Nat.b2n] in RR. eapply (unrelease_inv _ _ _ _ _ _ s v LkFree (ctxs t)); eauto.
    + intros u. destruct (Nat.eqb_spec u s) as [->|]; [lia|reflexivity].
    + intros x IX. split; [exact IX|]. intros E. assert (0 < cX s (ctxs t)) by (apply cX_In; exists x; auto). lia.
    + apply (i_act _ _ _ _ _ _ _ I).
    + intros u NE. unfold fupd. destruct (Nat.eqb_spec u s); [contradiction|reflexivity].
    + unfold fupd. rewrite Nat.eqb_refl. cbn. apply (i_hdr _ _ _ _ _ _ _ I s). unfold inR. rewrite R. cbn. lia.
    + unfold fupd. rewrite Nat.eqb_refl. reflexivity.
    + unfold fupd. rewrite Nat.eqb_refl. reflexivity.
  - rewrite H in I. eapply lk_only; [exact I|reflexivity|reflexivity|intros ? []|]. apply collect_covers; [exact H0|]. eapply i_len; eauto.
  - rewrite H in I. unfold startFinish in H0. inversion H0; subst. clear H0.
    pose proof (i_rel _ _ _ _ _ _ _ I s) as RR. cbn [prOn] in RR. rewrite Nat.eqb_refl in RR. pose proof (b2n_le (inR (relMap (sAc t)) s)).
    cbn [b2n Nat.b2n] in RR. eapply (leave_inv _ _ _ _ _ _ s LkFree (ctxs t)); eauto.
    + destruct (inR _ s); [reflexivity|cbn in RR; lia].
    + intros m M A. destruct (proj2 (i_ph _ _ _ _ _ _ _ I) m M A) as [X|[]]. exact X.
    + intros u. destruct (Nat.eqb_spec u s) as [->|]; [lia|reflexivity].
    + intros x IX. split; [exact IX|]. intros E. assert (0 < cX s (ctxs t)) by (apply cX_In; exists x; auto). lia.
    + apply (i_act _ _ _ _ _ _ _ I).
    + intros u NE. unfold fupd. destruct (Nat.eqb_spec u s); [contradiction|reflexivity].
    + unfold fupd. rewrite Nat.eqb_refl. reflexivity.
  - rewrite H in I. unfold startFinish in H0. inversion H0; subst. clear H0. inv0 I. constructor; prj; auto.
    + exact Logic.I.
    + intros z [<-|Z]; [|auto]. split; [exact Iph|discriminate].
    + cbn [length]. lia.
  - destruct (ctx_inR _ _ _ _ _ _ _ I H) as (R1 & R2 & R3). cbn [xSlab] in *. unfold abortRelease, restoreFreed in H0.
    destruct (relMap (sAc t) s) as [v|] eqn:R; [|discriminate]. inversion H0; subst. clear H0. cbn [curS curOff allocd freeS freed canA relMap nActive].
    eapply (unrelease_inv _ _ _ _ _ _ s v); eauto.
    + intros u. apply dropCtx_cX.
    + intros x. apply dropCtx_In.
    + pose proof (dropCtx_len s (ctxs t)). pose proof (i_act _ _ _ _ _ _ _ I). lia.
    + intros u NE. unfold fupd. destruct (Nat.eqb_spec u s); [contradiction|reflexivity].
    + unfold fupd. rewrite Nat.eqb_refl. reflexivity.
    + unfold fupd. rewrite Nat.eqb_refl. reflexivity.
    + unfold fupd. rewrite Nat.eqb_refl. reflexivity.
  - apply ctx_only; [exact I|discriminate].
  - apply ctx_only; [exact I|]. intros _. unfold allFreed in H0. destruct (relMap (sAc t) s) as [v|] eqn:R; [|discriminate]. injection H0 as H2.
    exact (allfreed_relT _ _ _ R (i_len _ _ _ _ _ _ _ I _ _ R) H2).
  - destruct (ctx_inR _ _ _ _ _ _ _ I H) as (R1 & R2 & R3). cbn [xSlab] in *. unfold completeFinish in H0. inversion H0; subst. clear H0.
    eapply (leave_inv _ _ _ _ _ _ s); eauto.
    + apply (proj2 (i_ctx _ _ _ _ _ _ _ I _ H) eq_refl).
    + intros u. apply dropCtx_cX.
    + intros x. apply dropCtx_In.
    + pose proof (dropCtx_len s (ctxs t)). pose proof (i_act _ _ _ _ _ _ _ I). lia.
    + intros u NE. unfold fupd. destruct (Nat.eqb_spec u s); [contradiction|reflexivity].
    + unfold fupd. rewrite Nat.eqb_refl. reflexivity.
  - exact I.
  - rewrite H in I. eapply lk_only; [exact I|reflexivity|reflexivity|intros ? []|]. cbn.
    unfold iterCheck in H0. apply andb_true_iff in H0 as [H0 H4]. apply andb_true_iff in H0 as [H0 H3]. apply andb_true_iff in H0 as [H1 H2].
    assert (HO : hdrOurs c h s). { unfold hdrOurs. destruct (hClass (h s)) as [x|]; [|discriminate]. destruct (hPool (h s)) as [y|]; [|discriminate]. apply Nat.eqb_eq in H1, H2. subst; auto. }
    apply (i_hdr _ _ _ _ _ _ _ I) in HO. pose proof (i_mark _ _ _ _ _ _ _ I s HO) as MK. apply negb_true_iff in H4. rewrite H4 in MK. rewrite <- MK in HO. cbn in HO. lia.
  - exact I.
  - rewrite H in I. eapply lk_only; [exact I|reflexivity|reflexivity|intros ? []|]. exact Logic.I.
  - rewrite H in I. subst a. assert (CE : ctxs t = []). { pose proof (i_act _ _ _ _ _ _ _ I). destruct (ctxs t); [reflexivity|cbn in *; lia]. }
    inv0 I. assert (RN : forall s, relMap (sAc t) s = None).
    { intros s. specialize (Irl s). rewrite CE in Irl. unfold inR in Irl. destruct (relMap (sAc t) s); [cbn in Irl; lia|reflexivity]. }
    assert (RI : forall s, inR (relMap (sAc t)) s = false) by (intros s; unfold inR; rewrite RN; reflexivity).
    rewrite H0 in *. constructor; prj; auto.
    + intros s. specialize (Isl s). rewrite RI in Isl. exact Isl.
    + intros s. specialize (Ihd s). rewrite RI in Ihd. exact Ihd.
    + intros s. specialize (Imk s). rewrite RI in Imk. exact Imk.
    + intros m. specialize (Icn m). rewrite RI in Icn. unfold AllocClass_proofs.relT at 1 in Icn. rewrite RN in Icn. exact Icn.
    + discriminate.
    + intros s. rewrite CE. reflexivity.
    + rewrite CE. intros x [].
    + rewrite CE. reflexivity.
Qed.
End Steps.
