(** Proofs for C15, part 2: the loops, and the death of an item with its chain. *)
From Verif Require Import Bytes DList_model DList_spec Chain_model Chain_spec Chain_proofs.
Ltac Zify.zify_post_hook ::= idtac.

(** What walking and freeing a chain needs. *)
Fixpoint flinks (s : cache) (k : list node) : Prop :=
  match k with
  | [] => True
  | c :: r => live s c = true /\ next (it s c) = hd_error r /\ refs (it s c) = 1 /\ flinks s r
  end.
Lemma links_flinks s p a k : links s p a k -> flinks s k.
Proof.
  revert a. induction k as [|c r IH]; intros a L; [exact Logic.I|]. destruct L as (L1 & L2 & L3). cbn [flinks]. rewrite L2. cbn [next refs]. eauto 10.
Qed.
Lemma flinks_frame s s' k : (forall c, In c k -> live s' c = live s c /\ next (it s' c) = next (it s c) /\ refs (it s' c) = refs (it s c)) ->
  flinks s k -> flinks s' k.
Proof.
  induction k as [|c r IH]; intros E L; [exact Logic.I|]. destruct L as (L1 & L2 & L3 & L4). cbn [flinks].
  destruct (E c (or_introl eq_refl)) as (-> & -> & ->). repeat split; auto. apply IH; [|exact L4]. intros x X. apply E. now right.
Qed.
Lemma fwalk s k fuel : flinks s k -> length k <= fuel -> walk fuel s (hd_error k) = Some k.
Proof.
  revert fuel. induction k as [|c r IH]; intros fuel L F; [destruct fuel; reflexivity|]. destruct L as (L1 & L2 & L3 & L4). cbn in F.
  destruct fuel as [|f]; [lia|]. cbn [hd_error walk]. rewrite L1, L2. rewrite (IH f L4); [reflexivity|lia].
Qed.

Lemma freeChain_ok : forall k s fuel rec b, flinks s k -> NoDup k -> length k <= fuel ->
  exists s', freeChain fuel s (hd_error k) rec b = Some (s', b || match rec with Some r => memb r k | None => false end) /\
    agree (fun n => In n k) s s' /\ (forall c, In c k -> live s' c = false /\ tbl s' c = tbl s c) /\
    log s' = rev (map (freed rec) k) ++ log s.
Proof.
  induction k as [|c r IH]; intros s fuel rec b L ND F.
  { exists s. split; [|split; [apply agree_refl|split; [contradiction|reflexivity]]].
    assert (Z : match rec with Some x => memb x [] | None => false end = false) by (destruct rec; reflexivity).
    rewrite Z, orb_false_r. destruct fuel; reflexivity. }
  destruct L as (L1 & L2 & L3 & L4). cbn in F. destruct fuel as [|f]; [lia|]. cbn [hd_error freeChain]. rewrite L1, L2.
  inversion ND as [|? ? Nc ND']; subst.
  set (s0 := setMM s c false).
  assert (D0 : decRef s0 c = Some (setRefs s0 c 0)).
  { unfold decRef. unfold s0 at 1. nrm. rewrite L1. unfold s0. nrm. rewrite updf_same. cbn [refs]. now rewrite L3. }
  rewrite D0.
  assert (X : forall e, let s2 := say (setLive (setRefs s0 c 0) c false) e in
    flinks s2 r /\ agree (fun n => n = c) s s2 /\ live s2 c = false /\ tbl s2 c = tbl s c /\ log s2 = e :: log s).
  { intros e s2. assert (A : agree (fun n => n = c) s s2).
    { split; [reflexivity|]. intros n D. unfold s2, s0. nrm. rewrite !updf_other by exact D. auto. }
    split; [|split; [exact A|split; [|split]]].
    - eapply flinks_frame; [|exact L4]. intros x Ix. destruct A as (_ & A). destruct (A x) as (-> & -> & _); [intros ->; contradiction|auto].
    - unfold s2, s0. nrm. now rewrite updf_same.
    - reflexivity.
    - reflexivity. }
  assert (Go : forall b1 e, e = freed rec c -> exists s', freeChain f (say (setLive (setRefs s0 c 0) c false) e) (hd_error r) rec b1 =
      Some (s', b1 || match rec with Some x => memb x r | None => false end) /\ agree (fun n => In n (c :: r)) s s' /\
      (forall x, In x (c :: r) -> live s' x = false /\ tbl s' x = tbl s x) /\ log s' = rev (map (freed rec) (c :: r)) ++ log s).
  { intros b1 e Ee. destruct (X e) as (X1 & X2 & X3 & X4 & X5). set (s2 := say _ e) in *.
    destruct (IH s2 f rec b1 X1 ND' ltac:(lia)) as (s' & E & A & Dd & Lg). exists s'. split; [exact E|].
    assert (A' : agree (fun n => In n (c :: r)) s s').
    { apply agree_trans with s2.
      - destruct X2 as (M & X2). split; [exact M|]. intros n Nn. apply X2. intros ->. apply Nn. now left.
      - destruct A as (M & A). split; [exact M|]. intros n Nn. apply A. intros In1. apply Nn. now right. }
    split; [exact A'|]. split.
    - intros x [<-|Ix].
      + destruct A as (_ & A). destruct (A c Nc) as (_ & -> & ->). auto.
      + destruct (Dd x Ix) as (D1 & D2). split; [exact D1|]. rewrite D2. destruct X2 as (_ & X2). destruct (X2 x) as (_ & _ & ->); [intros ->; contradiction|reflexivity].
    - rewrite Lg, X5, Ee. cbn [map rev]. rewrite <- app_assoc. reflexivity. }
  assert (Fr : freeMem (setRefs s0 c 0) c = Some (say (setLive (setRefs s0 c 0) c false) (EFree c))).
  { unfold freeMem. unfold s0. nrm. now rewrite L1. }
  destruct rec as [x|]; cbn [freed] in Go |- *.
  - cbn [memb existsb]. destruct (Nat.eqb_spec c x) as [E|D].
    + subst x. destruct (Go true _ eq_refl) as (s' & E & Rest). exists s'. rewrite E. split; [|exact Rest].
      rewrite Nat.eqb_refl, orb_true_r. reflexivity.
    + rewrite Fr. destruct (Go b _ eq_refl) as (s' & E & Rest). exists s'. rewrite E. split; [|exact Rest].
      rewrite (proj2 (Nat.eqb_neq x c)) by congruence. reflexivity.
  - rewrite Fr. destruct (Go b _ eq_refl) as (s' & E & Rest). exists s'. rewrite E. auto.
Qed.

Lemma releaseBack_ok s p k nas rec : live s p = true -> it s p = mkItem false (nonempty k) 0 None 0 false false ->
  tbl s p = hd_error k -> NoDup (p :: k) -> flinks s k -> length k <= msize s ->
  (forall c r, k = c :: r -> parent (it s c) = p /\ acc (it s c) = true) ->
  exists s', releaseBack s p nas rec = Some (s', match rec with Some r => memb r (p :: k) | None => false end) /\
    agree (fun n => In n (p :: k)) s s' /\ live s' p = false /\ tbl s' p = None /\
    (forall c, In c k -> live s' c = false /\ tbl s' c = tbl s c) /\
    log s' = rev ((if nas then [] else [ECb p k]) ++ map (freed rec) k ++ [freed rec p]) ++ log s.
Proof.
  intros L E T ND F B Hd. unfold releaseBack. rewrite E. cbn [refs inmm acc Nat.eqb negb andb ischained haschain].
  set (s1 := if nas then s else say s (ECb p k)).
  assert (E1 : (if nas then Some s else let* l := viewChain s p in Some (say s (ECb p l))) = Some s1).
  { unfold s1. destruct nas; [reflexivity|]. unfold viewChain. rewrite E. cbn [haschain]. rewrite T. destruct k as [|c r]; [reflexivity|].
    cbn [nonempty]. rewrite fwalk; [reflexivity|exact F|cbn in *; lia]. }
  rewrite E1. clear E1.
  assert (A1 : it s1 = it s /\ live s1 = live s /\ tbl s1 = tbl s /\ msize s1 = msize s /\
    log s1 = (if nas then [] else [ECb p k]) ++ log s) by (unfold s1; destruct nas; auto).
  destruct A1 as (I1 & V1 & T1 & M1 & G1). inversion ND as [|? ? Np ND']; subst x l.
  assert (Fin : exists s2 rec2, (if nonempty k then
         let* (t1, hd) := findChained s1 p in
         let* h := hd in
         let* t2 := decRef t1 h in
         if negb (parent (it t2 h) =? p) then None
         else let (t3, ok) := tblRemove t2 h in
              if negb ok then None else freeChain (S (msize s)) t3 (Some h) rec false
       else Some (s1, false)) = Some (s2, rec2) /\
       rec2 = match rec with Some r => memb r k | None => false end /\
       agree (fun n => In n (p :: k)) s s2 /\ live s2 p = true /\ tbl s2 p = None /\
       (forall c, In c k -> live s2 c = false /\ tbl s2 c = tbl s c) /\
       log s2 = rev (map (freed rec) k) ++ log s1).
  { destruct k as [|c r].
    - cbn [nonempty]. exists s1, false. split; [reflexivity|]. split; [destruct rec; reflexivity|]. split; [|split; [|split; [|split]]].
      + split; [exact M1|]. intros n _. now rewrite I1, V1, T1.
      + now rewrite V1.
      + now rewrite T1, T.
      + contradiction.
      + reflexivity.
    - cbn [nonempty]. destruct (Hd c r eq_refl) as (Hp & Ha). pose proof F as (F1 & F2 & F3 & F4).
      unfold findChained. rewrite T1, T. cbn [hd_error]. unfold incRef. rewrite V1, F1, I1. unfold decRef.
      assert (L1 : live (setRefs s1 c (S (refs (it s c)))) c = true) by (nrm; now rewrite V1). rewrite L1. clear L1.
      assert (R1 : refs (it (setRefs s1 c (S (refs (it s c)))) c) = S (refs (it s c))) by (nrm; now rewrite updf_same). rewrite R1. clear R1.
      set (t2 := setRefs (setRefs s1 c (S (refs (it s c)))) c (refs (it s c))).
      assert (I2 : forall x, it t2 x = it s x).
      { intros x. unfold t2. nrm. destruct (Nat.eq_dec x c) as [->|D].
        - rewrite !updf_same, I1. cbn. now destruct (it s c).
        - rewrite !updf_other by exact D. now rewrite I1. }
      rewrite I2, Hp, Nat.eqb_refl. cbn [negb]. unfold tblRemove. rewrite I2, Ha, Hp. cbn [negb].
      set (t3 := setAcc (setTbl t2 p None) c false).
      assert (A3 : agree (fun n => In n (p :: c :: r)) s t3).
      { split; [exact M1|]. intros n Nn. unfold t3, t2. nrm.
        rewrite !(updf_other _ c) by (intros ->; apply Nn; right; now left). rewrite !(updf_other _ p) by (intros ->; apply Nn; now left).
        now rewrite I1, V1, T1. }
      assert (F3' : flinks t3 (c :: r)).
      { eapply flinks_frame; [|exact F]. intros x Ix. unfold t3. destruct (Nat.eq_dec x c) as [->|D].
        - nrm. rewrite updf_same. cbn [next refs]. rewrite I2. unfold t2. nrm. rewrite V1. auto.
        - nrm. rewrite updf_other by exact D. rewrite I2. unfold t2. nrm. rewrite V1. auto. }
      destruct (freeChain_ok (c :: r) t3 (S (msize s)) rec false F3' ND' ltac:(lia)) as (s2 & E2 & A2 & D2 & G2).
      cbn [hd_error] in E2. exists s2, (match rec with Some x => memb x (c :: r) | None => false end). rewrite E2. split; [reflexivity|]. split; [reflexivity|].
      assert (Kp : ~ In p (c :: r)) by exact Np.
      destruct A2 as (Ms & A2). destruct (A2 p Kp) as (_ & B2 & B3).
      split; [|split; [|split; [|split]]].
      + apply agree_trans with t3; [exact A3|]. split; [exact Ms|]. intros n Nn. apply A2. intros Z. apply Nn. now right.
      + rewrite B2. unfold t3, t2. nrm. now rewrite V1.
      + rewrite B3. unfold t3. nrm. now rewrite updf_same.
      + intros x Ix. destruct (D2 x Ix) as (Y1 & Y2). split; [exact Y1|]. rewrite Y2. unfold t3, t2. nrm.
        rewrite updf_other by (intros ->; contradiction). now rewrite T1.
      + rewrite G2. unfold t3, t2. nrm. reflexivity. }
  destruct Fin as (s2 & rec2 & -> & -> & A2 & L2 & T2 & D2 & G2).
  assert (Done : forall e, agree (fun n => In n (p :: k)) s (say (setLive s2 p false) e) /\ live (say (setLive s2 p false) e) p = false /\
    tbl (say (setLive s2 p false) e) p = None /\
    (forall c, In c k -> live (say (setLive s2 p false) e) c = false /\ tbl (say (setLive s2 p false) e) c = tbl s c) /\
    log (say (setLive s2 p false) e) = rev ((if nas then [] else [ECb p k]) ++ map (freed rec) k ++ [e]) ++ log s).
  { intros e. split; [|split; [|split; [|split]]].
    - apply agree_trans with s2; [exact A2|]. split; [reflexivity|]. intros n Nn. nrm. rewrite updf_other by (intros ->; apply Nn; now left). auto.
    - nrm. now rewrite updf_same.
    - exact T2.
    - intros c Ic. destruct (D2 c Ic) as (Y1 & Y2). nrm. rewrite updf_other by (intros ->; contradiction). auto.
    - nrm. rewrite G2, G1. rewrite !rev_app_distr. cbn [rev app]. rewrite <- !app_assoc. destruct nas; reflexivity. }
  assert (Fr : freeMem s2 p = Some (say (setLive s2 p false) (EFree p))) by (unfold freeMem; now rewrite L2).
  destruct rec as [x|]; cbn [freed] in *.
  - cbn [memb existsb]. destruct (Nat.eqb_spec p x) as [E2|D].
    + subst x. eexists. split; [rewrite Nat.eqb_refl; reflexivity|]. apply Done.
    + rewrite Fr. eexists. split; [rewrite (proj2 (Nat.eqb_neq x p)) by congruence; reflexivity|]. apply Done.
  - rewrite Fr. eexists. split; [reflexivity|]. apply Done.
Qed.
