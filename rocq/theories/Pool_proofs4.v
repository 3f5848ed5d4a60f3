(** The limit of a pool, and exact accounting at rest (C12). *)
From Verif Require Import Bytes Compress_model AllocClass_model AllocClass_spec AllocClass_proofs AllocClass_proofs2 AllocClass_proofs3 AllocClass_proofs4 AllocClass_proofs5 Pool_model Pool_spec Pool_proofs Pool_proofs2 Pool_proofs3.

Definition units (v : N) : nat := N.to_nat (v / kSlabSize).
Lemma units_le x v : x <= units v <-> (ofS x <= v)%N.
Proof.
  unfold units, ofS. pose proof kpos. pose proof (N.div_mod v kSlabSize ltac:(lia)) as D. pose proof (N.mod_lt v kSlabSize ltac:(lia)) as M.
  split; intros; [|assert (N.of_nat x <= v / kSlabSize)%N; [|lia]].
  - assert (N.of_nat x <= v / kSlabSize)%N by lia. nia.
  - apply N.div_le_lower_bound; lia.
Qed.
Definition fK (p : nat) (t : tok) : nat := match t with KTake q _ => b2n (q =? p) | KTake2 q _ => b2n (q =? p) | _ => 0 end.
Definition empt (l : list nat) : nat := match l with [] => 1 | _ => 0 end.

Section L.
Context (k : conf) (LK : legalConf k) (tot : nat) (MO : memOk tot).
Ltac gp := cbn [gAc gH gPool gSA gTok] in *.

Definition rdGe (p : nat) (v : N) (t : tok) : Prop := match t with KRead q _ a => q = p -> (v <= a)%N | _ => True end.
Definition LI (g : gst) (p : nat) : Prop :=
  slabsOf (gH g) p tot + N.to_nat (pAdv (gPool g p)) + tcnt (fA p) (gTok g) + empt (pFree (gPool g p)) * tcnt (fK p) (gTok g)
    <= units (pMax (gPool g p)) + tcnt (fR p) (gTok g) /\
  forall t, In t (gTok g) -> rdGe p (pAdv (gPool g p)) t.

Lemma li_same g g' p : LI g p -> gPool g' p = gPool g p -> slabsOf (gH g') p tot = slabsOf (gH g) p tot ->
  tcnt (fA p) (gTok g') = tcnt (fA p) (gTok g) -> tcnt (fK p) (gTok g') <= tcnt (fK p) (gTok g) -> tcnt (fR p) (gTok g') = tcnt (fR p) (gTok g) ->
  (forall t, In t (gTok g') -> rdGe p (pAdv (gPool g p)) t) -> LI g' p.
Proof. intros [A B] E1 E2 E3 E4 E5 E6. split; rewrite ?E1, ?E2, ?E3, ?E5; [|exact E6]. assert (empt (pFree (gPool g p)) <= 1) by (destruct (pFree _); cbn; lia). nia. Qed.
Lemma rd_mid p v t1 x t2 : (forall t, In t (t1 ++ x :: t2) -> rdGe p v t) -> forall t, In t (t1 ++ t2) -> rdGe p v t.
Proof. intros H. apply tok_mid in H. apply H. Qed.
Lemma rd_le p v v' l : (forall t, In t l -> rdGe p v t) -> (v' <= v)%N -> forall t, In t l -> rdGe p v' t.
Proof. intros H L t I. specialize (H t I). destruct t; auto. cbn in *. intros E. specialize (H E). lia. Qed.
Lemma rd_none p v l : existsb (reading p) l = false -> forall t, In t l -> rdGe p v t.
Proof.
  intros H t I. destruct t; try exact Logic.I. cbn. intros E. exfalso. assert (X : existsb (reading p) l = true); [|congruence].
  apply existsb_exists. eexists. split; [exact I|]. cbn. apply Nat.eqb_eq. exact E.
Qed.
Ltac tks := rewrite ?tcnt_mid in *; cbn [tcnt fC fR fA fT fL fK locking fAall fRall] in *; change (b2n false) with 0 in *.
Ltac rdl RD := first [exact RD | exact (rd_mid _ _ _ _ _ RD) | refine (tok_mid' (rdGe _ _) _ _ _ _ (rd_mid _ _ _ _ _ RD)); exact Logic.I].
Ltac lis := eapply li_same; [eassumption|gp; rewrite ?fupd_other by congruence; try reflexivity|gp; try reflexivity|gp; tks; lia|gp; tks; lia|gp; tks; lia|gp].
Ltac lisq E := let EQ := fresh "EQ" in
  match type of E with ?a <> ?b => assert (EQ : (a =? b) = false) by (apply Nat.eqb_neq; exact E) end;
  eapply li_same; [eassumption|gp; rewrite ?fupd_other by congruence; try reflexivity|gp; try reflexivity| | | |gp];
  [..|try (gp; tks; rewrite ?EQ in *; change (b2n false) with 0 in *; lia)|try (gp; tks; rewrite ?EQ in *; change (b2n false) with 0 in *; lia)|try (gp; tks; rewrite ?EQ in *; change (b2n false) with 0 in *; lia)|].

Lemma li_step g l g' p : GI k g -> CI k tot g -> LI g p -> gstep k g l g' -> lOk tot l -> l <> GAdvised p true -> (forall v, l = GSetMax p v -> (pMax (gPool g p) <= v)%N) -> LI g' p.
Proof.
  intros G C LIV ST LO NR GR. pose proof (ci_tot _ _ _ C) as T. pose proof (ci_cur _ _ _ C p) as (x & X1 & X2 & X3).
  pose proof (gi_tok _ _ G) as TO. pose proof (free_le k tot g p G T) as PF. pose proof (ci_lock _ _ _ C p) as PL. pose proof (ci_adv2 _ _ _ C p) as PA.
  pose proof (proj1 LIV) as LV. pose proof (proj2 LIV) as RD.
  assert (E01 : empt (pFree (gPool g p)) <= 1) by (destruct (pFree _); cbn; lia).
  inversion ST; subst g l g'; gp; try (destruct LO; fail).
  - (* class *) lis; [|exact RD]. apply slabsOf_ext. eapply hpool_class; eauto. apply (gi_cls _ _ G). assumption.
  - (* leave *) lis. + apply slabsOf_ext. eapply hpool_class; eauto. apply (gi_cls _ _ G). assumption. + intros t [<-|I]; [exact Logic.I|auto].
  - (* read *) lis. intros t [<-|I]; [|auto]. cbn. intros <-. lia.
  - (* full *) lis. rdl RD.
  - (* room *) destruct (Nat.eqb_spec p0 p) as [E|E].
    + subst p0. pose proof (RD _ (tok_in _ _ _) eq_refl) as RA. pose proof (ci_read _ _ _ C _ (tok_in _ _ _)) as RB. cbn in RA, RB.
      destruct (limit_false k tot MO _ p adv x G C RB) as [LF _]; gp; [exact X1|lia|]. specialize (LF H). apply units_le in LF.
      split; [gp|gp; rdl RD]. tks. rewrite Nat.eqb_refl in *. change (b2n true) with 1 in *.
      assert (tcnt (fK p) (t1 ++ t2) <= tcnt (fL p) (t1 ++ t2)) by (apply tcnt_le; intros t _; destruct t; cbn; lia).
      assert (tcnt (fA p) (t1 ++ t2) <= tcnt (fC p) (t1 ++ t2)) by (apply tcnt_le; intros t _; destruct t; cbn; lia).
      destruct (pFree (pl p)); cbn [empt length] in *; lia.
    + lisq E. rdl RD.
  - (* bump *) destruct (Nat.eqb_spec p0 p) as [E|E]; [subst p0|lisq E; rdl RD].
    split; gp; rewrite fupd_same; cbn [pCur pFree pAdv pMax setCur]; [tks; lia|rdl RD].
  - (* pop *) destruct (Nat.eqb_spec p0 p) as [E|E]; [subst p0|lisq E; rdl RD].
    split; gp; rewrite fupd_same; cbn [pCur pFree pAdv pMax setFree]; [|rdl RD]. tks. rewrite Nat.eqb_refl in *. change (b2n true) with 1 in *.
    assert (tcnt (fK p) (t1 ++ t2) <= tcnt (fL p) (t1 ++ t2)) by (apply tcnt_le; intros t _; destruct t; cbn; lia).
    assert (Z : tcnt (fK p) (t1 ++ t2) = 0) by lia. rewrite Z. pose proof (hd_len _ _ H) as HL. destruct (pFree (pl p)); [discriminate|]. cbn [empt] in LV. lia.
  - (* new *) destruct (makeNew_spec _ _ _ H0 (gi_next _ _ G) (gi_can _ _ G)) as (A1 & A2 & A3 & _ & A5 & _).
    pose proof (gi_sa _ _ G s) as Q. gp. pose proof (A5 s) as Q2. rewrite Nat.eqb_refl in Q2. unfold saCnt in Q2.
    assert (NP : noPool (h s) = true) by (destruct (noPool (h s)); [reflexivity|cbn in Q, Q2; lia]).
    assert (HP : hPool (h s) = None) by (unfold noPool in NP; destruct (hPool (h s)); [discriminate|reflexivity]).
    pose proof (gstep_gi k LK _ _ _ G ST) as G'.
    assert (SL : s < tot). { apply (hdr_below k tot _ s p0 G'); gp; [lia|]. rewrite fupd_same. reflexivity. }
    assert (SU : slabsOf (fupd h s (initHdr p0)) p tot = slabsOf h p tot + b2n (p0 =? p)).
    { pose proof (slabsOf_upd h s (initHdr p0) p tot SL) as U. unfold pIs in U. rewrite HP in U. cbn [initHdr hPool] in U. change (b2n false) with 0 in U. lia. }
    destruct (Nat.eqb_spec p0 p) as [E|E]; [subst p0|].
    + split; gp; [|rdl RD]. tks. rewrite SU, Nat.eqb_refl in *. change (b2n true) with 1 in *. rewrite H in *. cbn [empt] in *.
      assert (tcnt (fK p) (t1 ++ t2) <= tcnt (fL p) (t1 ++ t2)) by (apply tcnt_le; intros t _; destruct t; cbn; lia). lia.
    + change (b2n false) with 0 in SU. lisq E; [lia|rdl RD].
  - (* new failed *) destruct (Nat.eqb_spec p0 p) as [E|E]; [subst p0|lisq E; rdl RD]. lis. rdl RD.
  - (* unbump *) destruct (Nat.eqb_spec p0 p) as [E|E]; [subst p0|lisq E; rdl RD].
    split; gp; rewrite fupd_same; cbn [pCur pFree pAdv pMax setCur]; [tks; lia|rdl RD].
  - (* add *) lis; [|rdl RD]. apply slabsOf_ext. eapply hpool_class; eauto. apply (gi_cls _ _ G). apply (TO (KGot p0 c s)). apply tok_in.
  - (* give back *) lis. rdl RD.
  - (* resize *) destruct (hand_hdr _ _ _ _ _ G (tok_in _ _ _) eq_refl) as (Q1 & Q2 & Q3). gp.
    assert (SL : s < tot) by (apply (hdr_below k tot _ s p0 G); gp; [lia|exact Q1]).
    assert (SU : slabsOf (fupd h s (resetHdr (h s))) p tot + b2n (p0 =? p) = slabsOf h p tot).
    { pose proof (slabsOf_upd h s (resetHdr (h s)) p tot SL) as U. unfold pIs in U. rewrite Q1 in U. cbn [resetHdr advHdr hPool] in U. change (b2n false) with 0 in U. lia. }
    split; gp; [|rdl RD]. tks. lia.
  - (* advise ok *) destruct (hand_hdr _ _ _ _ _ G (tok_in _ _ _) eq_refl) as (Q1 & Q2 & Q3). gp.
    assert (SL : s < tot) by (apply (hdr_below k tot _ s p0 G); gp; [lia|exact Q1]).
    assert (SU : slabsOf (fupd h s (advHdr (h s))) p tot + b2n (p0 =? p) = slabsOf h p tot).
    { pose proof (slabsOf_upd h s (advHdr (h s)) p tot SL) as U. unfold pIs in U. rewrite Q1 in U. cbn [resetHdr advHdr hPool] in U. change (b2n false) with 0 in U. lia. }
    split; gp; [|rdl RD]. tks. lia.
  - (* advise count *) destruct (Nat.eqb_spec p0 p) as [E|E]; [subst p0|lisq E; rdl RD].
    assert (NX : existsb (reading p) (t1 ++ t2) = false) by (destruct (existsb (reading p) (t1 ++ t2)); [exfalso; apply NR; reflexivity|reflexivity]).
    assert (PN : p < nPools k) by (apply (TO (KAdv p)); apply tok_in).
    pose proof (adv_bound k tot MO _ p G C PN) as AB. pose proof (tot_lt1 tot MO (2 * tot + 1) (Nat.le_refl _)) as TL. pose proof kpos as KP.
    assert (AW : add64 (pAdv (pl p)) 1 = (pAdv (pl p) + 1)%N). { gp. unfold add64. apply N.mod_small. unfold ofS in TL. nia. }
    split; gp; rewrite fupd_same; cbn [pCur pFree pAdv pMax setAdv]; rewrite AW.
    + tks. rewrite Nat.eqb_refl in *. change (b2n true) with 1 in *. lia.
    + refine (tok_mid' (rdGe _ _) _ _ _ _ (rd_none _ _ _ NX)). exact Logic.I.
  - (* advise fail *) lis. rdl RD.
  - (* rebalance, free *) lis. rdl RD.
  - (* rebalance to *) lis; [|rdl RD]. apply slabsOf_ext. eapply hpool_class; eauto. apply (gi_cls _ _ G).
    destruct (TO (KRel p0 s (MRebalance (Some c)))) as [_ X]; [apply tok_in|]. apply X. reflexivity.
  - (* push *) destruct (Nat.eqb_spec p0 p) as [E|E]; [subst p0|lisq E; rdl RD].
    split; gp; rewrite fupd_same; cbn [pCur pFree pAdv pMax setFree]; [|rdl RD]. destruct (pFree (pl p)); cbn [app empt] in *; tks; lia.
  - (* dec *) destruct (Nat.eqb_spec p0 p) as [E|E]; [subst p0|lisq E; rdl RD].
    split; gp; rewrite fupd_same; cbn [pCur pFree pAdv pMax setCur]; [tks; lia|rdl RD].
  - (* reclaim *) unfold saReclaim in H1. destruct (rev (saAdv sa)) as [|y r0] eqn:RV; [discriminate|]. apply pair_equal_spec in H1 as [<- E]. injection E as ->.
    assert (RV2 : hd_error (rev (saAdv sa)) = Some s) by (rewrite RV; reflexivity).
    assert (AC : cS s (saAdv sa) = cS s (removelast (saAdv sa)) + b2n (s =? s)) by (apply hd_cS; exact RV2).
    pose proof (gi_sa _ _ G s) as Q. gp. rewrite Nat.eqb_refl in AC. cbn [b2n Nat.b2n] in AC.
    assert (NP : noPool (h s) = true) by (destruct (noPool (h s)); [reflexivity|cbn in Q; lia]).
    assert (HP : hPool (h s) = None) by (unfold noPool in NP; destruct (hPool (h s)); [discriminate|reflexivity]).
    pose proof (gstep_gi k LK _ _ _ G ST) as G'.
    assert (SL : s < tot). { apply (hdr_below k tot _ s p0 G'); gp; [exact T|]. rewrite fupd_same. reflexivity. }
    assert (SU : slabsOf (fupd h s (initHdr p0)) p tot = slabsOf h p tot + b2n (p0 =? p)).
    { pose proof (slabsOf_upd h s (initHdr p0) p tot SL) as U. unfold pIs in U. rewrite HP in U. cbn [initHdr hPool] in U. change (b2n false) with 0 in U. lia. }
    split; gp; [tks; lia|]. intros t [<-|I]; [exact Logic.I|auto].
  - (* reclaim push *) destruct (Nat.eqb_spec p0 p) as [E|E]; [subst p0|lisq E; rdl RD].
    assert (PN : p < nPools k) by (apply (TO (KRecl p s)); apply tok_in).
    tks. rewrite Nat.eqb_refl in *. change (b2n true) with 1 in *.
    pose proof (adv_bound k tot MO _ p G C PN) as AB. pose proof (tot_lt1 tot MO (2 * tot + 1) (Nat.le_refl _)) as TL. pose proof kpos as KP.
    assert (AW : sub64 (pAdv (pl p)) 1 = (pAdv (pl p) - 1)%N).
    { gp. assert (pAdv (pl p) < w64)%N by (unfold ofS in TL; nia). unfold sub64. rewrite (N.mod_small 1) by reflexivity. replace (pAdv (pl p) + (w64 - 1))%N with (pAdv (pl p) - 1 + 1 * w64)%N by (assert (1 < w64)%N by reflexivity; lia).
      rewrite N.mod_add by discriminate. apply N.mod_small. lia. }
    split; gp; rewrite fupd_same; cbn [pCur pFree pAdv pMax setAdv setFree]; rewrite AW.
    + destruct (pFree (pl p)); cbn [app empt] in *; lia.
    + eapply rd_le; [exact (rd_mid _ _ _ _ _ RD)|lia].
  - (* set max *) destruct (Nat.eqb_spec p0 p) as [E|E]; [subst p0|lisq E; rdl RD].
    specialize (GR v eq_refl). split; gp; rewrite fupd_same; cbn [pCur pFree pAdv pMax setMax]; [|exact RD].
    assert (units (pMax (pl p)) <= units v) by (apply units_le; pose proof (proj1 (units_le _ (pMax (pl p))) (Nat.le_refl _)); lia). lia.
Qed.
End L.
