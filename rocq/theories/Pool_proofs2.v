(** Histories of the whole allocator. *)
From Verif Require Import Bytes Compress_model AllocClass_model AllocClass_spec AllocClass_proofs AllocClass_proofs2 AllocClass_proofs3 AllocClass_proofs4 AllocClass_proofs5 Pool_model Pool_spec Pool_proofs.

Section R.
Context (k : conf) (LK : legalConf k).
Ltac gp := cbn [gAc gH gPool gSA gTok] in *.

Lemma init_gi mx tot : GI k (initG mx tot).
Proof.
  constructor; cbn; try discriminate; auto; try lia; try tauto.
  intros p c C. apply init_inv. intros s [E _]. discriminate.
Qed.
Lemma run_gi x tr y : grun k x tr y -> GI k x -> GI k y.
Proof. induction 1; auto. intros G. apply IHgrun. eapply gstep_gi; eauto. Qed.
Lemma history_gi mx tot tr g : ghistory k mx tot tr g -> GI k g.
Proof. intros H. eapply run_gi; [exact H|apply init_gi]. Qed.

Lemma ours_owns g p c s : GI k g -> isClass k p c -> (owns (sAc (gAc g p c)) s <-> hdrOurs (cfgOf k p c) (gH g) s).
Proof. intros G C. rewrite owns_nown. unfold nown. symmetry. apply (i_hdr _ _ _ _ _ _ _ (gi_cls _ _ G p c C)). Qed.
Lemma env_refl g p c : GI k g -> isClass k p c -> envOk (cfgOf k p c) (sAc (gAc g p c)) (gH g) (gH g).
Proof. intros G C. split; [reflexivity|]. intros s O [A B]. apply O. apply (ours_owns _ _ _ _ G C). split; assumption. Qed.
Lemma env_hdr g p c s x : GI k g -> isClass k p c -> hClass (gH g s) = None -> hClass x = None ->
  envOk (cfgOf k p c) (sAc (gAc g p c)) (gH g) (fupd (gH g) s x).
Proof.
  intros G C H1 H2. split; intros u O.
  - apply (ours_owns _ _ _ _ G C) in O. rewrite fupd_other; [reflexivity|]. intros ->. destruct O as [O _]. congruence.
  - rewrite fupd_eq. destruct (Nat.eqb_spec u s) as [E|E]; [intros [Q _]; congruence|]. intros Q. apply O. apply (ours_owns _ _ _ _ G C). exact Q.
Qed.
Lemma env_other g p c l t' h' p' c' : GI k g -> isClass k p c -> isClass k p' c' -> (p' =? p) && (c' =? c) = false ->
  astep (cfgOf k p c) (gAc g p c, gH g) l (t', h') -> (forall s, l = LAddSlab s -> hClass (gH g s) = None) ->
  envOk (cfgOf k p' c') (sAc (gAc g p' c')) (gH g) h'.
Proof.
  intros G C C' NE ST AD. eapply (other_env k (gAc g) (gH g) p c l t' h' p' c'); [exact C|exact C'| |exact (gi_cls _ _ G _ _ C)|exact (gi_cls _ _ G _ _ C')|exact ST|exact AD].
  intros E. injection E as <- <-. rewrite !Nat.eqb_refl in NE. discriminate.
Qed.
Lemma updAc_same f p c x : updAc f p c x p c = x.
Proof. unfold updAc. rewrite !Nat.eqb_refl. reflexivity. Qed.

Lemma gstep_proj g l g' p c : GI k g -> isClass k p c -> gstep k g l g' ->
  (exists a, l = GClass p c a /\ astep (cfgOf k p c) (gAc g p c, gH g) a (gAc g' p c, gH g')) \/
  ((forall a, l <> GClass p c a) /\ gAc g' p c = gAc g p c /\ envOk (cfgOf k p c) (sAc (gAc g p c)) (gH g) (gH g')).
Proof.
  intros G C ST.
  assert (CL : forall q d a t' h' pl sa tk, isClass k q d -> astep (cfgOf k q d) (gAc g q d, gH g) a (t', h') -> (forall s, a = LAddSlab s -> hClass (gH g s) = None) ->
     l = GClass q d a -> g' = mkG (updAc (gAc g) q d t') h' pl sa tk ->
     (exists a, l = GClass p c a /\ astep (cfgOf k p c) (gAc g p c, gH g) a (gAc g' p c, gH g')) \/
     ((forall a, l <> GClass p c a) /\ gAc g' p c = gAc g p c /\ envOk (cfgOf k p c) (sAc (gAc g p c)) (gH g) (gH g'))).
  { intros q d a t' h' pl sa tk C' A AD EL EG. subst l g'. gp. destruct ((p =? q) && (c =? d)) eqn:E.
    - apply andb_true_iff in E as [E1 E2]. apply Nat.eqb_eq in E1, E2. subst q d. left. exists a. split; [reflexivity|]. rewrite updAc_same. exact A.
    - right. split; [|split].
      + intros b Q. injection Q as -> -> _. rewrite !Nat.eqb_refl in E. discriminate.
      + unfold updAc. rewrite E. reflexivity.
      + eapply env_other; eauto. }
  pose proof (gi_tok _ _ G) as TO.
  inversion ST; subst; gp;
  try (right; split; [discriminate|split; [reflexivity|]]; first [apply (env_refl _ _ _ G C)|idtac]).
  - eapply CL; eauto. intros s ->. exfalso. apply H2. eexists. reflexivity.
  - eapply CL; eauto. intros u ->. discriminate.
  - destruct (makeNew_spec _ _ _ H0 (gi_next _ _ G) (gi_can _ _ G)) as (_ & _ & _ & _ & A5 & _).
    pose proof (gi_sa _ _ G s) as Q. gp. pose proof (A5 s) as Q2. rewrite Nat.eqb_refl in Q2. unfold saCnt in Q2.
    assert (NP : noPool (h s) = true) by (destruct (noPool (h s)); [reflexivity|cbn in Q, Q2; lia]).
    assert (HP : hPool (h s) = None) by (unfold noPool in NP; destruct (hPool (h s)); [discriminate|reflexivity]).
    apply (env_hdr _ _ _ _ _ G C); [apply (gi_none _ _ G); exact HP|reflexivity].
  - destruct (hand_hdr _ _ _ _ _ G (tok_in _ _ _) eq_refl) as (Q1 & Q2 & Q3). eapply CL; [|exact H| |reflexivity|reflexivity].
    + apply (TO (KGot p0 c0 s)). apply tok_in.
    + intros u E. injection E as <-. exact Q2.
  - destruct (hand_hdr _ _ _ _ _ G (tok_in _ _ _) eq_refl) as (Q1 & Q2 & Q3). apply (env_hdr _ _ _ _ _ G C); auto.
  - destruct (hand_hdr _ _ _ _ _ G (tok_in _ _ _) eq_refl) as (Q1 & Q2 & Q3). apply (env_hdr _ _ _ _ _ G C); auto.
  - destruct (hand_hdr _ _ _ _ _ G (tok_in _ _ _) eq_refl) as (Q1 & Q2 & Q3). eapply CL; [|exact H| |reflexivity|reflexivity].
    + destruct (TO (KRel p0 s (MRebalance (Some c0)))) as [_ X]; [apply tok_in|]. apply X. reflexivity.
    + intros u E. injection E as <-. exact Q2.
  - unfold saReclaim in H1. destruct (rev (saAdv sa)) as [|x r0] eqn:RV; [discriminate|]. apply pair_equal_spec in H1 as [<- E]. injection E as ->.
    assert (AC : cS s (saAdv sa) = cS s (removelast (saAdv sa)) + b2n (s =? s)) by (apply hd_cS; rewrite RV; reflexivity).
    pose proof (gi_sa _ _ G s) as Q. gp. rewrite Nat.eqb_refl in AC. cbn [b2n Nat.b2n] in AC.
    assert (NP : noPool (h s) = true) by (destruct (noPool (h s)); [reflexivity|cbn in Q; lia]).
    assert (HP : hPool (h s) = None) by (unfold noPool in NP; destruct (hPool (h s)); [discriminate|reflexivity]).
    apply (env_hdr _ _ _ _ _ G C); [apply (gi_none _ _ G); exact HP|reflexivity].
Qed.

Lemma run_proj x tr y p c : grun k x tr y -> GI k x -> isClass k p c ->
  arun (cfgOf k p c) (gAc x p c, gH x) (proj p c tr) (gAc y p c, gH y).
Proof.
  induction 1; intros G C; [constructor|]. pose proof (gstep_gi k LK _ _ _ G H) as G'. specialize (IHgrun G' C).
  destruct (gstep_proj _ _ _ p c G C H) as [(a & -> & A)|(NL & E & EV)].
  - cbn [proj]. rewrite !Nat.eqb_refl. cbn [andb]. econstructor; eauto.
  - assert (P : proj p c (l :: tr) = proj p c tr).
    { destruct l; try reflexivity. cbn [proj]. destruct ((p0 =? p) && (c0 =? c)) eqn:E2; [|reflexivity].
      apply andb_true_iff in E2 as [E3 E4]. apply Nat.eqb_eq in E3, E4. subst. exfalso. eapply NL. reflexivity. }
    rewrite P. rewrite E in IHgrun. eapply RunEnv; [exact EV|exact IHgrun].
Qed.
(** Every class of every history of the allocator has a history in the sense of C09/C10. *)
Lemma class_history mx tot tr g p c : ghistory k mx tot tr g -> isClass k p c -> history (cfgOf k p c) (proj p c tr) (gAc g p c) (gH g).
Proof.
  intros H C. exists (gH (initG mx tot)). split; [intros s [E _]; discriminate|]. exact (run_proj _ _ _ p c H (init_gi mx tot) C).
Qed.

(** Live allocations anywhere. *)
Lemma live_header mx tot tr g p c m : ghistory k mx tot tr g -> isClass k p c -> In m (liveOf tr p c) ->
  hPool (gH g (fst m)) = Some p /\ hClass (gH g (fst m)) = Some c /\ fst m < tot.
Proof.
  intros H C M. pose proof (history_gi _ _ _ _ H) as G. pose proof (class_history _ _ _ _ _ _ H C) as CH.
  destruct (no_overlap _ (LK p c C) _ _ _ CH) as (_ & B & _). destruct (B m M) as [_ HE].
  destruct (history_tinv _ (LK p c C) _ _ _ CH) as (_ & _ & HH). rewrite HH in HE. apply existsb_nown in HE. cbn [fst] in HE.
  apply (ours_owns _ _ _ _ G C) in HE. destruct HE as [H1 H2]. cbn in H1, H2. split; [exact H2|]. split; [exact H1|].
  pose proof (gi_sa _ _ G (fst m)) as Q. unfold noPool in Q. rewrite H2 in Q. cbn [b2n Nat.b2n] in Q.
  assert (TT : saTot (gSA g) = tot).
  { clear -H. assert (forall x tr y, grun k x tr y -> saTot (gSA y) = saTot (gSA x)) as X.
    { clear; induction 1; [reflexivity|]. rewrite IHgrun. clear -H. inversion H; subst; cbn; try reflexivity.
      - match goal with K : makeNew _ = _ |- _ => unfold makeNew in K; rename K into K1 end. destruct (saCan sa); cbn in K1; [|discriminate]. destruct (rev (saFree sa)); [destruct (saNext sa =? saTot sa); [discriminate|]|]; injection K1 as <- <-; reflexivity.
      - match goal with K : makeNew _ = _ |- _ => unfold makeNew in K; rename K into K1 end. destruct (saCan sa); cbn in K1; [|injection K1 as <-; reflexivity]. destruct (rev (saFree sa)); [|discriminate]. destruct (saNext sa =? saTot sa); [|discriminate]. injection K1 as <-; reflexivity.
      - match goal with K : saReclaim _ = _ |- _ => unfold saReclaim in K; rename K into K1 end. destruct (rev (saAdv sa)); [discriminate|]. injection K1 as <- <-. reflexivity. }
    rewrite (X _ _ _ H). reflexivity. }
  pose proof (gi_next _ _ G) as NX. rewrite TT in NX. destruct (Nat.leb_spec (saNext (gSA g)) (fst m)); cbn in Q; lia.
Qed.
Lemma global_disjoint mx tot tr g p c p' c' m m' : ghistory k mx tot tr g -> isClass k p c -> isClass k p' c' ->
  In m (liveOf tr p c) -> In m' (liveOf tr p' c') -> (p, c, m) <> (p', c', m') ->
  fst m <> fst m' \/ (snd m + cSize (cfgOf k p c) <= snd m')%N \/ (snd m' + cSize (cfgOf k p' c') <= snd m)%N.
Proof.
  intros H C C' M M' NE. destruct (live_header _ _ _ _ _ _ _ H C M) as (A1 & A2 & _). destruct (live_header _ _ _ _ _ _ _ H C' M') as (B1 & B2 & _).
  destruct (Nat.eq_dec (fst m) (fst m')) as [E|E]; [|left; exact E]. rewrite E in A1, A2. assert (p' = p) by congruence. assert (c' = c) by congruence. subst p' c'.
  pose proof (class_history _ _ _ _ _ _ H C) as CH. destruct (no_overlap _ (LK p c C) _ _ _ CH) as (_ & _ & D). apply (D m m' M M'). congruence.
Qed.

(** Every slab is in exactly one place. *)
Lemma hand_in g p s : (exists t, In t (gTok g) /\ handSlab t = Some (p, s)) <-> 0 < tcnt (tkS p s) (gTok g).
Proof.
  split.
  - intros (t & T & E). pose proof (tcnt_in (tkS p s) _ _ T) as L. unfold tkS in L at 1. rewrite E, !Nat.eqb_refl in L. cbn in L. lia.
  - intros H. apply tcnt_pos in H as (t & T & L). exists t. split; [exact T|]. unfold tkS in L. destruct (handSlab t) as [[q u]|]; [|lia].
    destruct (Nat.eqb_spec q p); [|cbn in L; lia]. destruct (Nat.eqb_spec u s); [|cbn in L; lia]. congruence.
Qed.
Lemma one_place g s : GI k g -> exists pl, isAt k g s pl /\ forall pl', isAt k g s pl' -> pl' = pl.
Proof.
  intros G. pose proof (gi_sa _ _ G s) as SA. pose proof (gi_free _ _ G s) as FR. unfold noPool in SA. unfold pc0, pIs in FR.
  assert (POOL : forall p, isAt k g s (InPool p) -> hPool (gH g s) = Some p /\ hClass (gH g s) = None) by (intros p I; apply (pfree_hdr k); auto).
  assert (HAND : forall p, isAt k g s (InHand p) -> hPool (gH g s) = Some p /\ hClass (gH g s) = None).
  { intros p (t & T & E). destruct (hand_hdr _ _ _ _ _ G T E) as (A & B & _). auto. }
  assert (CLS : forall p c, isAt k g s (InClass p c) -> hPool (gH g s) = Some p /\ hClass (gH g s) = Some c).
  { intros p c [C O]. apply (ours_owns _ _ _ _ G C) in O as [A B]. cbn in A, B. auto. }
  assert (SAH : isAt k g s InFree \/ isAt k g s InAdvised \/ isAt k g s Unslabbed -> hPool (gH g s) = None).
  { intros H. destruct (hPool (gH g s)); [|reflexivity]. exfalso. cbn in SA, H. rewrite !cS_In in H. destruct (Nat.leb_spec (saNext (gSA g)) s); cbn in SA; lia. }
  destruct (hPool (gH g s)) as [p|] eqn:HP.
  - assert (NSA : ~ (isAt k g s InFree \/ isAt k g s InAdvised \/ isAt k g s Unslabbed)) by (intros X; specialize (SAH X); discriminate).
    destruct (hClass (gH g s)) as [c|] eqn:HC.
    + exists (InClass p c). split.
      * split; [apply (gi_orph _ _ G s); assumption|]. apply (ours_owns _ _ _ _ G); [apply (gi_orph _ _ G s); assumption|]. split; assumption.
      * intros [ | | |q|q d|q] A; try (exfalso; apply NSA; auto; fail).
        -- destruct (POOL _ A). discriminate. -- destruct (CLS _ _ A). congruence. -- destruct (HAND _ A). discriminate.
    + specialize (FR p). rewrite Nat.eqb_refl in FR. cbn [andb b2n Nat.b2n] in FR. destruct (cS s (pFree (gPool g p))) as [|n] eqn:CP.
      * exists (InHand p). split; [apply hand_in; lia|]. intros [ | | |q|q d|q] A; try (exfalso; apply NSA; auto; fail).
        -- exfalso. destruct (POOL _ A) as [E _]. injection E as ->. apply cS_In in A. lia.
        -- destruct (CLS _ _ A). discriminate. -- destruct (HAND _ A). congruence.
      * exists (InPool p). split; [apply cS_In; lia|]. intros [ | | |q|q d|q] A; try (exfalso; apply NSA; auto; fail).
        -- destruct (POOL _ A). congruence. -- destruct (CLS _ _ A). discriminate.
        -- exfalso. destruct (HAND _ A) as [E _]. injection E as ->. apply hand_in in A. lia.
  - cbn [b2n Nat.b2n] in SA.
    assert (NO : forall pl', isAt k g s pl' -> pl' = InFree \/ pl' = InAdvised \/ pl' = Unslabbed).
    { intros [ | | |q|q d|q] A; auto; exfalso. - destruct (POOL _ A). discriminate. - destruct (CLS _ _ A). discriminate. - destruct (HAND _ A). discriminate. }
    destruct (Nat.leb_spec (saNext (gSA g)) s) as [L|L]; cbn [b2n Nat.b2n] in SA.
    + exists Unslabbed. split; [exact L|]. intros pl' A. destruct (NO _ A) as [->|[->|E]]; [| |exact E]; cbn in A; apply cS_In in A; lia.
    + destruct (cS s (saFree (gSA g))) eqn:CF.
      * exists InAdvised. split; [apply cS_In; lia|]. intros pl' A. destruct (NO _ A) as [->|[->|E]]; [|reflexivity|subst]; cbn in A; [apply cS_In in A; lia|lia].
      * exists InFree. split; [apply cS_In; lia|]. intros pl' A. destruct (NO _ A) as [->|[->|E]]; [reflexivity| |subst]; cbn in A; [apply cS_In in A; lia|lia].
Qed.
(** Handing a slab to a class is always legal. *)
Lemma handover g t p c s : GI k g -> In t (gTok g) -> t = KGot p c s \/ t = KRel p s (MRebalance (Some c)) ->
  exists t' h', astep (cfgOf k p c) (gAc g p c, gH g) (LAddSlab s) (t', h').
Proof.
  intros G T E. assert (HS : handSlab t = Some (p, s)) by (destruct E; subst; reflexivity). destruct (hand_hdr _ _ _ _ _ G T HS) as (A & B & C).
  assert (CL : isClass k p c) by (destruct E; subst; pose proof (gi_tok _ _ G _ T) as X; cbn in X; [exact X|apply X; reflexivity]).
  eexists. eexists. eapply StAddSlab; [|exact A|exact C|reflexivity]. intros O. apply (ours_owns _ _ _ _ G CL) in O as [O _]. congruence.
Qed.
End R.
