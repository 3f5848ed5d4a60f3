(** Proofs for C09 across classes: where every slab is. *)
From Verif Require Import Bytes Compress_model AllocClass_model AllocClass_spec AllocClass_proofs AllocClass_proofs2 AllocClass_proofs3 AllocClass_proofs4 AllocClass_proofs5 Pool_model Pool_spec.

Lemma fupd_eq {X} (f : nat -> X) s x t : fupd f s x t = if t =? s then x else f t.
Proof. reflexivity. Qed.
Lemma fupd_same {X} (f : nat -> X) s x : fupd f s x s = x.
Proof. rewrite fupd_eq, Nat.eqb_refl. reflexivity. Qed.
Lemma fupd_other {X} (f : nat -> X) s x t : t <> s -> fupd f s x t = f t.
Proof. intros H. rewrite fupd_eq. apply Nat.eqb_neq in H. rewrite H. reflexivity. Qed.

(** ** Frame: what a class does to headers. *)
Section Frame.
Context (c : acfg) (LC : legalCfg c).
Ltac prj := cbn [sAc sLk live freeing ctxs curS curOff allocd freeS freed canA relMap nActive fst snd hPool hClass hMark] in *.

Lemma ours_prune t h s p : Inv c (t, h) -> sLk t = LkPrune s p -> hdrOurs c h s.
Proof.
  intros I K. unfold Inv in I. prj. apply (i_hdr _ _ _ _ _ _ _ I). pose proof (i_rel _ _ _ _ _ _ _ I s) as Q. rewrite K in Q. cbn [prOn] in Q. rewrite Nat.eqb_refl in Q. cbn [b2n Nat.b2n] in Q. lia.
Qed.
Lemma ours_ctx t h x : Inv c (t, h) -> In x (ctxs t) -> hdrOurs c h (xSlab x).
Proof.
  intros I K. unfold Inv in I. prj. apply (i_hdr _ _ _ _ _ _ _ I). destruct (ctx_inR c _ _ _ _ _ _ _ I K) as (Q & _). rewrite Q. cbn. lia.
Qed.
Lemma astep_leave t h l t' h' s : astep c (t, h) l (t', h') -> Inv c (t, h) -> leaves l = Some s ->
  hdrOurs c h s /\ hPool (h' s) = hPool (h s) /\ hClass (h' s) = None /\ hMark (h' s) = false.
Proof.
  intros ST I L. inversion ST; subst; cbn in L; try discriminate; injection L as ->.
  - match goal with K : startRelease _ _ _ _ = _ |- _ => unfold startRelease in K; match type of K with (if ?b then _ else _) = _ => destruct b eqn:HD end; [discriminate|]; rename K into E end.
    apply hdr_check in HD as [HD HM]. destruct (existsb _ _); [|destruct (relMap _ _); [discriminate|]; destruct (existsb _ _); discriminate].
    injection E as <- <-. rewrite fupd_same. cbn. auto.
  - match goal with K : startFinish _ _ _ _ _ = _ |- _ => cbn in K; apply pair_equal_spec in K as [_ <-] end. rewrite fupd_same. cbn. split; [|auto]. eapply ours_prune; eauto.
  - match goal with K : completeFinish _ _ _ = _ |- _ => unfold completeFinish in K; apply pair_equal_spec in K as [_ <-] end. rewrite fupd_same. cbn. split; [|auto].
    match goal with K : In _ (ctxs _) |- _ => exact (ours_ctx _ _ _ I K) end.
Qed.
Lemma astep_keep t h l t' h' s : astep c (t, h) l (t', h') -> Inv c (t, h) -> leaves l <> Some s -> l <> LAddSlab s ->
  hPool (h' s) = hPool (h s) /\ hClass (h' s) = hClass (h s) /\ (h' s = h s \/ hdrOurs c h s).
Proof.
  intros ST I L NA. inversion ST; subst; cbn in L; auto.
  - match goal with K : addSlabLocked _ _ _ _ = _ |- _ => apply pair_equal_spec in K as [_ <-] end. rewrite fupd_other by congruence. auto.
  - match goal with K : startRelease _ _ _ _ = _ |- _ => unfold startRelease in K; match type of K with (if ?b then _ else _) = _ => destruct b eqn:HD end; [discriminate|]; rename K into E end.
    destruct (existsb _ _); [|destruct (relMap _ _); [discriminate|]; destruct (existsb _ _); discriminate].
    injection E as <- <-. rewrite fupd_other by congruence. auto.
  - match goal with K : startRelease _ _ _ _ = _ |- _ => unfold startRelease in K; match type of K with (if ?b then _ else _) = _ => destruct b eqn:HD end; [discriminate|]; rename K into E end.
    apply hdr_check in HD as [HD HM]. destruct (existsb _ _); [discriminate|]. destruct (relMap _ _); [discriminate|]; destruct (existsb _ _); [|discriminate].
    injection E as <- <-. rewrite fupd_eq. destruct (Nat.eqb_spec s s0) as [E|E]; [subst s0|]; cbn; auto.
  - match goal with K : startAborted _ _ _ _ = _ |- _ => unfold startAborted in K; destruct (restoreFreed _ _ _); [|discriminate]; cbn in K; injection K as <- <- end.
    rewrite fupd_eq. destruct (Nat.eqb_spec s s0) as [E|E]; [subst s0|]; cbn; auto. split; [auto|]. split; [auto|]. right. eapply ours_prune; eauto.
  - match goal with K : startFinish _ _ _ _ _ = _ |- _ => cbn in K; apply pair_equal_spec in K as [_ <-] end. rewrite fupd_other by congruence. auto.
  - match goal with K : startFinish _ _ _ _ _ = _ |- _ => cbn in K; apply pair_equal_spec in K as [_ <-] end. auto.
  - match goal with K : abortRelease _ _ _ _ = _ |- _ => unfold abortRelease in K; destruct (restoreFreed _ _ _); [|discriminate]; cbn in K; injection K as <- <- end.
    match goal with K : In _ (ctxs _) |- _ => pose proof (ours_ctx _ _ _ I K) as O end. cbn in O.
    rewrite fupd_eq. destruct (Nat.eqb_spec s s0) as [E|E]; [subst s0|]; cbn; auto. split; [auto|]. split; [|auto]. symmetry. apply O.
  - match goal with K : completeFinish _ _ _ = _ |- _ => unfold completeFinish in K; apply pair_equal_spec in K as [_ <-] end. rewrite fupd_other by congruence. auto.
Qed.
Lemma astep_add t h s t' h' : astep c (t, h) (LAddSlab s) (t', h') ->
  hPool (h s) = Some (cPool c) /\ hMark (h s) = false /\ hPool (h' s) = Some (cPool c) /\ hClass (h' s) = Some (cId c) /\ ~ owns (sAc t) s.
Proof.
  intros ST. inversion ST; subst. match goal with K : addSlabLocked _ _ _ _ = _ |- _ => apply pair_equal_spec in K as [_ <-] end. rewrite fupd_same. cbn. auto.
Qed.
End Frame.

(** ** Token counts *)
Fixpoint tcnt (f : tok -> nat) (l : list tok) : nat := match l with [] => 0 | x :: r => f x + tcnt f r end.
Lemma tcnt_app f l1 l2 : tcnt f (l1 ++ l2) = tcnt f l1 + tcnt f l2.
Proof. induction l1; cbn; lia. Qed.
Lemma tcnt_mid f l1 x l2 : tcnt f (l1 ++ x :: l2) = f x + tcnt f (l1 ++ l2).
Proof. rewrite !tcnt_app. cbn. lia. Qed.
Lemma tcnt_in f l x : In x l -> f x <= tcnt f l.
Proof. induction l; cbn; [tauto|]. intros [->|H]; [lia|]. specialize (IHl H). lia. Qed.
Lemma tcnt_pos f l : 0 < tcnt f l -> exists x, In x l /\ 0 < f x.
Proof. induction l; cbn; [lia|]. intros H. destruct (f a) eqn:E; [|exists a; split; [auto|lia]]. destruct IHl as (x & A & B); [lia|]. eauto. Qed.

Definition pc0 (p : nat) (x : hdr) : bool := pIs p x && match hClass x with None => true | Some _ => false end.
Definition noPool (x : hdr) : bool := match hPool x with None => true | Some _ => false end.
Definition tkS (p s : nat) (t : tok) : nat :=
  match handSlab t with Some (q, u) => b2n ((q =? p) && (u =? s)) | None => 0 end.
Definition tokOk (k : conf) (t : tok) : Prop :=
  match t with
  | KRead p c _ => isClass k p c | KTake p c => isClass k p c | KTake2 p c => isClass k p c | KGot p c _ => isClass k p c
  | KFail p => p < nPools k | KDec p => p < nPools k | KAdv p => p < nPools k | KPush p _ => p < nPools k | KRecl p _ => p < nPools k
  | KRel p _ m => p < nPools k /\ forall r, m = MRebalance (Some r) -> isClass k p r
  end.

Record GI (k : conf) (g : gst) : Prop := mkGI {
  gi_cls : forall p c, isClass k p c -> Inv (cfgOf k p c) (gAc g p c, gH g);
  gi_free : forall s p, cS s (pFree (gPool g p)) + tcnt (tkS p s) (gTok g) = b2n (pc0 p (gH g s));
  gi_sa : forall s, cS s (saFree (gSA g)) + cS s (saAdv (gSA g)) + b2n (saNext (gSA g) <=? s) = b2n (noPool (gH g s));
  gi_orph : forall s p c, hPool (gH g s) = Some p -> hClass (gH g s) = Some c -> isClass k p c;
  gi_none : forall s, hPool (gH g s) = None -> hClass (gH g s) = None;
  gi_mark : forall s, hClass (gH g s) = None -> hMark (gH g s) = false;
  gi_can : saCan (gSA g) = false -> saFree (gSA g) = [] /\ saNext (gSA g) = saTot (gSA g);
  gi_next : saNext (gSA g) <= saTot (gSA g);
  gi_tok : forall t, In t (gTok g) -> tokOk k t
}.

Lemma option_eq_dec_leaves l s : {leaves l = Some s} + {leaves l <> Some s}.
Proof. destruct (leaves l) as [x|]; [destruct (Nat.eq_dec x s) as [E|E]; [left; congruence|right; congruence]|right; discriminate]. Qed.

Section G.
Context (k : conf) (LK : legalConf k).
Ltac gp := cbn [gAc gH gPool gSA gTok] in *.

Lemma isClass_dec p c : {isClass k p c} + {~ isClass k p c}.
Proof. unfold isClass. destruct (lt_dec p (nPools k)), (lt_dec c (length (sizesOf k p))); [left; auto|right; lia..]. Qed.

(** Another class's step is legal environment behaviour. *)
Lemma other_env f h p c l t' h' p' c' : isClass k p c -> isClass k p' c' -> (p, c) <> (p', c') ->
  Inv (cfgOf k p c) (f p c, h) -> Inv (cfgOf k p' c') (f p' c', h) -> astep (cfgOf k p c) (f p c, h) l (t', h') ->
  (forall s, l = LAddSlab s -> hClass (h s) = None) -> envOk (cfgOf k p' c') (sAc (f p' c')) h h'.
Proof.
  intros C1 C2 NE I I' ST AD.
  assert (OW : forall s, owns (sAc (f p' c')) s <-> hdrOurs (cfgOf k p' c') h s).
  { intros s. rewrite owns_nown. unfold nown. symmetry. apply (i_hdr _ _ _ _ _ _ _ I'). }
  assert (NB : forall s, hdrOurs (cfgOf k p c) h s -> hdrOurs (cfgOf k p' c') h s -> False).
  { intros s [A B] [A' B']. cbn in *. apply NE. congruence. }
  split; intros s O.
  - apply OW in O. destruct (option_eq_dec_leaves l s) as [L|L].
    + exfalso. destruct (astep_leave _ _ _ _ _ _ _ ST I L) as [Q _]. eauto.
    + destruct (astep_keep (cfgOf k p c) _ _ _ _ _ s ST I L) as (_ & _ & [Q|Q]); [|exact Q|exfalso; eauto].
      intros ->. specialize (AD s eq_refl). destruct O as [O _]. congruence.
  - rewrite OW in O. intros [A B]. cbn in A, B. destruct (option_eq_dec_leaves l s) as [L|L].
    + destruct (astep_leave _ _ _ _ _ _ _ ST I L) as (_ & _ & Q & _). congruence.
    + assert (l = LAddSlab s \/ l <> LAddSlab s) as [->|NA].
      { destruct l; try (right; discriminate). destruct (Nat.eq_dec s0 s) as [->|X]; [left; reflexivity|right; congruence]. }
      * destruct (astep_add _ _ _ _ _ _ ST) as (_ & _ & Q1 & Q2 & _). cbn in Q1, Q2. apply NE. congruence.
      * destruct (astep_keep (cfgOf k p c) _ _ _ _ _ s ST I L NA) as (Q1 & Q2 & _). apply O. split; cbn; congruence.
Qed.

Lemma pool_env p c t h s x : isClass k p c -> Inv (cfgOf k p c) (t, h) -> hClass (h s) = None -> hClass x = None ->
  Inv (cfgOf k p c) (t, fupd h s x).
Proof.
  intros C I H1 H2. eapply env_inv; [exact I|].
  assert (OW : forall s, owns (sAc t) s <-> hdrOurs (cfgOf k p c) h s).
  { intros u. rewrite owns_nown. unfold nown. symmetry. apply (i_hdr _ _ _ _ _ _ _ I). }
  split; intros u O.
  - apply OW in O. rewrite fupd_other; [reflexivity|]. intros ->. destruct O as [O _]. congruence.
  - rewrite OW in O. rewrite fupd_eq. destruct (Nat.eqb_spec u s) as [E|E]; [intros [Q _]; congruence|exact O].
Qed.

Lemma hd_removelast (l : list nat) s : hd_error (rev l) = Some s -> l = removelast l ++ [s].
Proof.
  intros H. destruct (rev l) as [|x r] eqn:E; [discriminate|]. cbn in H. injection H as ->.
  apply (f_equal (@rev nat)) in E. rewrite rev_involutive in E. cbn in E. rewrite E, removelast_last. reflexivity.
Qed.
Lemma hd_cS (l : list nat) s u : hd_error (rev l) = Some s -> cS u l = cS u (removelast l) + b2n (s =? u).
Proof. intros H. rewrite (hd_removelast l s H) at 1. rewrite cS_app. cbn. lia. Qed.
Lemma hd_len (l : list nat) s : hd_error (rev l) = Some s -> length l = S (length (removelast l)).
Proof. intros H. rewrite (hd_removelast l s H) at 1. rewrite app_length. cbn. lia. Qed.

(** A slab in hand belongs to the pool and to no class. *)
Lemma hand_hdr g t p s : GI k g -> In t (gTok g) -> handSlab t = Some (p, s) ->
  hPool (gH g s) = Some p /\ hClass (gH g s) = None /\ hMark (gH g s) = false.
Proof.
  intros I T H. pose proof (gi_free _ _ I s p) as Q. pose proof (tcnt_in (tkS p s) _ _ T) as L. unfold tkS in L at 1. rewrite H, !Nat.eqb_refl in L. cbn [andb b2n Nat.b2n] in L.
  assert (P : pc0 p (gH g s) = true) by (destruct (pc0 p (gH g s)); [reflexivity|cbn in Q; lia]).
  unfold pc0, pIs in P. apply andb_true_iff in P as [P1 P2]. destruct (hPool (gH g s)) as [q|]; [|discriminate]. apply Nat.eqb_eq in P1 as ->.
  destruct (hClass (gH g s)) eqn:HC; [discriminate|]. split; [reflexivity|]. split; [reflexivity|]. apply (gi_mark _ _ I). exact HC.
Qed.
Lemma pfree_hdr g p s : GI k g -> In s (pFree (gPool g p)) -> hPool (gH g s) = Some p /\ hClass (gH g s) = None.
Proof.
  intros I T. pose proof (gi_free _ _ I s p) as Q. apply cS_In in T.
  assert (P : pc0 p (gH g s) = true) by (destruct (pc0 p (gH g s)); [reflexivity|cbn in Q; lia]).
  unfold pc0, pIs in P. apply andb_true_iff in P as [P1 P2]. destruct (hPool (gH g s)) as [q|]; [|discriminate]. apply Nat.eqb_eq in P1 as ->.
  destruct (hClass (gH g s)) eqn:HC; [discriminate|]. auto.
Qed.

(** A class step, with the slab tokens it takes ([tk0]) and leaves ([tk]). *)
Lemma class_gi f h pl sa tk0 p c l t' h' tk : GI k (mkG f h pl sa tk0) -> isClass k p c ->
  astep (cfgOf k p c) (f p c, h) l (t', h') ->
  (forall s, l = LAddSlab s -> hClass (h s) = None) ->
  (forall s q, tcnt (tkS q s) tk + b2n (match l with LAddSlab u => (u =? s) && (p =? q) | _ => false end)
             = tcnt (tkS q s) tk0 + b2n (match leaves l with Some u => (u =? s) && (p =? q) | _ => false end)) ->
  (forall t, In t tk -> tokOk k t) ->
  GI k (mkG (updAc f p c t') h' pl sa tk).
Proof.
  intros G C ST AD TK TO. pose proof (gi_cls _ _ G p c C) as I. gp.
  assert (HS : forall s q, (leaves l = Some s -> pc0 q (h' s) = (p =? q) /\ pc0 q (h s) = false /\ hPool (h s) = Some p /\ hPool (h' s) = Some p /\ hClass (h' s) = None /\ hMark (h' s) = false) /\
     (l = LAddSlab s -> pc0 q (h' s) = false /\ pc0 q (h s) = (p =? q) /\ hPool (h s) = Some p /\ hPool (h' s) = Some p /\ hClass (h' s) = Some c) /\
     (leaves l <> Some s -> l <> LAddSlab s -> hPool (h' s) = hPool (h s) /\ hClass (h' s) = hClass (h s) /\ (hClass (h s) = None -> h' s = h s))).
  { intros s q. split; [|split].
    - intros L. destruct (astep_leave _ _ _ _ _ _ _ ST I L) as ([O1 O2] & Q1 & Q2 & Q3). cbn in O1, O2. unfold pc0, pIs. rewrite Q1, Q2, O1, O2. rewrite andb_true_r, andb_false_r. auto 8.
    - intros ->. destruct (astep_add _ _ _ _ _ _ ST) as (Q1 & Q2 & Q3 & Q4 & _). cbn in Q1, Q3, Q4. specialize (AD s eq_refl). unfold pc0, pIs. rewrite Q1, Q3, Q4, AD. rewrite andb_true_r, andb_false_r. auto 8.
    - intros L NA. destruct (astep_keep (cfgOf k p c) _ _ _ _ _ s ST I L NA) as (Q1 & Q2 & Q3). split; [exact Q1|]. split; [exact Q2|]. intros HN. destruct Q3 as [Q3|[Q3 _]]; [exact Q3|congruence]. }
  assert (LA : forall s, leaves l = Some s -> ~ isAdd l) by (intros s L [u ->]; discriminate).
  assert (DEC : forall s, leaves l = Some s \/ l = LAddSlab s \/ (leaves l <> Some s /\ l <> LAddSlab s)).
  { intros s. destruct (option_eq_dec_leaves l s) as [L|L]; [auto|]. right. destruct l; try (right; split; [exact L|discriminate]). destruct (Nat.eq_dec s0 s) as [->|X]; [left; reflexivity|right; split; [exact L|congruence]]. }
  constructor; gp.
  - intros p' c' C'. unfold updAc. destruct (Nat.eqb_spec p' p) as [E1|E1]; [subst p'; destruct (Nat.eqb_spec c' c) as [E2|E2]; [subst c'|]|]; cbn [andb].
    + eapply step_inv; [apply LK; exact C|exact I|exact ST].
    + eapply env_inv; [apply (gi_cls _ _ G); exact C'|]. gp. eapply other_env; [exact C|exact C'|congruence|exact I|apply (gi_cls _ _ G); exact C'|exact ST|exact AD].
    + eapply env_inv; [apply (gi_cls _ _ G); exact C'|]. gp. eapply other_env; [exact C|exact C'|congruence|exact I|apply (gi_cls _ _ G); exact C'|exact ST|exact AD].
  - intros s q. pose proof (gi_free _ _ G s q) as Q. gp. specialize (TK s q). destruct (HS s q) as (H1 & H2 & H3). destruct (DEC s) as [L|[L|[L1 L2]]].
    + destruct (H1 L) as (A1 & A2 & _). rewrite A1. rewrite A2 in Q. rewrite L, Nat.eqb_refl in TK. destruct l; try discriminate; cbn [andb b2n Nat.b2n] in *; lia.
    + destruct (H2 L) as (A1 & A2 & _). rewrite A1. rewrite A2 in Q. subst l. rewrite Nat.eqb_refl in TK. cbn [andb b2n Nat.b2n leaves] in *; lia.
    + destruct (H3 L1 L2) as (A1 & A2 & _). unfold pc0, pIs in *. rewrite A1, A2. 
      assert (TK' : tcnt (tkS q s) tk = tcnt (tkS q s) tk0).
      { assert (X1 : match l with LAddSlab u => (u =? s) && (p =? q) | _ => false end = false).
        { destruct l; try reflexivity. destruct (Nat.eqb_spec s0 s); [congruence|reflexivity]. }
        assert (X2 : match leaves l with Some u => (u =? s) && (p =? q) | None => false end = false).
        { destruct (leaves l); [|reflexivity]. destruct (Nat.eqb_spec n s); [congruence|reflexivity]. }
        rewrite X1, X2 in TK. cbn in TK. lia. }
      lia.
  - intros s. pose proof (gi_sa _ _ G s) as Q. gp. rewrite Q. unfold noPool. destruct (HS s 0) as (H1 & H2 & H3). destruct (DEC s) as [L|[L|[L1 L2]]].
    + destruct (H1 L) as (_ & _ & A1 & A2 & _). rewrite A1, A2. reflexivity.
    + destruct (H2 L) as (_ & _ & A1 & A2 & _). rewrite A1, A2. reflexivity.
    + destruct (H3 L1 L2) as (A1 & A2 & _). rewrite A1. reflexivity.
  - intros s q d Q1 Q2. destruct (HS s 0) as (H1 & H2 & H3). destruct (DEC s) as [L|[L|[L1 L2]]].
    + destruct (H1 L) as (_ & _ & _ & _ & A & _). congruence.
    + destruct (H2 L) as (_ & _ & _ & A1 & A2). assert (q = p) by congruence. assert (d = c) by congruence. subst. exact C.
    + destruct (H3 L1 L2) as (A1 & A2 & _). apply (gi_orph _ _ G s); gp; congruence.
  - intros s Q1. destruct (HS s 0) as (H1 & H2 & H3). destruct (DEC s) as [L|[L|[L1 L2]]].
    + destruct (H1 L) as (_ & _ & _ & A & _). congruence.
    + destruct (H2 L) as (_ & _ & _ & A1 & A2). congruence.
    + destruct (H3 L1 L2) as (A1 & A2 & _). rewrite A2. apply (gi_none _ _ G). gp. congruence.
  - intros s Q1. destruct (HS s 0) as (H1 & H2 & H3). destruct (DEC s) as [L|[L|[L1 L2]]].
    + apply (H1 L).
    + destruct (H2 L) as (_ & _ & _ & A1 & A2). congruence.
    + destruct (H3 L1 L2) as (A1 & A2 & A3). rewrite A2 in Q1. rewrite A3 by exact Q1. apply (gi_mark _ _ G). exact Q1.
  - apply (gi_can _ _ G).
  - apply (gi_next _ _ G).
  - exact TO.
Qed.

(** A step that touches only pools and tokens. *)
Lemma pool_gi f h pl sa tk0 pl' sa' tk : GI k (mkG f h pl sa tk0) ->
  (forall s q, cS s (pFree (pl' q)) + tcnt (tkS q s) tk = cS s (pFree (pl q)) + tcnt (tkS q s) tk0) ->
  (forall t, In t tk -> tokOk k t) ->
  saFree sa' = saFree sa -> saAdv sa' = saAdv sa -> saNext sa' = saNext sa -> saTot sa' = saTot sa -> 
  (saCan sa' = false -> saFree sa' = [] /\ saNext sa' = saTot sa') ->
  GI k (mkG f h pl' sa' tk).
Proof.
  intros G E TO S1 S2 S3 S4 S5. constructor; gp; try apply G; auto.
  - intros s p. rewrite E. apply (gi_free _ _ G).
  - intros s. rewrite S1, S2, S3. apply (gi_sa _ _ G).
  - rewrite S3, S4. apply (gi_next _ _ G).
Qed.

Definition saCnt (sa : slabAlloc) (u : nat) : nat := cS u (saFree sa) + cS u (saAdv sa) + b2n (saNext sa <=? u).
(** A step that changes the header of one slab that is in no class. *)
Lemma hdr_gi f h pl sa tk0 s x pl' sa' tk : GI k (mkG f h pl sa tk0) ->
  hClass (h s) = None -> hClass x = None -> hMark x = false ->
  (forall u q, cS u (pFree (pl' q)) + tcnt (tkS q u) tk + b2n ((u =? s) && pIs q (h s))
             = cS u (pFree (pl q)) + tcnt (tkS q u) tk0 + b2n ((u =? s) && pIs q x)) ->
  (forall u, saCnt sa' u + b2n ((u =? s) && noPool (h s)) = saCnt sa u + b2n ((u =? s) && noPool x)) ->
  (forall t, In t tk -> tokOk k t) ->
  (saCan sa' = false -> saFree sa' = [] /\ saNext sa' = saTot sa') -> saNext sa' <= saTot sa' ->
  GI k (mkG f (fupd h s x) pl' sa' tk).
Proof.
  intros G H1 H2 H3 E1 E2 TO E3 E4. constructor; gp; auto.
  - intros p c C. apply pool_env; auto. apply (gi_cls _ _ G p c C).
  - intros u q. specialize (E1 u q). pose proof (gi_free _ _ G u q) as Q. gp. rewrite fupd_eq. destruct (Nat.eqb_spec u s) as [E|E]; [subst u|].
    + unfold pc0 in *. rewrite H1, andb_true_r in Q. rewrite H2, andb_true_r. cbn [andb] in E1. lia.
    + cbn [andb b2n Nat.b2n] in E1. lia.
  - intros u. specialize (E2 u). pose proof (gi_sa _ _ G u) as Q. gp. unfold saCnt in E2. rewrite fupd_eq. destruct (Nat.eqb_spec u s) as [E|E]; [subst u|]; cbn [andb b2n Nat.b2n] in E2; lia.
  - intros u p c. rewrite fupd_eq. destruct (Nat.eqb_spec u s); [congruence|]. apply (gi_orph _ _ G).
  - intros u. rewrite fupd_eq. destruct (Nat.eqb_spec u s); [auto|]. apply (gi_none _ _ G).
  - intros u. rewrite fupd_eq. destruct (Nat.eqb_spec u s); [auto|]. apply (gi_mark _ _ G).
Qed.

Lemma makeNew_spec sa sa' r : makeNew sa = (sa', r) -> saNext sa <= saTot sa -> (saCan sa = false -> saFree sa = [] /\ saNext sa = saTot sa) ->
  saTot sa' = saTot sa /\ saNext sa' <= saTot sa' /\ saAdv sa' = saAdv sa /\ (saCan sa' = false -> saFree sa' = [] /\ saNext sa' = saTot sa') /\
  match r with
  | Some s => (forall u, saCnt sa u = saCnt sa' u + b2n (u =? s)) /\ saCan sa' = saCan sa
  | None => saFree sa = [] /\ saNext sa = saTot sa /\ saFree sa' = [] /\ saNext sa' = saTot sa
  end.
Proof.
  unfold makeNew. intros E L CN. destruct (saCan sa) eqn:CA; cbn [negb] in E.
  - destruct (rev (saFree sa)) as [|x r0] eqn:RV.
    + assert (F : saFree sa = []) by (apply (f_equal (@rev nat)) in RV; rewrite rev_involutive in RV; exact RV).
      destruct (Nat.eqb_spec (saNext sa) (saTot sa)) as [E1|E1]; apply pair_equal_spec in E as [<- <-]; cbn [saTot saNext saAdv saFree saCan].
      * rewrite F. auto 9.
      * split; [reflexivity|]. split; [lia|]. split; [reflexivity|]. split; [discriminate|]. split; [|reflexivity].
        intros u. unfold saCnt. cbn [saFree saAdv saNext]. destruct (Nat.leb_spec (saNext sa) u), (Nat.leb_spec (S (saNext sa)) u), (Nat.eqb_spec u (saNext sa)); cbn [b2n Nat.b2n]; try lia.
    + apply pair_equal_spec in E as [<- <-]. cbn. split; [reflexivity|]. split; [exact L|]. split; [reflexivity|]. split; [discriminate|]. split; [|reflexivity].
      intros u. unfold saCnt. cbn [saFree saAdv saNext]. rewrite (hd_cS (saFree sa) x u) by (rewrite RV; reflexivity). rewrite (Nat.eqb_sym u x). lia.
  - apply pair_equal_spec in E as [<- <-]. rewrite CA. destruct (CN eq_refl) as [F N0]. auto 9.
Qed.

Lemma tok_mid (P : tok -> Prop) t1 x t2 : (forall t, In t (t1 ++ x :: t2) -> P t) -> P x /\ (forall t, In t (t1 ++ t2) -> P t).
Proof. intros H. split; [apply H; apply in_or_app; right; left; reflexivity|]. intros t I. apply H. apply in_app_or in I. apply in_or_app. destruct I; [auto|right; right; auto]. Qed.
Lemma tok_mid' (P : tok -> Prop) t1 x t2 : P x -> (forall t, In t (t1 ++ t2) -> P t) -> forall t, In t (t1 ++ x :: t2) -> P t.
Proof. intros HX H t I. apply in_app_or in I. destruct I as [I|[<-|I]]; [apply H; apply in_or_app; auto|exact HX|apply H; apply in_or_app; auto]. Qed.
Lemma tok_in (x : tok) t1 t2 : In x (t1 ++ x :: t2). Proof. apply in_or_app. right. left. reflexivity. Qed.

Theorem gstep_gi g l g' : GI k g -> gstep k g l g' -> GI k g'.
Proof.
  intros G ST. inversion ST; subst; pose proof (gi_tok _ _ G) as TO; gp;
  try (match type of TO with forall t, In t (_ ++ _ :: _) -> _ => apply tok_mid in TO as [TX TO] end).
  - (* class *) eapply class_gi; eauto.
    + intros s ->. exfalso. apply H2. eexists. reflexivity.
    + intros s q. rewrite H1. destruct l0; try reflexivity. exfalso. apply H2. eexists. reflexivity.
  - (* leave *) eapply class_gi; eauto.
    + intros u ->. discriminate.
    + intros u q. cbn [tcnt tkS handSlab]. rewrite H1, (andb_comm (s =? u)). destruct l0; try discriminate; cbn [b2n Nat.b2n]; lia.
    + intros t [<-|T]; [|auto]. cbn. split; [apply H|assumption].
  - (* read *) eapply pool_gi; eauto; [|apply G]. intros t [<-|T]; [exact H|auto].
  - (* full *) eapply pool_gi; eauto; [|apply G]. intros s q. rewrite tcnt_mid. reflexivity.
  - (* room *) eapply pool_gi; eauto; [| |apply G]. + intros s q. rewrite !tcnt_mid. reflexivity. + apply tok_mid'; auto.
  - (* bump *) eapply pool_gi; eauto; [| |apply G]. + intros s q. rewrite !tcnt_mid. rewrite fupd_eq. destruct (Nat.eqb_spec q p) as [E|E]; [subst|]; reflexivity. + apply tok_mid'; auto.
  - (* pop *) eapply pool_gi; eauto; [| |apply G].
    + intros u q. rewrite !tcnt_mid. rewrite fupd_eq. cbn [tkS handSlab]. destruct (Nat.eqb_spec q p) as [E|E]; [subst q|].
      * cbn [pFree setFree]. rewrite (hd_cS _ _ u H), Nat.eqb_refl. cbn [andb]. lia.
      * destruct (Nat.eqb_spec p q); [congruence|]. cbn. lia.
    + apply tok_mid'; auto.
  - (* new *) destruct (makeNew_spec _ _ _ H0 (gi_next _ _ G) (gi_can _ _ G)) as (A1 & A2 & A3 & A4 & A5 & A6). 
    pose proof (gi_sa _ _ G s) as Q. gp. pose proof (A5 s) as Q2. rewrite Nat.eqb_refl in Q2. unfold saCnt in Q2.
    assert (NP : noPool (h s) = true) by (destruct (noPool (h s)); [reflexivity|cbn in Q, Q2; lia]).
    assert (HP : hPool (h s) = None) by (unfold noPool in NP; destruct (hPool (h s)); [discriminate|reflexivity]).
    pose proof (gi_none _ _ G s HP) as HC. gp.
    eapply hdr_gi; eauto.
    + intros u q. rewrite !tcnt_mid. unfold pIs at 1 2. rewrite HP. cbn [tkS handSlab initHdr hPool]. rewrite andb_false_r. rewrite (Nat.eqb_sym u s), andb_comm. cbn [b2n Nat.b2n]. lia.
    + intros u. rewrite (A5 u). rewrite NP. unfold noPool at 1. cbn [initHdr hPool]. rewrite andb_true_r, andb_false_r. cbn [b2n Nat.b2n]. lia.
    + apply tok_mid'; auto.
  - (* new failed *) destruct (makeNew_spec _ _ _ H0 (gi_next _ _ G) (gi_can _ _ G)) as (A1 & A2 & A3 & A4 & A5 & A6 & A7 & A8). gp.
    eapply pool_gi; eauto; try congruence. + intros s q. rewrite !tcnt_mid. reflexivity. + apply tok_mid'; auto. apply TX.
  - (* unbump *) eapply pool_gi; eauto; [|apply G]. intros s q. rewrite !tcnt_mid. rewrite fupd_eq. destruct (Nat.eqb_spec q p) as [E|E]; [subst|]; reflexivity.
  - (* add *) destruct (hand_hdr _ _ _ _ G (tok_in _ _ _) eq_refl) as (Q1 & Q2 & Q3). gp. eapply class_gi; eauto.
    + intros u E. injection E as <-. exact Q2.
    + intros u q. rewrite tcnt_mid. cbn [tkS handSlab leaves b2n Nat.b2n]. rewrite (andb_comm (s =? u)). lia.
  - (* give back *) eapply pool_gi; eauto; [| |apply G]. + intros u q. rewrite !tcnt_mid. reflexivity. + apply tok_mid'; [|auto]. cbn. split; [apply TX|discriminate].
  - (* resize *) destruct (hand_hdr _ _ _ _ G (tok_in _ _ _) eq_refl) as (Q1 & Q2 & Q3). gp. eapply hdr_gi; eauto.
    + intros u q. rewrite !tcnt_mid. unfold pIs at 1. rewrite Q1. unfold pIs. cbn [tkS handSlab resetHdr hPool]. rewrite andb_false_r, (Nat.eqb_sym u s), (andb_comm (s =? u)). cbn [b2n Nat.b2n]. lia.
    + intros u. unfold saCnt, noPool. rewrite Q1. cbn [saFreeSlab saFree saAdv saNext resetHdr hPool]. rewrite cS_app. cbn [cS]. rewrite andb_false_r, andb_true_r, (Nat.eqb_sym u s). cbn [b2n Nat.b2n]. lia.
    + apply tok_mid'; [apply TX|auto].
    + cbn. discriminate.
    + cbn. apply (gi_next _ _ G).
  - (* advise ok *) destruct (hand_hdr _ _ _ _ G (tok_in _ _ _) eq_refl) as (Q1 & Q2 & Q3). gp. eapply hdr_gi; eauto.
    + intros u q. rewrite !tcnt_mid. unfold pIs at 1. rewrite Q1. unfold pIs. cbn [tkS handSlab advHdr hPool]. rewrite andb_false_r, (Nat.eqb_sym u s), (andb_comm (s =? u)). cbn [b2n Nat.b2n]. lia.
    + intros u. unfold saCnt, noPool. rewrite Q1. cbn [saAdvise saFree saAdv saNext advHdr hPool]. rewrite cS_app. cbn [cS]. rewrite andb_false_r, andb_true_r, (Nat.eqb_sym u s). cbn [b2n Nat.b2n]. lia.
    + apply tok_mid'; [apply TX|auto].
    + cbn. apply (gi_can _ _ G).
    + cbn. apply (gi_next _ _ G).
  - (* advise count *) eapply pool_gi; eauto; [| |apply G]. + intros s q. rewrite !tcnt_mid. rewrite fupd_eq. destruct (Nat.eqb_spec q p) as [E|E]; [subst|]; reflexivity. + apply tok_mid'; auto.
  - eapply pool_gi; eauto; [| |apply G]. + intros u q. rewrite !tcnt_mid. reflexivity. + apply tok_mid'; [apply TX|auto].
  - eapply pool_gi; eauto; [| |apply G]. + intros u q. rewrite !tcnt_mid. reflexivity. + apply tok_mid'; [apply TX|auto].
  - (* rebalance to *) destruct (hand_hdr _ _ _ _ G (tok_in _ _ _) eq_refl) as (Q1 & Q2 & Q3). gp. eapply class_gi; eauto.
    + apply TX. reflexivity.
    + intros u E. injection E as <-. exact Q2.
    + intros u q. rewrite tcnt_mid. cbn [tkS handSlab leaves b2n Nat.b2n]. rewrite (andb_comm (s =? u)). lia.
  - (* push *) eapply pool_gi; eauto; [| |apply G].
    + intros u q. rewrite !tcnt_mid. rewrite fupd_eq. cbn [tkS handSlab]. destruct (Nat.eqb_spec q p) as [E|E]; [subst q|].
      * cbn [pFree setFree]. rewrite cS_app, Nat.eqb_refl. cbn [cS andb]. lia.
      * destruct (Nat.eqb_spec p q); [congruence|]. cbn. lia.
    + apply tok_mid'; auto.
  - (* dec *) eapply pool_gi; eauto; [|apply G]. intros s q. rewrite !tcnt_mid. rewrite fupd_eq. destruct (Nat.eqb_spec q p) as [E|E]; [subst|]; reflexivity.
  - (* free list *) eapply pool_gi; eauto; [| |apply G].
    + intros u q. rewrite fupd_eq. cbn [tcnt tkS handSlab]. destruct (Nat.eqb_spec q p) as [E|E]; [subst q|].
      * cbn [pFree setFree]. rewrite (hd_cS _ _ u H1), Nat.eqb_refl. cbn [andb]. lia.
      * destruct (Nat.eqb_spec p q); [congruence|]. cbn. lia.
    + intros t [<-|T]; [|auto]. cbn. split; [assumption|discriminate].
  - (* reclaim *) unfold saReclaim in H1. destruct (rev (saAdv sa)) as [|x r0] eqn:RV; [discriminate|]. apply pair_equal_spec in H1 as [<- E]. injection E as ->.
    assert (AC : forall u, cS u (saAdv sa) = cS u (removelast (saAdv sa)) + b2n (s =? u)) by (intros u; apply hd_cS; rewrite RV; reflexivity).
    pose proof (gi_sa _ _ G s) as Q. gp. specialize (AC s) as Q2. rewrite Nat.eqb_refl in Q2. cbn [b2n Nat.b2n] in Q2.
    assert (NP : noPool (h s) = true) by (destruct (noPool (h s)); [reflexivity|cbn in Q, Q2; lia]).
    assert (HP : hPool (h s) = None) by (unfold noPool in NP; destruct (hPool (h s)); [discriminate|reflexivity]).
    pose proof (gi_none _ _ G s HP) as HC. gp.
    eapply hdr_gi; eauto.
    + intros u q. unfold pIs at 1. rewrite HP. unfold pIs. cbn [tcnt tkS handSlab initHdr hPool]. rewrite andb_false_r. rewrite (Nat.eqb_sym u s), (andb_comm (s =? u)). cbn [b2n Nat.b2n]. lia.
    + intros u. unfold saCnt. cbn [saFree saAdv saNext]. rewrite (AC u). rewrite NP. unfold noPool. cbn [initHdr hPool]. rewrite andb_true_r, andb_false_r, (Nat.eqb_sym u s). cbn [b2n Nat.b2n]. lia.
    + intros t [<-|T]; auto.
    + cbn. apply (gi_can _ _ G).
    + cbn. apply (gi_next _ _ G).
  - (* reclaim push *) eapply pool_gi; eauto; [|apply G].
    intros u q. rewrite !tcnt_mid. rewrite fupd_eq. cbn [tkS handSlab]. destruct (Nat.eqb_spec q p) as [E|E]; [subst q|].
      * cbn [pFree setFree setAdv]. rewrite cS_app, Nat.eqb_refl. cbn [cS andb]. lia.
      * destruct (Nat.eqb_spec p q); [congruence|]. cbn. lia.
  - (* set max *) eapply pool_gi; eauto; [|apply G]. intros s q. rewrite fupd_eq. destruct (Nat.eqb_spec q p) as [E|E]; [subst|]; reflexivity.
Qed.
End G.
