(** Proofs for C15, part 1: representation, framing, primitive steps. *)
From Verif Require Import Bytes DList_model DList_spec Chain_model Chain_spec.
Ltac Zify.zify_post_hook ::= idtac.

Definition nonempty (k : list node) : bool := match k with [] => false | _ => true end.
(** The items of a chain of [p]; [a]: the first one is in the table. *)
Fixpoint links (s : cache) (p : node) (a : bool) (k : list node) : Prop :=
  match k with
  | [] => True
  | c :: r => live s c = true /\ it s c = mkItem true false p (hd_error r) 1 true a /\ links s p false r
  end.
Definition Rn (s : cache) (q : world) (n : node) : Prop :=
  match who q n with
  | Free => live s n = false /\ tbl s n = None
  | Parent k h v => live s n = true /\ it s n = mkItem false (nonempty k) 0 None h v v /\ tbl s n = hd_error k /\
      NoDup k /\ links s n true k /\ (h <> 0 \/ v = true) /\ (forall c, In c k -> who q c = Linked n)
  | Loose p h => live s n = true /\ it s n = mkItem true false p None h false false /\ tbl s n = None /\ h <> 0
  | Linked p => live s n = true /\ tbl s n = None /\ exists k h v, who q p = Parent k h v /\ In n k
  end.
Definition R (s : cache) (q : world) : Prop :=
  log s = evs q /\ (forall n, who q n <> Free -> n < msize s) /\ forall n, Rn s q n.

(** * Lists *)
Lemma memb_in n l : memb n l = true <-> In n l.
Proof.
  unfold memb. rewrite existsb_exists. split.
  - intros (x & A & B). apply Nat.eqb_eq in B. now subst.
  - intros A. exists n. split; [exact A|apply Nat.eqb_refl].
Qed.
Lemma memb_false n l : memb n l = false <-> ~ In n l.
Proof. rewrite <- memb_in. destruct (memb n l); intuition congruence. Qed.
Lemma updf_same {A} (f : node -> A) n v : updf f n v n = v. Proof. unfold updf. now rewrite Nat.eqb_refl. Qed.
Lemma updf_other {A} (f : node -> A) n v x : x <> n -> updf f n v x = f x.
Proof. intros D. unfold updf. apply Nat.eqb_neq in D. now rewrite D. Qed.
Lemma bounded_length k m : NoDup k -> (forall c, In c k -> c < m) -> length k <= m.
Proof.
  intros ND B. rewrite <- (seq_length m 0). apply NoDup_incl_length; [exact ND|]. intros c I1. apply in_seq. specialize (B c I1). lia.
Qed.

(** * Framing *)
Definition agree (P : node -> Prop) (s s' : cache) : Prop :=
  msize s' = msize s /\ forall n, ~ P n -> it s' n = it s n /\ live s' n = live s n /\ tbl s' n = tbl s n.
Lemma agree_refl P s : agree P s s. Proof. split; auto. Qed.
Lemma agree_trans P s1 s2 s3 : agree P s1 s2 -> agree P s2 s3 -> agree P s1 s3.
Proof.
  intros (A & B) (C & D). split; [congruence|]. intros n X. destruct (B n X) as (-> & -> & ->) || idtac.
  destruct (D n X) as (D1 & D2 & D3). destruct (B n X) as (B1 & B2 & B3). repeat split; congruence.
Qed.
Lemma links_frame s s' p a k : (forall c, In c k -> it s' c = it s c /\ live s' c = live s c) -> links s p a k -> links s' p a k.
Proof.
  revert a. induction k as [|c r IH]; intros a E L; [exact Logic.I|]. destruct L as (L1 & L2 & L3).
  destruct (E c (or_introl eq_refl)) as (E1 & E2). split; [congruence|]. split; [congruence|]. apply IH; [|exact L3].
  intros x X. apply E. now right.
Qed.
Definition closed (q : world) (P : node -> Prop) : Prop := forall n p, who q n = Linked p -> (P n <-> P p).
Lemma frame s q s' q' P : R s q -> closed q P -> agree P s s' -> (forall n, ~ P n -> who q' n = who q n) ->
  forall n, ~ P n -> Rn s' q' n.
Proof.
  intros (_ & _ & HR) Cl (_ & Ag) W n NP. specialize (HR n). unfold Rn in *. rewrite (W n NP). destruct (Ag n NP) as (A1 & A2 & A3).
  rewrite A1, A2, A3. destruct (who q n) eqn:En; auto.
  - destruct HR as (H1 & H2 & H3 & H4 & H5 & H6 & H7). split; [exact H1|]. split; [exact H2|]. split; [exact H3|]. split; [exact H4|].
    assert (Z : forall c, In c kids -> ~ P c). { intros c Ic. specialize (H7 c Ic). rewrite (Cl _ _ H7). exact NP. }
    split; [|split; [exact H6|]].
    + eapply links_frame; [|exact H5]. intros c Ic. destruct (Ag c (Z c Ic)) as (B1 & B2 & _). auto.
    + intros c Ic. rewrite (W c (Z c Ic)). auto.
  - destruct HR as (H1 & H2 & k & h & v & H3 & H4). split; [exact H1|]. split; [exact H2|]. exists k, h, v. split; [|exact H4].
    rewrite W; [exact H3|]. rewrite <- (Cl _ _ En). exact NP.
Qed.
(** The step template: only nodes of [P] change. *)
Lemma step s q s' q' P : R s q -> closed q P -> agree P s s' -> (forall n, ~ P n -> who q' n = who q n) ->
  log s' = evs q' -> (forall n, P n -> who q' n <> Free -> n < msize s) -> (forall n, P n -> Rn s' q' n) ->
  (forall n, P n \/ ~ P n) -> R s' q'.
Proof.
  intros HR Cl Ag W L B Pn Dec. pose proof HR as (_ & Bd & _). split; [exact L|]. split.
  - intros n. destruct (Dec n) as [Y|Y]; destruct Ag as (-> & _); [auto|]. rewrite (W n Y). apply Bd.
  - intros n. destruct (Dec n) as [Y|Y]; [auto|]. exact (frame _ _ _ _ _ HR Cl Ag W n Y).
Qed.

Lemma kids_bounded s q p k h v : R s q -> who q p = Parent k h v -> length k <= msize s.
Proof.
  intros (_ & B & HR) E. specialize (HR p). unfold Rn in HR. rewrite E in HR. destruct HR as (_ & _ & _ & ND & _ & _ & K).
  apply bounded_length; [exact ND|]. intros c Ic. apply B. rewrite (K c Ic). discriminate.
Qed.
Lemma links_in s p a k c : links s p a k -> In c k ->
  live s c = true /\ exists x b, it s c = mkItem true false p x 1 true b.
Proof.
  revert a. induction k as [|y r IH]; intros a L Ic; [contradiction|]. destruct L as (L1 & L2 & L3). destruct Ic as [<-|Ic]; eauto.
Qed.
Lemma walk_ok s p a k fuel : links s p a k -> length k <= fuel -> walk fuel s (hd_error k) = Some k.
Proof.
  revert a fuel. induction k as [|c r IH]; intros a fuel L F; [destruct fuel; reflexivity|]. destruct L as (L1 & L2 & L3). cbn in F.
  destruct fuel as [|f]; [lia|]. cbn [hd_error walk]. rewrite L1, L2. cbn [next]. rewrite (IH false f L3); [reflexivity|lia].
Qed.
Lemma view_ok s q p k h v : R s q -> who q p = Parent k h v -> viewChain s p = Some k.
Proof.
  intros HR E. pose proof (kids_bounded _ _ _ _ _ _ HR E) as B. destruct HR as (_ & _ & HR). specialize (HR p). unfold Rn in HR. rewrite E in HR.
  destruct HR as (H1 & H2 & H3 & H4 & H5 & _). unfold viewChain. rewrite H2. cbn [haschain]. rewrite H3.
  destruct k as [|c r]; [reflexivity|]. cbn [nonempty]. apply (walk_ok _ _ _ _ _ H5). cbn in *. lia.
Qed.

Lemma R_shows s q : R s q -> shows s q.
Proof.
  intros HR. pose proof HR as (L & B & Hn). split; [exact L|]. intros n. pose proof (Hn n) as X. unfold Rn in X. destruct (who q n) eqn:En.
  - tauto.
  - destruct X as (H1 & H2 & H3 & H4 & H5 & H6 & H7). pose proof (view_ok _ _ _ _ _ _ HR En) as V. rewrite H2. cbn [ischained refs acc inmm].
    split; [exact H1|]. split; [reflexivity|]. split; [exact V|]. split; [exact H4|]. split; [reflexivity|]. split; [reflexivity|]. split; [reflexivity|].
    split; [exact H6|]. intros c. split; [apply H7|]. intros E. pose proof (Hn c) as Y. unfold Rn in Y. rewrite E in Y.
    destruct Y as (_ & _ & k & h & v & Y1 & Y2). rewrite En in Y1. now injection Y1 as -> _ _.
  - destruct X as (H1 & H2 & H3 & H4). rewrite H2. cbn. auto.
  - destruct X as (H1 & H2 & k & h & v & H3 & H4). pose proof (Hn par) as Y. unfold Rn in Y. rewrite H3 in Y.
    destruct Y as (_ & _ & _ & _ & Y & _). destruct (links_in _ _ _ _ _ Y H4) as (_ & x & b & ->). cbn. repeat split; auto. eauto.
Qed.

(** * Primitive steps *)
Lemma it_put s n i x : it (put s n i) x = if x =? n then i else it s x. Proof. reflexivity. Qed.
Lemma incRef_at s n a b p x r m c : live s n = true -> it s n = mkItem a b p x r m c ->
  incRef s n = Some (put s n (mkItem a b p x (S r) m c)).
Proof. intros L E. unfold incRef, setRefs. rewrite L, E. reflexivity. Qed.
Lemma decRef_at s n a b p x r m c : live s n = true -> it s n = mkItem a b p x (S r) m c ->
  decRef s n = Some (put s n (mkItem a b p x r m c)).
Proof. intros L E. unfold decRef, setRefs. rewrite L, E. reflexivity. Qed.
Lemma release_keep s n a b p x r m c nas : live s n = true -> it s n = mkItem a b p x (S r) m c ->
  (r <> 0 \/ m = true \/ c = true) -> release s n nas = Some (put s n (mkItem a b p x r m c)).
Proof.
  intros L E K. unfold release. rewrite (decRef_at _ _ _ _ _ _ _ _ _ L E), it_put, Nat.eqb_refl. cbn [refs inmm acc].
  assert (Z : (r =? 0) && negb m && negb c = false).
  { destruct (Nat.eqb_spec r 0), m, c; cbn; try reflexivity. exfalso. intuition congruence. }
  now rewrite Z.
Qed.

(** Normalising states. *)
Ltac nrm := unfold setHas, setParent, setNext, setRefs, setMM, setAcc, setTbl, setLive, say, put in *; cbn [msize it live tbl log] in *.
Ltac eqs := repeat match goal with
  | |- context [?a =? ?a] => rewrite (Nat.eqb_refl a)
  | |- context [?a =? ?b] => rewrite (proj2 (Nat.eqb_neq a b)) by (congruence || auto)
  end.
