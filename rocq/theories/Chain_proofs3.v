(** Proofs for C15, part 3: drop, add, pop, hold, insert. *)
From Verif Require Import Bytes DList_model DList_spec Chain_model Chain_spec Chain_proofs Chain_proofs2.
Ltac Zify.zify_post_hook ::= idtac.

Ltac upd1 := match goal with |- context [updf ?f ?n ?v ?x] =>
  first [constr_eq n x; rewrite (updf_same f n v) | rewrite (updf_other f n v x) by (assumption || congruence || (apply not_eq_sym; assumption))] end.
Ltac run := repeat first [progress nrm | upd1 | progress cbn [ischained haschain parent next refs inmm acc negb andb orb hd_error nonempty Nat.eqb]
  | match goal with H : it ?s ?n = mkItem _ _ _ _ _ _ _ |- context [it ?s ?n] => rewrite H end
  | match goal with H : live ?s ?n = _ |- context [live ?s ?n] => rewrite H end
  | match goal with H : tbl ?s ?n = _ |- context [tbl ?s ?n] => rewrite H end].

Ltac sp := repeat match goal with |- _ /\ _ => apply conj end.
Ltac agr := split; [reflexivity|]; let n := fresh "n" in let Nn := fresh "Nn" in intros n Nn; nrm;
  repeat (rewrite updf_other by (intros ->; apply Nn; cbn; auto)); auto.
Lemma who_set q n st x : who (set q n st) x = if x =? n then st else who q x. Proof. reflexivity. Qed.
Lemma who_set_same q n st : who (set q n st) n = st. Proof. rewrite who_set. now rewrite Nat.eqb_refl. Qed.
Lemma who_set_other q n st x : x <> n -> who (set q n st) x = who q x.
Proof. intros D. rewrite who_set. apply Nat.eqb_neq in D. now rewrite D. Qed.
Lemma who_told q es : who (told q es) = who q. Proof. reflexivity. Qed.
Lemma who_sets_in q l st x : In x l -> who (sets q l st) x = st.
Proof. intros Ix. cbn. apply memb_in in Ix. now rewrite Ix. Qed.
Lemma who_sets_out q l st x : ~ In x l -> who (sets q l st) x = who q x.
Proof. intros Ix. cbn. apply memb_false in Ix. now rewrite Ix. Qed.

(** * Closed families *)
Lemma parent_facts s q p k h v : R s q -> who q p = Parent k h v ->
  live s p = true /\ it s p = mkItem false (nonempty k) 0 None h v v /\ tbl s p = hd_error k /\ NoDup k /\ links s p true k /\
  (h <> 0 \/ v = true) /\ (forall c, In c k -> who q c = Linked p) /\ ~ In p k /\ length k <= msize s.
Proof.
  intros HR E. pose proof (kids_bounded _ _ _ _ _ _ HR E) as B. destruct HR as (_ & _ & Hn). specialize (Hn p). unfold Rn in Hn. rewrite E in Hn.
  destruct Hn as (H1 & H2 & H3 & H4 & H5 & H6 & H7). repeat split; auto. intros Ip. specialize (H7 p Ip). congruence.
Qed.
Lemma loose_facts s q p c h : R s q -> who q c = Loose p h ->
  live s c = true /\ it s c = mkItem true false p None h false false /\ tbl s c = None /\ h <> 0.
Proof. intros (_ & _ & Hn) E. specialize (Hn c). unfold Rn in Hn. now rewrite E in Hn. Qed.
Lemma linked_facts s q p c : R s q -> who q c = Linked p ->
  live s c = true /\ tbl s c = None /\ exists k h v, who q p = Parent k h v /\ In c k.
Proof. intros (_ & _ & Hn) E. specialize (Hn c). unfold Rn in Hn. now rewrite E in Hn. Qed.
Lemma free_facts s q c : R s q -> who q c = Free -> live s c = false /\ tbl s c = None.
Proof. intros (_ & _ & Hn) E. specialize (Hn c). unfold Rn in Hn. now rewrite E in Hn. Qed.
Lemma fam_closed s q p k h v : R s q -> who q p = Parent k h v -> closed q (fun n => In n (p :: k)).
Proof.
  intros HR E n p' En. destruct (parent_facts _ _ _ _ _ _ HR E) as (_ & _ & _ & _ & _ & _ & K & _).
  destruct (linked_facts _ _ _ _ HR En) as (_ & _ & k' & h' & v' & E' & In'). split; intros [X|X]; try subst.
  - congruence.
  - specialize (K n X). left. congruence.
  - rewrite E in E'. injection E' as <- _ _. now right.
  - specialize (K p' X). congruence.
Qed.
Lemma one_closed s q c : R s q -> (forall p, who q c <> Linked p) -> (forall x k h v, who q c <> Parent (x :: k) h v) -> closed q (fun n => n = c).
Proof.
  intros HR N1 N2 n p En. destruct (linked_facts _ _ _ _ HR En) as (_ & _ & k & h & v & E & Ik). split; intros ->.
  - exfalso. exact (N1 _ En).
  - exfalso. destruct k; [contradiction|]. exact (N2 _ _ _ _ E).
Qed.
Lemma closed_or q P Q : closed q P -> closed q Q -> closed q (fun n => P n \/ Q n).
Proof. intros A B n p E. rewrite (A n p E), (B n p E). tauto. Qed.

(** * Death of an item *)
Lemma gone_ok s q p k h v s0 nas rec : R s q -> who q p = Parent k h v ->
  agree (fun n => In n (p :: k)) s s0 -> log s0 = log s ->
  live s0 p = true -> it s0 p = mkItem false (nonempty k) 0 None 0 false false -> tbl s0 p = hd_error k ->
  flinks s0 k -> (forall c r, k = c :: r -> parent (it s0 c) = p /\ acc (it s0 c) = true) ->
  (forall c, In c k -> tbl s0 c = tbl s c) ->
  exists s', releaseBack s0 p nas rec = Some (s', match rec with Some r => memb r (p :: k) | None => false end) /\
    R s' (gone q p k nas rec).
Proof.
  intros HR E A G L I0 T F Hd Tk. destruct (parent_facts _ _ _ _ _ _ HR E) as (_ & _ & _ & ND & _ & _ & K & Np & B).
  destruct (releaseBack_ok s0 p k nas rec L I0 T) as (s' & E' & A' & Lp & Tp & D & Lg); auto.
  { constructor; auto. } { destruct A as (-> & _). exact B. }
  exists s'. split; [exact E'|]. apply (step s q s' _ (fun n => In n (p :: k)) HR).
  - exact (fam_closed _ _ _ _ _ _ HR E).
  - exact (agree_trans _ _ _ _ A A').
  - intros n Nn. unfold gone. rewrite who_told, who_sets_out by exact Nn. reflexivity.
  - unfold gone, told. cbn [evs sets]. rewrite Lg, G. destruct HR as (-> & _). reflexivity.
  - intros n In1. unfold gone. rewrite who_told, who_sets_in by exact In1. congruence.
  - intros n In1. unfold Rn, gone. rewrite who_told, who_sets_in by exact In1. destruct In1 as [<-|In1]; [auto|].
    destruct (D n In1) as (D1 & D2). split; [exact D1|]. rewrite D2, Tk by exact In1.
    destruct (linked_facts _ _ _ _ HR (K n In1)) as (_ & Z & _). exact Z.
  - intros n. destruct (in_dec Nat.eq_dec n (p :: k)); auto.
Qed.

(** Only one item changes, and keeps its kind. *)
Lemma one_ok s q n i st : R s q -> live s n = true -> who q n <> Free ->
  (match who q n, st with
   | Parent k _ _, Parent k' h v => k' = k /\ i = mkItem false (nonempty k) 0 None h v v /\ (h <> 0 \/ v = true)
   | Loose _ _, Loose p h => i = mkItem true false p None h false false /\ h <> 0
   | _, _ => False
   end) -> R (put s n i) (set q n st).
Proof.
  intros HR L NF C. pose proof HR as (Lg & Bd & Hn). split; [exact Lg|]. split.
  - intros x. rewrite who_set. destruct (Nat.eqb_spec x n) as [->|D]; [intros _; exact (Bd n NF)|exact (Bd x)].
  - intros x. pose proof (Hn x) as X. pose proof (Hn n) as Y. unfold Rn in *. rewrite who_set. cbn [live tbl put it].
    destruct (Nat.eqb_spec x n) as [->|D].
    + rewrite updf_same. destruct (who q n) eqn:En; try contradiction; destruct st; try contradiction.
      * destruct C as (-> & -> & C). destruct Y as (Y1 & Y2 & Y3 & Y4 & Y5 & Y6 & Y7). repeat split; auto.
        -- eapply links_frame; [|exact Y5]. intros c Ic. nrm. rewrite updf_other; [auto|]. intros ->. specialize (Y7 n Ic). congruence.
        -- intros c Ic. rewrite who_set. destruct (Nat.eqb_spec c n) as [->|]; [specialize (Y7 n Ic); congruence|auto].
      * destruct C as (-> & C). tauto.
    + rewrite updf_other by exact D. destruct (who q x) eqn:Ex; auto.
      * destruct X as (X1 & X2 & X3 & X4 & X5 & X6 & X7).
        assert (Z : forall c, In c kids -> c <> n). { intros c Ic ->. specialize (X7 n Ic). rewrite X7 in C. exact C. }
        repeat split; auto.
        -- eapply links_frame; [|exact X5]. intros c Ic. nrm. rewrite updf_other by auto. auto.
        -- intros c Ic. rewrite who_set_other by auto. auto.
      * destruct X as (X1 & X2 & k & h & v & X3 & X4). split; [exact X1|]. split; [exact X2|].
        destruct (Nat.eq_dec par n) as [->|Dp].
        -- rewrite X3 in C. destruct st; try contradiction. destruct C as (-> & _). exists k, held, vis. rewrite who_set_same. auto.
        -- exists k, h, v. rewrite who_set_other by exact Dp. auto.
Qed.

Lemma drop_ok s q n nas : R s q -> (exists k h v, who q n = Parent k (S h) v) \/ (exists p h, who q n = Loose p (S h)) ->
  exists s', release s n nas = Some s' /\ R s' (drop q n nas).
Proof.
  intros HR [(k & h & v & E)|(p & h & E)].
  - destruct (parent_facts _ _ _ _ _ _ HR E) as (L & I0 & T & ND & Lk & V & K & Np & B).
    assert (C : (h = 0 /\ v = false) \/ (h <> 0 \/ v = true)) by (destruct h, v; auto).
    destruct C as [(-> & ->)|C].
    + unfold release. rewrite (decRef_at _ _ _ _ _ _ _ _ _ L I0). cbv zeta. rewrite it_put, Nat.eqb_refl. cbn [refs inmm acc Nat.eqb negb andb].
      set (s0 := put s n _).
      destruct (gone_ok s q n k 1 false s0 nas None HR E) as (s' & -> & HR').
      * split; [reflexivity|]. intros x Nx. unfold s0. nrm. rewrite updf_other by (intros ->; apply Nx; now left). auto.
      * reflexivity.
      * exact L.
      * unfold s0. rewrite it_put, Nat.eqb_refl. reflexivity.
      * exact T.
      * eapply flinks_frame; [|exact (links_flinks _ _ _ _ Lk)]. intros c Ic. unfold s0. nrm.
        rewrite updf_other by (intros ->; contradiction). auto.
      * intros c r ->. unfold s0. rewrite it_put. destruct (Nat.eqb_spec c n) as [->|]; [exfalso; apply Np; now left|].
        destruct Lk as (_ & -> & _). auto.
      * reflexivity.
      * exists s'. split; [reflexivity|]. unfold drop. rewrite E. exact HR'.
    + rewrite (release_keep _ _ _ _ _ _ _ _ _ nas L I0) by (destruct C; auto). eexists. split; [reflexivity|].
      assert (D : drop q n nas = set q n (Parent k h v)).
      { unfold drop. rewrite E. destruct h, v; try reflexivity. exfalso. intuition congruence. }
      rewrite D. apply one_ok; auto; rewrite E; [discriminate|auto].
  - destruct (loose_facts _ _ _ _ _ HR E) as (L & I0 & T & V). destruct h as [|h].
    + unfold release. rewrite (decRef_at _ _ _ _ _ _ _ _ _ L I0). cbv zeta. rewrite it_put, Nat.eqb_refl. cbn [refs inmm acc Nat.eqb negb andb].
      unfold releaseBack. rewrite it_put, Nat.eqb_refl. cbn [refs inmm acc Nat.eqb negb andb ischained]. unfold freeMem. cbn [live put]. rewrite L.
      eexists. split; [reflexivity|]. unfold drop. rewrite E.
      apply (step s q _ _ (fun x => x = n) HR).
      * apply (one_closed _ _ _ HR); rewrite E; discriminate.
      * split; [reflexivity|]. intros x D. nrm. rewrite !updf_other by exact D. auto.
      * intros x D. rewrite who_told, who_set_other by exact D. reflexivity.
      * nrm. cbn. destruct HR as (-> & _). reflexivity.
      * intros x ->. rewrite who_told, who_set_same. congruence.
      * intros x ->. unfold Rn. rewrite who_told, who_set_same. nrm. rewrite updf_same. auto.
      * intros x. destruct (Nat.eq_dec x n); auto.
    + rewrite (release_keep _ _ _ _ _ _ _ _ _ nas L I0) by auto. eexists. split; [reflexivity|]. unfold drop. rewrite E.
      apply one_ok; auto; rewrite E; [discriminate|auto].
Qed.

Definition step_ok (s : cache) (q : world) (c : call) : Prop :=
  exists s', exec s c = Some (s', snd (spec_exec q c)) /\ R s' (fst (spec_exec q c)).

Lemma alloc_ok s q n i st : R s q -> who q n = Free -> n < msize s ->
  (st = Parent [] 1 false /\ i = mkItem false false 0 None 1 false false \/
   exists p, st = Loose p 1 /\ i = mkItem true false p None 1 false false) ->
  exists s', alloc s n i = Some s' /\ R s' (told (set q n st) [EAlloc n]) /\
    it s' = updf (it s) n i /\ live s' = updf (live s) n true /\ tbl s' = tbl s /\ msize s' = msize s /\ log s' = EAlloc n :: log s.
Proof.
  intros HR E B C. destruct (free_facts _ _ _ HR E) as (L & T). unfold alloc. rewrite L. apply Nat.ltb_lt in B as B'. rewrite B'. cbn [negb orb].
  eexists. split; [reflexivity|]. split; [|auto].
  apply (step s q _ _ (fun x => x = n) HR).
  - apply (one_closed _ _ _ HR); rewrite E; discriminate.
  - split; [reflexivity|]. intros x D. nrm. rewrite !updf_other by exact D. auto.
  - intros x D. rewrite who_told, who_set_other by exact D. reflexivity.
  - nrm. cbn. destruct HR as (-> & _). reflexivity.
  - intros x -> _. exact B.
  - intros x ->. unfold Rn. rewrite who_told, who_set_same. nrm. rewrite !updf_same. destruct C as [(-> & ->)|(p & -> & ->)].
    + repeat split; auto using NoDup_nil; try contradiction.
    + auto.
  - intros x. destruct (Nat.eq_dec x n); auto.
Qed.

Lemma add_ok s q p c : R s q -> legal (msize s) q (Add p c) -> step_ok s q (Add p c).
Proof.
  intros HR (Ec & k & h & v & Ep). destruct (parent_facts _ _ _ _ _ _ HR Ep) as (L & I0 & T & ND & Lk & V & K & Np & B).
  destruct (loose_facts _ _ _ _ _ HR Ec) as (Lc & Ic & Tc & _). unfold step_ok. cbn [exec spec_exec]. rewrite Ep. cbn [fst snd].
  assert (Npc : p <> c) by congruence.
  assert (Nc : ~ In c k). { intros X. specialize (K c X). congruence. }
  assert (X : exists s', addChained s p c = Some (s', OOk) /\ agree (fun n => In n (p :: k) \/ n = c) s s' /\ log s' = log s /\
    live s' p = true /\ it s' p = mkItem false true 0 None (S h) v v /\ tbl s' p = Some c /\
    live s' c = true /\ it s' c = mkItem true false p (hd_error k) 1 true true /\ tbl s' c = None /\
    links s' p false k /\ (forall x, In x k -> tbl s' x = tbl s x)).
  { unfold addChained, insertOrReplace. rewrite Ic. cbn [ischained negb acc parent]. rewrite T. destruct k as [|o r]; cbn [hd_error].
    - unfold incRef. run. unfold release, decRef. run. eexists. split; [reflexivity|]. sp; try (run; reflexivity || exact Logic.I || contradiction).
      agr.
    - destruct Lk as (Lo & Io & Lr).
      assert (No : o <> c) by (intros ->; apply Nc; now left).
      assert (Nop : o <> p) by (intros ->; apply Np; now left).
      unfold incRef. run. unfold release, decRef. run. eexists. split; [reflexivity|]. inversion ND; subst. sp; try (run; reflexivity).
      + agr.
      + split; [run; reflexivity|]. split; [run; reflexivity|]. eapply links_frame; [|exact Lr]. intros x Ix. nrm.
        repeat (rewrite updf_other by (intros ->; first [contradiction|apply Np; now right|apply Nc; now right])). auto.
      + intros x Ix. nrm. rewrite updf_other by (intros ->; contradiction). reflexivity. }
  destruct X as (s' & E & A & G & X1 & X2 & X3 & X4 & X5 & X6 & X7 & X8). exists s'. split; [exact E|].
  apply (step s q s' _ (fun n => In n (p :: k) \/ n = c) HR).
  - apply closed_or; [exact (fam_closed _ _ _ _ _ _ HR Ep)|]. apply (one_closed _ _ _ HR); rewrite Ec; discriminate.
  - exact A.
  - intros n Nn. rewrite !who_set_other; auto. intros ->. apply Nn. left. now left.
  - rewrite G. destruct HR as (-> & _). reflexivity.
  - intros n Pn _. destruct HR as (_ & Bd & _). apply Bd. destruct Pn as [[<-|Pn]| ->]; [congruence|rewrite (K n Pn); discriminate|congruence].
  - intros n [[<-|Pn]| ->]; unfold Rn.
    + rewrite who_set_other, who_set_same by auto. repeat split; auto.
      * constructor; auto.
      * intros x [<-|Ix]; [now rewrite who_set_same|]. rewrite !who_set_other; auto; intros ->; contradiction.
    + rewrite !who_set_other by (intros ->; contradiction). rewrite (K n Pn).
      destruct (links_in _ _ _ _ _ X7 Pn) as (Y1 & _). split; [exact Y1|]. split.
      * rewrite (X8 n Pn). exact (proj1 (proj2 (linked_facts _ _ _ _ HR (K n Pn)))).
      * exists (c :: k), (S h), v. rewrite who_set_other, who_set_same by auto. split; [reflexivity|now right].
    + rewrite who_set_same. split; [exact X4|]. split; [exact X6|]. exists (c :: k), (S h), v.
      rewrite who_set_other, who_set_same by auto. split; [reflexivity|now left].
  - intros n. destruct (in_dec Nat.eq_dec n (p :: k)), (Nat.eq_dec n c); auto. right. tauto.
Qed.
