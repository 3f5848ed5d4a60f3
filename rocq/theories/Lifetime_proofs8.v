(** * Lifetime: what the invariant means for a user. *)
From Coq Require Import List Arith Bool Lia.
Import ListNotations.
From Verif Require Import Lifetime_model Lifetime_spec Lifetime_proofs Lifetime_proofs2 Lifetime_proofs7.

Lemma inflight_thdls t : inflight t = thdls t.
Proof. destruct t; try reflexivity; destruct h; reflexivity. Qed.

Lemma times_ecnt p l : times p l = ecnt p l.
Proof. unfold times. induction l as [|e l IH]; cbn; auto. destruct (p e); cbn; auto. Qed.

Lemma ecnt_in p l : 1 <= ecnt p l <-> exists e, In e l /\ p e = true.
Proof.
  induction l as [|e l IH]; cbn [ecnt]; split.
  - lia.
  - intros [x [[] _]].
  - destruct (p e) eqn:E; cbn [b2n]; intros H.
    + exists e. cbn. auto.
    + apply IH in H. destruct H as [x [A B]]. exists x. cbn. auto.
  - intros [x [[<-|A] B]].
    + rewrite B. cbn. lia.
    + assert (1 <= ecnt p l) by (apply IH; eauto). lia.
Qed.

Lemma held_cnt s a : held s a -> 1 <= cn (hs s) a + cf (hs s) a + Sn s a + Sf s a.
Proof.
  intros [nas [H|[t [H G]]]].
  - pose proof (hs_hold s _ H). cbn [fst] in *. lia.
  - rewrite inflight_thdls in G. apply In_nth_error in H. destruct H as [i H].
    apply (hold_of s i t a H).
    clear - G. induction (thdls t) as [|[c d] l IH]; destruct G; cbn [cn cf].
    + injection H as -> ->. rewrite ideq_refl. destruct nas; cbn; lia.
    + specialize (IH H). lia.
Qed.

Lemma cn_cf_in l a : 1 <= cn l a + cf l a -> exists nas, In (a, nas) l.
Proof.
  induction l as [|[c d] l IH]; cbn [cn cf]; [lia|]. intros H.
  destruct (ideq c a) eqn:E.
  - apply ideq_eq in E. subst. exists d. left. reflexivity.
  - destruct IH as [nas IH]; [lia|]. exists nas. right. auto.
Qed.

Lemma no_bad s : Inv s -> forall a, ~ In (EUAF a) (tr s) /\ ~ In (EBad a) (tr s).
Proof.
  intros Hi a. pose proof (iB s Hi) as B.
  split; intros H; assert (1 <= ecnt isBad (tr s)) by (apply ecnt_in; eexists; split; [exact H|reflexivity]); lia.
Qed.

Lemma held_alive s a : Inv s -> held s a -> alive (it s a) = true.
Proof. intros Hi H. apply (hold_facts s a Hi). apply held_cnt; auto. Qed.
Lemma indexed_alive s a : Inv s -> indexed s a -> alive (it s a) = true.
Proof. intros Hi [k H]. eapply acc_alive; eauto. eapply idx_acc; eauto. Qed.
Lemma evictable_alive s a : Inv s -> evictable s a -> alive (it s a) = true.
Proof. intros Hi H. apply (lnk_alive s a Hi). rewrite <- (proj1 (own_facts s a Hi)). exact H. Qed.

(** Trace part of the invariant. *)
Record TR (s : state) (a : id) : Prop := {
  t_live : alive (it s a) = true -> ecnt (isAlloc a) (tr s) = 1 /\ ecnt (isFree a) (tr s) = 0;
  t_dead : alive (it s a) = false -> ecnt (isAlloc a) (tr s) = ecnt (isFree a) (tr s) /\ ecnt (isAlloc a) (tr s) <= 1;
  t_d1 : alive (it s a) = true -> was (it s a) = false -> ecnt (isDtor a) (tr s) = 0;
  t_d2 : alive (it s a) = true -> was (it s a) = true -> ecnt (isDtor a) (tr s) = Sq lqd s a;
  t_d3 : alive (it s a) = false -> was (it s a) = false \/ mvd (it s a) = true -> ecnt (isDtor a) (tr s) = 0;
  t_d4 : alive (it s a) = false -> was (it s a) = true /\ mvd (it s a) = false -> ecnt (isDtor a) (tr s) = 1;
  t_m1 : alive (it s a) = true -> ecnt (isMvd a) (tr s) = Sq lqm s a;
  t_m2 : alive (it s a) = false -> ecnt (isMvd a) (tr s) = b2n (mvd (it s a));
  t_p1 : was (it s a) = false -> ecnt (isPub a) (tr s) = 0;
  t_p2 : was (it s a) = true -> 1 <= ecnt (isPub a) (tr s);
  t_f : alive (it s a) = false -> ecnt (isAlloc a) (tr s) = 0 -> was (it s a) = false;
  t_q : Sq lqd s a <= Sq ldown s a /\ Sq lqm s a + Sq lqd s a <= Sq lmov s a + Sq ldown s a;
  t_x : Sq lmov s a + Sq ldown s a <= 1;
  t_down : 1 <= Sq ldown s a -> ref (it s a) = 0 /\ lnk (it s a) = false /\ acc (it s a) = false /\ alive (it s a) = true;
}.
Lemma tr_facts s a : Inv s -> TR s a.
Proof.
  intros Hi. pose proof (iA s Hi a) as Ha. pose proof (tw_s s a) as Ht.
  unfold IA, P in Ha. unfold TW in Ht.
  destruct Ha as (_&_&_&_&_&_&_&A8&A9&A10&A11&A12&A13&A14&A15&A16&A17&A18&A19&A20&A21&A22&A23&A24&A25&A26&A27&A28&A29&A30&A31&A32&A33&A34&A35&A36&A37&A38).
  destruct Ht as (_&_&_&_&_&_&_&T8&T9&_).
  split.
  - intros E. rewrite E in A35. auto.
  - intros E. rewrite E in A36. auto.
  - intros E F. rewrite E, F in A28. destruct (A28 eq_refl); auto.
  - intros E F. rewrite E, F in A28. destruct (A28 eq_refl); auto.
  - intros E F. rewrite E in A29. destruct (A29 eq_refl) as [G _]. apply G. destruct F as [-> | ->]; auto.
  - intros E [F G]. rewrite E, F, G in A29. destruct (A29 eq_refl); auto.
  - intros E. rewrite E in A30. destruct (A30 eq_refl); auto.
  - intros E. rewrite E in A31. auto.
  - intros E. rewrite E in A33. auto.
  - intros E. rewrite E in A34. auto.
  - intros E F. rewrite E in A37. specialize (A37 eq_refl F). destruct (was (it s a)); auto; discriminate.
  - split; assumption.
  - clear - A9 A10. lia.
  - intros E. specialize (A11 E). destruct A11 as (B1&B2&B3&_&B5).
    destruct (lnk (it s a)), (acc (it s a)), (alive (it s a)); try discriminate; auto.
Qed.

Lemma freed_dead s a : Inv s -> In (EFree a) (tr s) -> alive (it s a) = false.
Proof.
  intros Hi H. destruct (alive (it s a)) eqn:E; auto.
  destruct (t_live s a (tr_facts s a Hi) E) as [_ F].
  assert (1 <= ecnt (isFree a) (tr s)) by (apply ecnt_in; exists (EFree a); split; auto; cbn; apply ideq_refl). lia.
Qed.

Theorem freed_unreachable s a : Inv s -> In (EFree a) (tr s) ->
  ~ held s a /\ ~ indexed s a /\ ~ evictable s a.
Proof.
  intros Hi H. apply (freed_dead s a Hi) in H.
  split; [|split]; intros G; [apply (held_alive s a Hi) in G|apply (indexed_alive s a Hi) in G|apply (evictable_alive s a Hi) in G]; congruence.
Qed.

Theorem freed_once s a : Inv s ->
  times (allocOf a) (tr s) <= 1 /\ times (freeOf a) (tr s) <= times (allocOf a) (tr s) /\
  (alive (it s a) = true <-> times (allocOf a) (tr s) = 1 /\ times (freeOf a) (tr s) = 0).
Proof.
  intros Hi. pose proof (tr_facts s a Hi) as T. rewrite !times_ecnt.
  change (allocOf a) with (isAlloc a). change (freeOf a) with (isFree a).
  pose proof (t_live s a T). pose proof (t_dead s a T). destruct (alive (it s a)).
  - destruct (H eq_refl). split; [lia|]. split; [lia|]. tauto.
  - destruct (H0 eq_refl). split; [lia|]. split; [lia|]. split; [discriminate|lia].
Qed.

Lemma pub_iff s a : published s a <-> 1 <= ecnt (isPub a) (tr s).
Proof.
  rewrite ecnt_in. split.
  - intros [H|[o H]]; eexists; split; try exact H; cbn; apply ideq_refl.
  - intros [[] [H E]]; try discriminate; cbn in E; apply ideq_eq in E; subst; [left; auto|right; eauto].
Qed.
Lemma mvd_iff s a : movedAway s a <-> 1 <= ecnt (isMvd a) (tr s).
Proof.
  rewrite ecnt_in. split.
  - intros [n H]; eexists; split; try exact H; cbn; apply ideq_refl.
  - intros [[] [H E]]; try discriminate; cbn in E; apply ideq_eq in E; subst. unfold movedAway; eauto.
Qed.

Theorem dtor_at_most_once s a : Inv s -> times (dtorOf a) (tr s) <= 1.
Proof.
  intros Hi. pose proof (tr_facts s a Hi) as T. rewrite times_ecnt. change (dtorOf a) with (isDtor a).
  pose proof (t_d1 s a T). pose proof (t_d2 s a T). pose proof (t_d3 s a T). pose proof (t_d4 s a T).
  pose proof (t_q s a T). pose proof (t_x s a T).
  destruct (alive (it s a)), (was (it s a)), (mvd (it s a));
  try (rewrite H; auto; lia); try (rewrite H0; auto; lia); try (rewrite H1; auto; lia); try (rewrite H2; auto; lia).
Qed.

Theorem dtor_iff s a : Inv s -> In (EFree a) (tr s) ->
  (times (dtorOf a) (tr s) = 1 <-> published s a /\ ~ movedAway s a).
Proof.
  intros Hi H. pose proof (tr_facts s a Hi) as T. apply (freed_dead s a Hi) in H.
  rewrite pub_iff, mvd_iff, times_ecnt. change (dtorOf a) with (isDtor a).
  pose proof (t_d3 s a T H). pose proof (t_d4 s a T H). pose proof (t_m2 s a T H).
  pose proof (t_p1 s a T). pose proof (t_p2 s a T).
  destruct (was (it s a)), (mvd (it s a)); cbn [b2n] in *;
  try (rewrite H0 by auto; intuition lia); try (rewrite H1 by auto; rewrite H2; intuition lia).
Qed.

(** When the destructor has run, the item is already out of everyone's reach. *)
Theorem dtor_unreachable s a : Inv s -> In (EDtor a) (tr s) ->
  ~ held s a /\ ~ indexed s a /\ ~ evictable s a /\ published s a /\ ~ movedAway s a.
Proof.
  intros Hi H. pose proof (tr_facts s a Hi) as T.
  assert (1 <= ecnt (isDtor a) (tr s)) as D by (apply ecnt_in; eexists; split; [exact H|cbn; apply ideq_refl]).
  rewrite pub_iff, mvd_iff.
  destruct (alive (it s a)) eqn:E.
  - destruct (was (it s a)) eqn:W; [|rewrite (t_d1 s a T E W) in D; lia].
    rewrite (t_d2 s a T E W) in D. pose proof (t_q s a T) as [Q1 Q2]. pose proof (t_x s a T) as X.
    destruct (t_down s a T) as (R&L&A&_); [lia|].
    split. { intros G. apply held_cnt in G. destruct (hold_facts s a Hi G) as (_&_&F). lia. }
    split. { intros [k G]. pose proof (idx_acc s k a Hi G). congruence. }
    split. { unfold evictable. rewrite (proj1 (own_facts s a Hi)). congruence. }
    split; [apply (t_p2 s a T W)|]. rewrite (t_m1 s a T E). lia.
  - assert (In (EFree a) (tr s)) as F.
    { assert (1 <= ecnt (isFree a) (tr s)) as F.
      { destruct (t_dead s a T E) as [<- _]. destruct (Nat.eq_dec (ecnt (isAlloc a) (tr s)) 0) as [Z|Z]; [|lia].
        pose proof (t_f s a T E Z) as W. rewrite (t_d3 s a T E) in D by auto. lia. }
      apply ecnt_in in F. destruct F as [[] [F G]]; try discriminate. cbn in G. apply ideq_eq in G. subst. auto. }
    destruct (freed_unreachable s a Hi F) as (A&B&C). split; auto. split; auto. split; auto.
    rewrite <- pub_iff, <- mvd_iff. apply (dtor_iff s a Hi F).
    pose proof (dtor_at_most_once s a Hi). rewrite times_ecnt in *. change (dtorOf a) with (isDtor a) in *. lia.
Qed.

Lemma sm_quiet f l : f TIdle = 0 -> (forall t, In t l -> t = TIdle) -> sm f l = 0.
Proof.
  intros F. induction l as [|t l IH]; intros H; cbn [sm]; auto.
  rewrite IH by (intros; apply H; right; auto). rewrite (H t) by (left; auto). lia.
Qed.
Lemma sm_settled f l : f TIdle = 0 -> (forall h, f (THung h) = 0) ->
  (forall t, In t l -> t = TIdle \/ exists h, t = THung h) -> sm f l = 0.
Proof.
  intros F G. induction l as [|t l IH]; intros H; cbn [sm]; auto.
  rewrite IH by (intros; apply H; right; auto).
  destruct (H t) as [->|[h ->]]; [left; auto| |]; rewrite ?F, ?G; lia.
Qed.

(** Nothing leaks: what is still allocated when no call is running is held or findable. *)
Theorem no_leak s a : Inv s -> settled s -> alive (it s a) = true -> held s a \/ indexed s a.
Proof.
  intros Hi Q E. pose proof (iA s Hi a) as Ha. unfold IA, P in Ha.
  destruct Ha as (_&A2&A3&_&_&_&_&A8&A9&A10&A11&A12&A13&A14&A15&_). rewrite E in *.
  assert (Sq lmov s a = 0) as Z1 by (apply sm_settled; auto).
  assert (Sq lxo s a = 0) as Z2 by (apply sm_settled; auto).
  assert (Sq ldown s a = 0) as Z3 by (apply sm_settled; auto).
  assert (Sq lresp s a = 0) as Z4 by (apply sm_settled; auto).
  destruct (acc (it s a)) eqn:Ea.
  - right. exists (ikey a). apply (acc_idx s a Hi). auto.
  - left. cbn [b2n] in *. rewrite Z1, Z2, Z3, Z4 in *. specialize (A14 eq_refl).
    assert (b2n (lnk (it s a)) = 0) as L.
    { destruct (lnk (it s a)); auto. cbn [b2n] in *. assert (1 <= 0 + b2n (exc (it s a))) as X by (apply A15; auto). lia. }
    assert (1 <= cn (hs s) a + cf (hs s) a \/ 1 <= Sn s a + Sf s a) as [G|G] by (clear A15 A13 A12 A11; lia).
    + apply cn_cf_in in G. destruct G as [nas G]. exists nas. auto.
    + unfold Sn, Sf in G. rewrite <- sm_add in G. apply sm_pos in G. destruct G as [i [t [G1 G2]]].
      apply cn_cf_in in G2. destruct G2 as [nas G2]. exists nas. right. exists t. split.
      * eapply nth_error_In; eauto.
      * rewrite inflight_thdls. auto.
Qed.

(** With no call running, the reference count is the number of user handles, and whatever the
    eviction container holds is findable. *)
Theorem quiet_refs s a : Inv s -> quiet s ->
  ref (it s a) = length (filter (fun h => ideq (fst h) a) (hs s)) /\ (evictable s a -> indexed s a).
Proof.
  intros Hi Q. pose proof (iA s Hi a) as Ha. unfold IA, P in Ha.
  destruct Ha as (_&A2&A3&_&_&_&_&A8&A9&A10&A11&A12&A13&A14&A15&_).
  assert (Sq lmov s a = 0) as Z1 by (apply sm_quiet; auto).
  assert (Sq lxo s a = 0) as Z2 by (apply sm_quiet; auto).
  assert (Sq ldown s a = 0) as Z3 by (apply sm_quiet; auto).
  assert (Sq lresp s a = 0) as Z4 by (apply sm_quiet; auto).
  assert (Sn s a = 0) as Z5 by (apply sm_quiet; auto).
  assert (Sf s a = 0) as Z6 by (apply sm_quiet; auto).
  rewrite Z1, Z2, Z3, Z4, Z5, Z6 in *. split.
  - rewrite A8. clear. rewrite !Nat.add_0_r. induction (hs s) as [|[c d] l IH]; cbn [cn cf filter fst]; auto.
    destruct (ideq c a); cbn [length]; [|lia]. rewrite <- IH. destruct d; cbn; lia.
  - unfold evictable. rewrite (proj1 (own_facts s a Hi)). intros L. rewrite L in *.
    destruct (acc (it s a)) eqn:Ea; [exists (ikey a); apply (acc_idx s a Hi); auto|].
    cbn [b2n] in *. assert (1 <= 0 + b2n (exc (it s a))) by (apply A15; auto). lia.
Qed.

Theorem index_key s k a : Inv s -> idx s k = Some a -> ikey a = k.
Proof. intros Hi. apply (iK s Hi). Qed.

(** ** Every call ends. *)
Definition rn (n : rnext) : nat := match n with NDone => 0 | NEv _ => 8 | NFree _ => 1 end.
Definition ra (c : acont) : nat := match c with KUser _ => 0 | KMove _ => 17 end.
Definition rank (t : tst) : nat :=
  match t with
  | TIdle | THung _ => 0
  | AStart c => 7 + ra c | EvAC c _ => 6 + ra c | EvMM c _ => 5 + ra c | EvUnm c _ => 4 + ra c
  | EvRel c _ => 3 + ra c | EvFree c _ => 2 + ra c | ANew c => 1 + ra c
  | FFind _ _ => 10 | FWait _ _ => 9 | FGot _ _ => 6
  | InChk _ | OrChk _ => 14 | InMM _ | OrMM _ => 13 | InPre _ | OrPre _ => 12 | InAC _ | OrAC _ => 11
  | InRm _ | OrFail _ => 1
  | OrWait _ _ => 10 | OrRm _ _ => 1
  | RmAC _ _ => 5 | RmMM _ _ => 4
  | XAC _ => 5 | XMM _ _ => 4
  | RDec _ n => 3 + rn n | RRel _ _ n => 2 + rn n | RFree _ n => 1 + rn n
  | SGo _ => 25 | SMM _ _ => 16 | SRep _ _ => 15 | SRm _ _ => 12 | SOld _ _ => 8 | SUnm _ _ => 7 | SWake _ _ => 6
  | SFree _ => 1
  | SEv _ => 7 | SEvAC _ => 6 | SEvMM _ => 5 | SEvUnm _ => 4 | SEvWake _ => 3 | SEvRel _ => 2 | SEvFree _ => 1
  end.
Definition srank (s : state) : nat := sm rank (thr s).

Lemma thr_mmRemove s a : thr (mmRemove s a) = thr s.
Proof. unfold mmRemove. destruct (lnk (it s a)); reflexivity. Qed.
Lemma thr_acRemove s a : thr (acRemove s a) = thr s.
Proof. unfold acRemove. destruct (acc (it s a)); auto. destruct (idx s (ikey a)) as [b|]; auto. destruct (ideq a b); auto. Qed.
Lemma thr_decRef s a : thr (decRef s a) = thr s.
Proof. unfold decRef. cbv zeta. destruct (ref (it s a) =? 0); reflexivity. Qed.

Lemma sr_set s i t s1 t' : nth_error (thr s) i = Some t -> thr s1 = thr s -> rank t' < rank t ->
  srank (set_t s1 i t') < srank s.
Proof.
  intros HN E R. unfold srank. cbn [set_t thr]. rewrite E.
  pose proof (sm_updl rank _ _ _ t' HN). lia.
Qed.

Lemma sm_wakeAll maxRef k n : forall l r o, sm rank (fst (wakeAll maxRef k n r o l)) <= sm rank l.
Proof.
  induction l as [|t l IH]; intros r o; cbn [wakeAll]; auto.
  destruct t; try (specialize (IH r o); destruct (wakeAll maxRef k n r o l); cbn [fst sm] in *; lia).
  - destruct (k0 =? k).
    + destruct o; [|destruct (r =? maxRef)];
      [specialize (IH r true); destruct (wakeAll maxRef k n r true l)
      |specialize (IH r true); destruct (wakeAll maxRef k n r true l)
      |specialize (IH (S r) false); destruct (wakeAll maxRef k n (S r) false l)]; cbn [fst sm rank] in *; lia.
    + specialize (IH r o); destruct (wakeAll maxRef k n r o l); cbn [fst sm] in *; lia.
  - destruct (k0 =? k).
    + destruct o; [|destruct (r =? maxRef)];
      [specialize (IH r true); destruct (wakeAll maxRef k n r true l)
      |specialize (IH r true); destruct (wakeAll maxRef k n r true l)
      |specialize (IH (S r) false); destruct (wakeAll maxRef k n (S r) false l)]; cbn [fst sm rank] in *; lia.
    + specialize (IH r o); destruct (wakeAll maxRef k n r o l); cbn [fst sm] in *; lia.
Qed.
Lemma wakeAll_at maxRef k n : forall l r o i t, nth_error l i = Some t -> waitk k t = 0 ->
  nth_error (fst (wakeAll maxRef k n r o l)) i = Some t.
Proof.
  induction l as [|u l IH]; intros r o i t H W; [destruct i; discriminate|].
  destruct i as [|i]; cbn [nth_error] in H.
  - injection H as ->. cbn [wakeAll].
    destruct t; cbn [waitk] in W; try (destruct (wakeAll maxRef k n r o l); reflexivity).
    + destruct (k0 =? k); [discriminate|]. destruct (wakeAll maxRef k n r o l); reflexivity.
    + destruct (k0 =? k); [discriminate|]. destruct (wakeAll maxRef k n r o l); reflexivity.
  - pose proof (fun r o => IH r o i t H W) as G. cbn [wakeAll].
    destruct u; try (specialize (G r o); destruct (wakeAll maxRef k n r o l); exact G).
    + destruct (k0 =? k); [|specialize (G r o); destruct (wakeAll maxRef k n r o l); exact G].
      destruct o; [|destruct (r =? maxRef)];
      [specialize (G r true); destruct (wakeAll maxRef k n r true l)
      |specialize (G r true); destruct (wakeAll maxRef k n r true l)
      |specialize (G (S r) false); destruct (wakeAll maxRef k n (S r) false l)]; exact G.
    + destruct (k0 =? k); [|specialize (G r o); destruct (wakeAll maxRef k n r o l); exact G].
      destruct o; [|destruct (r =? maxRef)];
      [specialize (G r true); destruct (wakeAll maxRef k n r true l)
      |specialize (G r true); destruct (wakeAll maxRef k n r true l)
      |specialize (G (S r) false); destruct (wakeAll maxRef k n (S r) false l)]; exact G.
Qed.
Lemma sm_wakeNull k : forall l, sm rank (map (wakeNull k) l) <= sm rank l.
Proof.
  induction l as [|t l IH]; cbn [map sm]; auto.
  assert (rank (wakeNull k t) <= rank t); [|lia].
  destruct t; cbn [wakeNull rank]; auto; destruct (k0 =? k); cbn [rank]; lia.
Qed.

Lemma run_rank maxRef s i t c s' : nth_error (thr s) i = Some t -> run maxRef s i t c = Some s' ->
  srank s' < srank s \/ s' = s.
Proof.
  intros HN H.
  assert (forall s1 t', thr s1 = thr s -> rank t' < rank t -> Some (set_t s1 i t') = Some s' -> srank s' < srank s \/ s' = s) as K.
  { intros s1 t' E R X. injection X as <-. left. eapply sr_set; eauto. }
  assert (forall s1 h, thr s1 = thr s -> rank TIdle < rank t -> Some (back s1 i h) = Some s' -> srank s' < srank s \/ s' = s) as KB.
  { intros s1 h E R X. injection X as <-. left. unfold back. eapply sr_set; eauto. }
  destruct t; cbn [run] in H; cbv zeta in H; try discriminate;
  repeat match type of H with
  | (match ?x with _ => _ end) = _ => let E := fresh "E" in destruct x eqn:E
  end; try discriminate;
  try (first [refine (K _ _ _ _ H); [|clear; try destruct c; try destruct c0; try destruct n; cbn [rank ra rn goNext allocFailed]; lia]
             |refine (KB _ _ _ _ H); [|clear; cbn [rank ra rn goNext allocFailed]; lia]];
       cbn [thr ev set_it set_idx set_mm put_h mmAdd]; rewrite ?thr_mmRemove, ?thr_acRemove, ?thr_decRef;
       try destruct nas; reflexivity).
  all: try (injection H as <-; right; reflexivity).
  - refine (K _ _ _ _ H); [|clear; cbn [rank]; lia].
    destruct (idx s (ikey n)) as [b|]; [destruct (ideq old b)|]; reflexivity.
  - injection H as <-. left. unfold srank. cbn [set_t thr].
    pose proof (sm_wakeAll maxRef (ikey old) n (thr s) (ref (it s n)) false) as A.
    pose proof (wakeAll_at maxRef (ikey old) n (thr s) (ref (it s n)) false i _ HN eq_refl) as B.
    rewrite E in A, B. cbn [fst] in *.
    pose proof (sm_updl rank _ _ _ (RDec (n, false) (NFree old)) B) as C. cbn [rank rn] in C. lia.
  - injection H as <-. left. unfold srank. cbn [set_t thr].
    pose proof (sm_wakeNull (ikey old) (thr s)) as A.
    assert (nth_error (map (wakeNull (ikey old)) (thr s)) i = Some (SEvWake old)) as B by (rewrite nth_error_map, HN; reflexivity).
    pose proof (sm_updl rank _ _ _ (SEvRel old) B) as C. cbn [rank rn] in C. lia.
Qed.

(** Each step of a running call either changes nothing (a failed pick of a victim) or uses up
    some of a bounded budget. *)
Theorem steps_bounded maxRef s i c s' : Inv s -> step maxRef true s (LStep i c) = Some s' ->
  srank s' < srank s \/ s' = s.
Proof.
  intros Hi H. cbn [step] in H. destruct (nth_error (thr s) i) as [t|] eqn:HN; [|discriminate].
  rewrite (no_uaf s i t Hi HN) in H. eapply run_rank; eauto.
Qed.

Definition runnable (t : tst) : bool :=
  match t with TIdle | FWait _ _ | OrWait _ _ | THung _ => false | _ => true end.
Lemma run_progress maxRef s i t : nth_error (thr s) i = Some t -> runnable t = true ->
  exists c s', run maxRef s i t c = Some s' /\ srank s' < srank s.
Proof.
  intros HN R.
  assert (forall c s', run maxRef s i t c = Some s' -> s' <> s -> exists c s', run maxRef s i t c = Some s' /\ srank s' < srank s) as G.
  { intros c s' H N. exists c, s'. split; auto. destruct (run_rank _ _ _ _ _ _ HN H); auto. contradiction. }
  assert (forall s1 t', rank t' <> rank t -> set_t s1 i t' <> s) as D.
  { intros s1 t' N E. rewrite <- E in HN. cbn [set_t thr] in HN.
    assert (forall l, nth_error (updl l i t') i = Some t -> t = t') as U.
    { clear. revert i. intros i. induction i as [|i IH]; intros [|x l] H; cbn in H; try discriminate; [congruence|eauto]. }
    apply U in HN. subst. apply N. reflexivity. }
  assert (exists s', run maxRef s i t CB = Some s') as [s' H].
  { destruct t; try discriminate; cbn [run]; cbv zeta;
    repeat match goal with |- exists s', (match ?x with _ => _ end) = _ => destruct x end; eauto. }
  apply (G _ _ H). intros ->.
  pose proof (run_rank _ _ _ _ _ _ HN H) as _.
  destruct t; cbn [run] in H; cbv zeta in H; try discriminate;
  repeat match type of H with
  | (match ?x with _ => _ end) = _ => let E := fresh "E" in destruct x eqn:E
  end; try discriminate;
  try (unfold back in H; injection H as H; revert H; apply D; clear; try destruct c; try destruct n; cbn [rank ra rn goNext allocFailed]; lia).
Qed.

Lemma exists_runnable s : Inv s -> ~ settled s -> exists i t, nth_error (thr s) i = Some t /\ runnable t = true.
Proof.
  intros Hi N.
  destruct (existsb runnable (thr s)) eqn:E.
  - apply existsb_exists in E. destruct E as [t [A B]]. apply In_nth_error in A. destruct A as [i A]. eauto.
  - exfalso. apply N. intros t Ht.
    assert (forall u, In u (thr s) -> runnable u = false) as F.
    { intros u Hu. destruct (runnable u) eqn:Q; auto. rewrite <- E. symmetry. apply existsb_exists. eauto. }
    assert (forall k, Mk s k = 0) as M0.
    { intros k. unfold Mk. clear - F. induction (thr s) as [|u l IH]; cbn [sm]; auto.
      rewrite IH by (intros; apply F; right; auto). pose proof (F u (or_introl eq_refl)).
      destruct u; try discriminate; reflexivity. }
    pose proof (F t Ht) as Q. destruct t; try discriminate; auto.
    + exfalso. apply In_nth_error in Ht. destruct Ht as [i Ht]. pose proof (sm_ge (waitk k) _ _ _ Ht) as G.
      cbn [waitk] in G. rewrite Nat.eqb_refl in G. pose proof (iW s Hi k G) as W. rewrite M0 in W. lia.
    + exfalso. apply In_nth_error in Ht. destruct Ht as [i Ht]. pose proof (sm_ge (waitk k) _ _ _ Ht) as G.
      cbn [waitk] in G. rewrite Nat.eqb_refl in G. pose proof (iW s Hi k G) as W. rewrite M0 in W. lia.
    + right. eauto.
Qed.

Lemma settled_dec s : settled s \/ ~ settled s.
Proof.
  destruct (forallb (fun t => match t with TIdle | THung _ => true | _ => false end) (thr s)) eqn:E.
  - left. intros t H. rewrite forallb_forall in E. specialize (E t H). destruct t; try discriminate; eauto.
  - right. intros Q. rewrite <- Bool.not_true_iff_false in E. apply E. apply forallb_forall. intros t H.
    destruct (Q t H) as [->|[h ->]]; reflexivity.
Qed.

(** From every reachable state the running calls can all be brought to an end. *)
Theorem quiesces maxRef s : Inv s -> exists ls s', onlySteps ls /\ exec maxRef true s ls = Some s' /\ settled s'.
Proof.
  remember (srank s) as m eqn:Em. revert s Em. induction m as [m IH] using lt_wf_ind. intros s -> Hi.
  destruct (settled_dec s) as [Q|Q].
  - exists [], s. split; [intros l []|]. split; auto.
  - destruct (exists_runnable s Hi Q) as [i [t [HN R]]].
    destruct (run_progress maxRef s i t HN R) as [c [s' [H L]]].
    assert (Inv s') as Hi' by (eapply run_inv; eauto).
    destruct (IH _ L s' eq_refl Hi') as [ls [s'' [A [B C]]]].
    exists (LStep i c :: ls), s''. split; [|split; auto].
    + intros l [<-|Hl]; eauto.
    + cbn [exec step]. rewrite HN, (no_uaf s i t Hi HN), H. exact B.
Qed.

Lemma rank_le t : rank t <= 25.
Proof. destruct t; cbn [rank]; try destruct c; try destruct n; cbn [ra rn]; lia. Qed.
Lemma srank_le s : srank s <= 25 * length (thr s).
Proof. unfold srank. induction (thr s) as [|t l IH]; cbn [sm length]; [lia|]. pose proof (rank_le t). lia. Qed.

(** However the running calls are scheduled, the number of steps that change anything is bounded
    by the number of threads. *)
Theorem effective_bound maxRef s ls k s' : Inv s -> onlySteps ls -> progress maxRef s ls k s' ->
  k + srank s' <= srank s.
Proof.
  intros Hi O H. induction H as [s|s l r k s' E H IH|s l r k s1 s' E N H IH].
  - lia.
  - apply IH; auto. intros x Hx. apply O. right. auto.
  - destruct (O l (or_introl eq_refl)) as [i [c ->]].
    assert (Inv s1) as Hi1 by (eapply step_inv; eauto).
    assert (k + srank s' <= srank s1) by (apply IH; auto; intros x Hx; apply O; right; auto).
    destruct (steps_bounded maxRef s i c s1 Hi E); [lia|contradiction].
Qed.
