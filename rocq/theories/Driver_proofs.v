From Coq Require Import List NArith Bool Lia.
Import ListNotations.
From Verif Require Import Driver_model Driver_spec.
Local Open Scope N_scope.

Definition msum (p : call -> bool) (l : list call) : N := total_size (filter p l).
Definition cnt (p : call -> bool) (l : list call) : N := N.of_nat (length (filter p l)).

Lemma msum_app p l1 l2 : msum p (l1 ++ l2) = msum p l1 + msum p l2.
Proof.
  unfold msum. rewrite filter_app. generalize (filter p l1) (filter p l2). clear.
  intros a b. induction a as [|c l IH]; [reflexivity|]. cbn [app total_size fold_right] in *.
  unfold total_size in *. cbn [fold_right]. lia.
Qed.
Lemma msum_cons p c l : msum p (c :: l) = (if p c then size c else 0) + msum p l.
Proof. unfold msum. cbn [filter]. destruct (p c); [reflexivity|lia]. Qed.
Lemma cnt_app p l1 l2 : cnt p (l1 ++ l2) = cnt p l1 + cnt p l2.
Proof. unfold cnt. rewrite filter_app, app_length. lia. Qed.
Lemma cnt_cons p c l : cnt p (c :: l) = (if p c then 1 else 0) + cnt p l.
Proof. unfold cnt. cbn. destruct (p c); cbn [length]; lia. Qed.
Lemma msum_nil p : msum p [] = 0. Proof. reflexivity. Qed.
Lemma cnt_nil p : cnt p [] = 0. Proof. reflexivity. Qed.
Lemma msum_le p q l : (forall c, p c = true -> q c = true) -> msum p l <= msum q l.
Proof.
  intro H. induction l as [|c l IH]; [unfold msum; cbn; lia|]. rewrite !msum_cons.
  destruct (p c) eqn:E; [rewrite (H _ E)|destruct (q c)]; lia.
Qed.
Lemma cnt_le p q l : (forall c, p c = true -> q c = true) -> cnt p l <= cnt q l.
Proof.
  intro H. induction l as [|c l IH]; [unfold cnt; cbn; lia|]. rewrite !cnt_cons.
  destruct (p c) eqn:E; [rewrite (H _ E)|destruct (q c)]; lia.
Qed.

(** Memory holders that observed at most [n]. *)
Definition mobs (n : N) (c : call) : bool :=
  match at_ c with Added m | Tested m _ | Outstanding m _ => m <=? n | _ => false end.
Definition cobs (n : N) (c : call) : bool :=
  match at_ c with Tested _ k | Outstanding _ k => k <=? n | _ => false end.
Definition adm (g : cfg) (c : call) : Prop :=
  match at_ c with Outstanding m k => m <= maxParcelMemory g /\ k <= maxConcurrentInserts g | _ => True end.

Record inv (g : cfg) (s : st) : Prop := {
  i_pm : parcelMemory s = msum holds_memory (calls s);
  i_ci : concurrentInserts s = cnt holds_slot (calls s);
  i_mb : msum live (calls s) < W;
  i_cb : cnt live (calls s) < W;
  i_mo : forall n, msum (mobs n) (calls s) <= n;
  i_co : forall n, cnt (cobs n) (calls s) <= n;
  i_ad : Forall (adm g) (calls s) }.

Lemma hm_live c : holds_memory c = true -> live c = true.
Proof. unfold holds_memory, live. destruct (at_ c); auto. Qed.
Lemma hs_live c : holds_slot c = true -> live c = true.
Proof. unfold holds_slot, live. destruct (at_ c); auto. Qed.
Lemma mobs_hm n c : mobs n c = true -> holds_memory c = true.
Proof. unfold mobs, holds_memory. destruct (at_ c); auto; discriminate. Qed.
Lemma cobs_hs n c : cobs n c = true -> holds_slot c = true.
Proof. unfold cobs, holds_slot. destruct (at_ c); auto; discriminate. Qed.

Lemma sub_small a b : b <= a -> a < W -> sub a b = a - b.
Proof.
  intros H1 H2. unfold sub. rewrite (N.mod_small b) by lia.
  replace (a + (W - b)) with ((a - b) + 1 * W) by lia.
  rewrite N.mod_add by (unfold W; lia). apply N.mod_small. lia.
Qed.

Ltac norm := rewrite ?msum_app, ?cnt_app, ?msum_cons, ?cnt_cons, ?msum_nil, ?cnt_nil in *;
  cbn [holds_memory holds_slot live mobs cobs at_ size] in *.

Lemma step_inv g s s' : step g s s' -> inv g s -> inv g s'.
Proof.
  intros Hs [H1 H2 H3 H4 H5 H6 H7].
  destruct Hs; cbn [parcelMemory concurrentInserts calls] in *.
  - constructor; cbn [parcelMemory concurrentInserts calls]; intros; norm; try lia.
    + specialize (H5 n); lia.
    + specialize (H6 n); lia.
    + apply Forall_app; split; auto; try (constructor; [exact I|auto]).
  - assert (E : m = pm + (ks + vs)).
    { unfold m, add_fetch. apply N.mod_small.
      pose proof (msum_le holds_memory live l hm_live). unfold msum in *. lia. }
    clearbody m.
    constructor; cbn [parcelMemory concurrentInserts calls]; intros; norm; unfold holds_memory, holds_slot, live, mobs, cobs in *; cbn [at_ size] in *.
    + lia.
    + lia.
    + unfold msum in *. fold live in *. unfold live in *. lia.
    + unfold cnt in *. lia.
    + specialize (H5 n). destruct (m <=? n) eqn:L; [|lia]. apply N.leb_le in L.
      pose proof (msum_le (mobs n) holds_memory l (mobs_hm n)) as Q. unfold mobs, holds_memory in Q. lia.
    + specialize (H6 n); lia.
    + apply Forall_app; split; auto; try (constructor; [exact I|auto]).
  - assert (E : c = ci + 1).
    { unfold c, add_fetch. apply N.mod_small.
      pose proof (cnt_le holds_slot live l1 hs_live). pose proof (cnt_le holds_slot live l2 hs_live). norm. lia. }
    clearbody c.
    constructor; cbn [parcelMemory concurrentInserts calls]; intros; norm; unfold holds_memory, holds_slot, live, mobs, cobs in *; cbn [at_ size] in *; try lia.
    + specialize (H5 n). norm. unfold mobs in H5; cbn [at_ size] in H5. lia.
    + specialize (H6 n). norm. unfold cobs in H6; cbn [at_] in H6. destruct (c <=? n) eqn:L; [|lia]. apply N.leb_le in L.
      pose proof (cnt_le (cobs n) holds_slot l1 (cobs_hs n)) as Q. pose proof (cnt_le (cobs n) holds_slot l2 (cobs_hs n)) as Q2.
      unfold cobs, holds_slot in *. lia.
    + apply Forall_app in H7. destruct H7 as [Ha Hb]. inversion Hb; subst. apply Forall_app; split; auto; try (constructor; [exact I|auto]).
  - assert (Hx : m <= maxParcelMemory g /\ c <= maxConcurrentInserts g).
    { unfold admit in H. apply andb_prop in H. destruct H as [Ha Hb]. apply andb_prop in Ha. destruct Ha as [_ Ha].
      apply N.leb_le in Ha, Hb. auto. }
    constructor; cbn [parcelMemory concurrentInserts calls]; intros; norm; unfold holds_memory, holds_slot, live in *; cbn [at_ size] in *; try lia.
    + specialize (H5 n). norm. unfold mobs in *; cbn [at_ size] in *. lia.
    + specialize (H6 n). norm. unfold cobs in *; cbn [at_ size] in *. lia.
    + apply Forall_app in H7. destruct H7 as [Ha Hb]. inversion Hb; subst. apply Forall_app; split; auto.
  - assert (E : sub ci 1 = ci - 1).
    { pose proof (cnt_le holds_slot live l1 hs_live). pose proof (cnt_le holds_slot live l2 hs_live).
      norm. unfold holds_slot, live in *; cbn [at_] in *. apply sub_small; lia. }
    rewrite E.
    constructor; cbn [parcelMemory concurrentInserts calls]; intros; norm; unfold holds_memory, holds_slot, live in *; cbn [at_ size] in *; try lia.
    + specialize (H5 n). norm. unfold mobs in *; cbn [at_ size] in *. destruct (m <=? n); lia.
    + specialize (H6 n). norm. unfold cobs in *; cbn [at_ size] in *. destruct (c <=? n); lia.
    + apply Forall_app in H7. destruct H7 as [Ha Hb]. inversion Hb; subst. apply Forall_app; split; auto; try (constructor; [exact I|auto]).
  - assert (E : sub pm z = pm - z).
    { pose proof (msum_le holds_memory live l1 hm_live). pose proof (msum_le holds_memory live l2 hm_live).
      norm. unfold holds_memory, live in *; cbn [at_ size] in *. apply sub_small; lia. }
    rewrite E.
    constructor; cbn [parcelMemory concurrentInserts calls]; intros; norm; unfold holds_memory, holds_slot, live in *; cbn [at_ size] in *; try lia.
    + specialize (H5 n). norm. unfold mobs in *; cbn [at_ size] in *. lia.
    + specialize (H6 n). norm. unfold cobs in *; cbn [at_ size] in *. lia.
    + apply Forall_app in H7. destruct H7 as [Ha Hb]. inversion Hb; subst. apply Forall_app; split; auto; try (constructor; [exact I|auto]).
  - assert (E : sub pm z = pm - z).
    { pose proof (msum_le holds_memory live l1 hm_live). pose proof (msum_le holds_memory live l2 hm_live).
      norm. unfold holds_memory, live in *; cbn [at_ size] in *. apply sub_small; lia. }
    rewrite E.
    constructor; cbn [parcelMemory concurrentInserts calls]; intros; norm; unfold holds_memory, holds_slot, live in *; cbn [at_ size] in *; try lia.
    + specialize (H5 n). norm. unfold mobs in *; cbn [at_ size] in *. destruct (m <=? n); lia.
    + specialize (H6 n). norm. unfold cobs in *; cbn [at_ size] in *. destruct (c <=? n); lia.
    + apply Forall_app in H7. destruct H7 as [Ha Hb]. inversion Hb; subst. apply Forall_app; split; auto; try (constructor; [exact I|auto]).
  - assert (E : sub ci 1 = ci - 1).
    { pose proof (cnt_le holds_slot live l1 hs_live). pose proof (cnt_le holds_slot live l2 hs_live).
      norm. unfold holds_slot, live in *; cbn [at_] in *. apply sub_small; lia. }
    rewrite E.
    constructor; cbn [parcelMemory concurrentInserts calls]; intros; norm; unfold holds_memory, holds_slot, live in *; cbn [at_ size] in *; try lia.
    + specialize (H5 n). norm. unfold mobs in *; cbn [at_ size] in *. lia.
    + specialize (H6 n). norm. unfold cobs in *; cbn [at_ size] in *. lia.
    + apply Forall_app in H7. destruct H7 as [Ha Hb]. inversion Hb; subst. apply Forall_app; split; auto; try (constructor; [exact I|auto]).
Qed.

Lemma reach_inv g s : reach g s -> inv g s.
Proof.
  induction 1; [|eapply step_inv; eauto].
  constructor; cbn; auto; try reflexivity; intros; unfold msum, cnt; cbn; lia.
Qed.

Lemma bytes_bound g s : reach g s -> outstanding_bytes s <= maxParcelMemory g.
Proof.
  intro R. destruct (reach_inv g s R) as [_ _ _ _ H _ Ha].
  specialize (H (maxParcelMemory g)). etransitivity; [|exact H].
  unfold outstanding_bytes. fold (msum outstanding (calls s)). clear H R.
  induction Ha as [|c l Hc _ IH]; [reflexivity|]. rewrite !msum_cons.
  destruct (outstanding c) eqn:E; [|lia]. unfold outstanding, mobs, adm in *. destruct (at_ c); try discriminate.
  destruct Hc as [Hc _]. apply N.leb_le in Hc. rewrite Hc. lia.
Qed.
Lemma count_bound g s : reach g s -> outstanding_count s <= maxConcurrentInserts g.
Proof.
  intro R. destruct (reach_inv g s R) as [_ _ _ _ _ H Ha].
  specialize (H (maxConcurrentInserts g)). etransitivity; [|exact H].
  unfold outstanding_count. fold (cnt outstanding (calls s)). clear H R.
  induction Ha as [|c l Hc _ IH]; [reflexivity|]. rewrite !cnt_cons.
  destruct (outstanding c) eqn:E; [|lia]. unfold outstanding, cobs, adm in *. destruct (at_ c); try discriminate.
  destruct Hc as [_ Hc]. apply N.leb_le in Hc. rewrite Hc. lia.
Qed.

Lemma quiet g s : reach g s -> quiescent s -> parcelMemory s = 0 /\ concurrentInserts s = 0.
Proof.
  intros R Q. destruct (reach_inv g s R) as [-> -> _ _ _ _ _]. unfold quiescent in Q.
  induction (calls s) as [|c l IH]; [split; reflexivity|]. rewrite msum_cons, cnt_cons.
  destruct IH as [-> ->]; [intros; apply Q; cbn; auto|].
  unfold holds_memory, holds_slot. destruct (Q c (or_introl eq_refl)) as [-> | ->]; auto.
Qed.
