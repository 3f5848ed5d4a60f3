(** The base invariant is preserved by every step. *)
From Coq Require Import List Arith Bool Lia.
Import ListNotations.
From Verif Require Import MoveWait_model MoveWait_proofs1.

Lemma busy_false s a : busy s a = false <-> (forall k, ~ In (a, k) (held s)) /\ forall m, In m (mvs s) -> mholds a m = false.
Proof.
  unfold busy. rewrite orb_false_iff, !existsb_false. split.
  - intros (X & Y). split; [|exact Y]. intros k I. specialize (X _ I). cbn in X. rewrite Nat.eqb_refl in X. discriminate.
  - intros (X & Y). split; [|exact Y]. intros (b, k) I. cbn. apply Nat.eqb_neq. intros ->. eapply X; eauto.
Qed.
Lemma indexed_false s a : Base s -> indexed s a = false -> noidx s a.
Proof.
  intros B H k I. destruct (b_idx s B k a I) as (_ & <-). unfold indexed in H. rewrite I, Nat.eqb_refl in H. discriminate.
Qed.
Lemma indexed_true s a : indexed s a = true -> idx s (ckey (mem s a)) = Some a.
Proof. unfold indexed. destruct (idx s _) as [b|]; [|discriminate]. intros H. apply Nat.eqb_eq in H. congruence. Qed.
Lemma locked_false s k : locked s k = false <-> forall w a, In (w, a) (trys s) -> ckey (mem s a) <> k.
Proof.
  unfold locked. rewrite existsb_false. split.
  - intros H w a I. specialize (H _ I). cbn in H. now apply Nat.eqb_neq.
  - intros H (w, a) I. cbn. apply Nat.eqb_neq. eauto.
Qed.

(** A cell dies that nobody refers to. *)
Definition nobody (s : state) (a : nat) : Prop :=
  noidx s a /\ busy s a = false /\ ~ In a (owners s).
Lemma die_base s a c : Base s -> nobody s a -> cmov c = false -> cexc c = false -> Base (w_mem s a c).
Proof.
  intros B (N & U & O) M X. apply busy_false in U. destruct U as (U1 & U2).
  constructor; cbn.
  - intros k b H. destruct (Nat.eq_dec a b) as [<-|E]; [destruct (N k H)|]. rewrite upd_ne by auto. now apply (b_idx s B).
  - intros m b P Q. assert (E : a <> b) by (intros ->; apply O; eapply owned_in; eauto).
    destruct (b_own s B m b P Q) as (L & V & S). unfold okown, busy, stage. cbn. rewrite upd_ne by auto. auto.
  - apply (b_uniq s B).
  - intros b H. destruct (Nat.eq_dec a b) as [<-|E]; [rewrite upd_eq in H; congruence|]. rewrite upd_ne in H by auto. now apply (b_mov s B).
  - intros b H. destruct (Nat.eq_dec a b) as [<-|E]; [rewrite upd_eq in H; congruence|]. rewrite upd_ne in H by auto. now apply (b_exc s B).
  - intros b k H. destruct (Nat.eq_dec a b) as [<-|E]; [destruct (U1 _ H)|]. rewrite upd_ne by auto. now apply (b_held s B).
  - intros m b P Q. destruct (Nat.eq_dec a b) as [<-|E]; [rewrite (U2 m P) in Q; discriminate|]. rewrite upd_ne by auto. eapply (b_mh s B); eauto.
  - intros w b H. destruct (b_try s B w b H) as (L & I). destruct (Nat.eq_dec a b) as [<-|E]; [destruct (N _ I)|].
    rewrite upd_ne by auto. auto.
Qed.

Lemma unref_base s a : Base s -> ~ In a (owners s) -> Base (unref s a).
Proof.
  intros B O. unfold unref.
  destruct (negb (busy s a) && negb (clnk (mem s a)) && negb (cmov (mem s a)) && negb (cexc (mem s a)) && negb (indexed s a)) eqn:E; [|exact B].
  rewrite !andb_true_iff, !negb_true_iff in E. destruct E as ((((U & _) & M) & X) & I).
  apply die_base; auto. split; [now apply indexed_false|auto].
Qed.

Lemma idx_none_base s k : Base s -> locked s k = false -> Base (w_idx s k None).
Proof.
  intros B L. rewrite locked_false in L.
  assert (N : forall a, noidx s a -> noidx (w_idx s k None) a).
  { intros a H j. cbn. unfold upd. destruct (k =? j); [discriminate|apply H]. }
  constructor; cbn; try apply B.
  - intros j a. unfold upd. destruct (k =? j); [discriminate|apply B].
  - intros m a P Q. destruct (b_own s B m a P Q) as (X & Y & S). split; [exact X|]. split; [exact Y|].
    destruct m; cbn in *; intuition auto.
  - intros w a H. destruct (b_try s B w a H) as (X & Y). split; [exact X|]. rewrite upd_ne; [exact Y|]. intros E. apply (L w a H). auto.
Qed.

(** A new cell in free memory, entered in the index. *)
Lemma new_base s k a : Base s -> clive (mem s a) = false -> locked s k = false ->
  Base (w_idx (w_mem s a (mkC k true true false false)) k (Some a)).
Proof.
  intros B D L. rewrite locked_false in L.
  assert (NO : forall m b, In m (mvs s) -> In b (ownl m) -> a <> b).
  { intros m b P Q ->. destruct (b_own s B m b P Q) as (X & _). congruence. }
  constructor; cbn.
  - intros j b. destruct (Nat.eq_dec k j) as [<-|E].
    + rewrite upd_eq. intros [= <-]. rewrite upd_eq. auto.
    + rewrite upd_ne by auto. intros H. destruct (b_idx s B j b H). rewrite upd_ne by congruence. auto.
  - intros m b P Q. pose proof (NO m b P Q) as E. destruct (b_own s B m b P Q) as (X & Y & S).
    assert (N : noidx s b -> noidx (w_idx (w_mem s a (mkC k true true false false)) k (Some a)) b).
    { intros H j. cbn. unfold upd. destruct (k =? j); [congruence|apply H]. }
    split; [cbn; now rewrite upd_ne|]. split; [exact Y|].
    unfold stage in *. cbn [mem w_idx w_mem]. rewrite upd_ne by auto. destruct m; intuition auto.
  - apply (b_uniq s B).
  - intros b H. destruct (Nat.eq_dec a b) as [<-|E]; [rewrite upd_eq in H; discriminate|]. rewrite upd_ne in H by auto. now apply (b_mov s B).
  - intros b H. destruct (Nat.eq_dec a b) as [<-|E]; [rewrite upd_eq in H; discriminate|]. rewrite upd_ne in H by auto. now apply (b_exc s B).
  - intros b j H. destruct (b_held s B b j H). rewrite upd_ne by congruence. auto.
  - intros m b P Q. pose proof (b_mh s B m b P Q). rewrite upd_ne by congruence. auto.
  - intros w b H. destruct (b_try s B w b H) as (X & Y). assert (a <> b) by congruence. rewrite upd_ne by auto. split; [exact X|].
    rewrite upd_ne; [exact Y|]. intros E. apply (L w b H). auto.
Qed.
Lemma new_not_owned s a : Base s -> clive (mem s a) = false -> ~ In a (owners s).
Proof. intros B D I. apply in_flat_map in I. destruct I as (m & P & Q). destruct (b_own s B m a P Q) as (X & _). congruence. Qed.

Lemma held_base s a : Base s -> clive (mem s a) = true -> ~ In a (owners s) ->
  Base (w_held s ((a, ckey (mem s a)) :: held s)).
Proof.
  intros B L O. constructor; cbn; try apply B.
  - intros m b P Q. destruct (b_own s B m b P Q) as (X & Y & S). split; [exact X|]. split; [|exact S].
    apply busy_false in Y. apply busy_false. cbn. split; [|apply Y]. intros k [[= <- _]|I]; [apply O; eapply owned_in; eauto|eapply Y; eauto].
  - intros b k [[= <- <-]|I]; [auto|now apply (b_held s B)].
Qed.
Lemma unheld_base s l : Base s -> (forall x, In x l -> In x (held s)) -> Base (w_held s l).
Proof.
  intros B I. constructor; cbn; try apply B.
  - intros m b P Q. destruct (b_own s B m b P Q) as (X & Y & S). split; [exact X|]. split; [|exact S].
    apply busy_false in Y. apply busy_false. cbn. split; [|apply Y]. intros k H. eapply Y; eauto.
  - intros b k H. apply (b_held s B). auto.
Qed.

(** Lookups that have found an item moving. *)
Lemma try_base s w k a : Base s -> idx s k = Some a -> Base (w_trys s ((w, a) :: trys s)).
Proof.
  intros B H. destruct (b_idx s B k a H) as (L & K). constructor; cbn; try apply B.
  intros x b [[= <- <-]|I]; [rewrite K; auto|]. now apply (b_try s B x).
Qed.
Lemma untry_base s l : Base s -> (forall x, In x l -> In x (trys s)) -> Base (w_trys s l).
Proof. intros B I. constructor; cbn; try apply B. intros w b H. apply (b_try s B w). auto. Qed.

(** A moving thread goes from [m] to [m'], changing the flags of its item. *)
Lemma nodup_mid (l1 l2 : list mpc) m m' : NoDup (flat_map ownl (l1 ++ m :: l2)) -> ownl m' = ownl m \/ ownl m' = [] ->
  NoDup (flat_map ownl (l1 ++ m' :: l2)).
Proof.
  rewrite !flat_map_app. cbn. intros H [E|E]; rewrite E; [exact H|]. cbn.
  destruct (ownl m) as [|a [|b r]] eqn:O.
  - exact H.
  - cbn in H. eapply NoDup_remove_1; eauto.
  - destruct m; cbn in O; discriminate.
Qed.
Lemma own_step s l1 m l2 a c' m' : Base s -> mvs s = l1 ++ m :: l2 -> ownl m = [a] ->
  ckey c' = ckey (mem s a) -> clive c' = true ->
  ownl m' = [a] \/ ownl m' = [] ->
  (forall x, mholds x m' = true -> mholds x m = true \/ clive (mem s x) = true /\ ~ In x (owners s)) ->
  let t := w_mvs (w_mem s a c') (l1 ++ m' :: l2) in
  (ownl m' = [a] -> stage t m' a) ->
  (cmov c' = true -> movst m' = true /\ ownl m' = [a]) -> (cexc c' = true -> m' = MEvU a) -> Base t.
Proof.
  intros B E O K L O' H t S M X.
  assert (IN : In m (mvs s)) by (rewrite E; apply in_mid; auto).
  assert (UN : forall x b, In x (l1 ++ l2) -> In b (ownl x) -> a <> b).
  { pose proof (b_uniq s B) as U. unfold owners in U. rewrite E, flat_map_app in U. cbn in U. rewrite O in U. cbn in U.
    apply NoDup_remove_2 in U. intros x b I1 I2 <-. apply U. rewrite <- flat_map_app. apply in_flat_map. eauto. }
  assert (OB : okown s m a) by (apply (b_own s B); [auto|rewrite O; left; reflexivity]).
  destruct OB as (LA & BA & SA).
  assert (LV : forall b, clive (upd (mem s) a c' b) = clive (mem s b)).
  { intros b. destruct (Nat.eq_dec a b) as [<-|N]; [rewrite upd_eq; congruence|now rewrite upd_ne]. }
  assert (KY : forall b, ckey (upd (mem s) a c' b) = ckey (mem s b)).
  { intros b. destruct (Nat.eq_dec a b) as [<-|N]; [rewrite upd_eq; congruence|now rewrite upd_ne]. }
  assert (BU : forall b, busy t b = true -> busy s b = true \/ ~ In b (owners s)).
  { intros b. unfold busy. cbn. rewrite E, !existsb_mid, !orb_true_iff.
    intros [?|[P|?]]; auto. destruct (H b P) as [?|(? & ?)]; auto. }
  constructor; cbn.
  - intros k b P. rewrite LV, KY. now apply (b_idx s B).
  - intros x b P Q. apply in_mid in P. destruct P as [->|P].
    + destruct O' as [O'|O']; rewrite O' in Q; [|destruct Q]. destruct Q as [<-|[]].
      split; [cbn; now rewrite LV|]. split; [|auto].
      destruct (busy t a) eqn:F; [|auto]. destruct (BU _ F) as [G|G]; [congruence|].
      destruct G. eapply owned_in; eauto. rewrite O. left. reflexivity.
    + assert (N : a <> b) by eauto. assert (P' : In x (mvs s)) by (rewrite E; apply in_mid; auto).
      destruct (b_own s B x b P' Q) as (X1 & X2 & X3). split; [cbn; now rewrite LV|]. split.
      * destruct (busy t b) eqn:F; [|auto]. destruct (BU _ F) as [G|G]; [congruence|]. destruct G. eapply owned_in; eauto.
      * unfold stage in *. cbn [mem w_mvs w_mem t]. rewrite upd_ne by auto. exact X3.
  - unfold owners. cbn. eapply nodup_mid; [rewrite <- E; apply (b_uniq s B)|]. rewrite O. exact O'.
  - intros b P. destruct (Nat.eq_dec a b) as [<-|N].
    + rewrite upd_eq in P. destruct (M P) as (P1 & P2). exists m'. split; [apply in_mid; auto|]. rewrite P2. split; [left|]; auto.
    + rewrite upd_ne in P by auto. destruct (b_mov s B b P) as (x & P1 & P2 & P3). rewrite E in P1. apply in_mid in P1.
      destruct P1 as [->|P1]; [rewrite O in P2; destruct P2 as [?|[]]; congruence|]. exists x. split; [apply in_mid; auto|auto].
  - intros b P. destruct (Nat.eq_dec a b) as [<-|N].
    + rewrite upd_eq in P. rewrite <- (X P). apply in_mid. auto.
    + rewrite upd_ne in P by auto. apply (b_exc s B) in P. rewrite E in P. apply in_mid in P. apply in_mid.
      destruct P as [<-|P]; [cbn in O; congruence|auto].
  - intros b k P. rewrite LV, KY. now apply (b_held s B).
  - intros x b P Q. rewrite LV. apply in_mid in P. destruct P as [->|P].
    + destruct (H b Q) as [G|(G & _)]; [eapply (b_mh s B); eauto|auto].
    + apply (b_mh s B x); [|exact Q]. rewrite E. apply in_mid. auto.
  - intros w b P. rewrite LV, KY. now apply (b_try s B w).
Qed.

(** A moving thread that owns nothing goes on. *)
Lemma pc_step s l1 m l2 m' : Base s -> mvs s = l1 ++ m :: l2 -> ownl m = [] -> ownl m' = [] ->
  (forall x, mholds x m' = true -> mholds x m = true \/ clive (mem s x) = true /\ ~ In x (owners s)) ->
  Base (w_mvs s (l1 ++ m' :: l2)).
Proof.
  intros B E O O' H.
  assert (BU : forall b, busy (w_mvs s (l1 ++ m' :: l2)) b = true -> busy s b = true \/ ~ In b (owners s)).
  { intros b. unfold busy. cbn. rewrite E, !existsb_mid, !orb_true_iff.
    intros [?|[P|?]]; auto. destruct (H b P) as [?|(? & ?)]; auto. }
  constructor; cbn; try apply B.
  - intros x b P Q. apply in_mid in P. destruct P as [->|P]; [rewrite O' in Q; destruct Q|].
    assert (P' : In x (mvs s)) by (rewrite E; apply in_mid; auto).
    destruct (b_own s B x b P' Q) as (X1 & X2 & X3). split; [exact X1|]. split; [|exact X3].
    destruct (busy (w_mvs s (l1 ++ m' :: l2)) b) eqn:F; [|auto]. destruct (BU _ F) as [G|G]; [congruence|]. destruct G. eapply owned_in; eauto.
  - unfold owners. cbn. eapply nodup_mid; [rewrite <- E; apply (b_uniq s B)|]. auto.
  - intros b P. destruct (b_mov s B b P) as (x & P1 & P2 & P3). rewrite E in P1. apply in_mid in P1.
    destruct P1 as [->|P1]; [rewrite O in P2; destruct P2|]. exists x. split; [apply in_mid; auto|auto].
  - intros b P. apply (b_exc s B) in P. rewrite E in P. apply in_mid in P. apply in_mid. destruct P as [<-|P]; [discriminate|auto].
  - intros x b P Q. apply in_mid in P. destruct P as [->|P].
    + destruct (H b Q) as [G|(G & _)]; [eapply (b_mh s B); eauto; rewrite E; apply in_mid; auto|auto].
    + apply (b_mh s B x); [|exact Q]. rewrite E. apply in_mid. auto.
Qed.

Lemma mark_base s a m : Base s -> markable s a = true -> m = MReg a \/ m = MChild a ->
  Base (w_mvs (w_mem s a (c_mov (mem s a) true)) (mvs s ++ [m])).
Proof.
  intros B K Hm. pose proof (markable_not_owned s a B K) as O. unfold markable in K.
  rewrite !andb_true_iff, !negb_true_iff in K. destruct K as ((((L & LN) & BU) & MV) & EX).
  assert (Om : ownl m = [a]) by (destruct Hm as [->| ->]; reflexivity).
  assert (LV : forall b, clive (upd (mem s) a (c_mov (mem s a) true) b) = clive (mem s b) /\ ckey (upd (mem s) a (c_mov (mem s a) true) b) = ckey (mem s b)).
  { intros b. destruct (Nat.eq_dec a b) as [<-|N]; [rewrite upd_eq; auto|now rewrite upd_ne]. }
  assert (NB : forall b, busy (w_mvs (w_mem s a (c_mov (mem s a) true)) (mvs s ++ [m])) b = busy s b).
  { intros b. unfold busy. cbn. rewrite existsb_app. cbn. destruct Hm as [->| ->]; cbn; now rewrite !orb_false_r. }
  constructor; cbn.
  - intros k b P. rewrite (proj1 (LV b)), (proj2 (LV b)). now apply (b_idx s B).
  - intros x b P Q. apply in_app_iff in P. destruct P as [P|[<-|[]]].
    + assert (N : a <> b) by (intros <-; apply O; eapply owned_in; eauto).
      destruct (b_own s B x b P Q) as (X1 & X2 & X3). split; [cbn; now rewrite (proj1 (LV b))|]. split; [now rewrite NB|].
      unfold stage in *. cbn [mem w_mvs w_mem]. rewrite upd_ne by auto. exact X3.
    + rewrite Om in Q. destruct Q as [<-|[]]. split; [cbn; now rewrite (proj1 (LV a))|]. split; [now rewrite NB|].
      destruct Hm as [->| ->]; cbn; rewrite upd_eq; cbn; auto.
  - unfold owners. cbn. rewrite flat_map_app. cbn. rewrite Om, app_nil_r.
    pose proof (b_uniq s B) as U. unfold owners in *. clear - U O.
    induction (flat_map ownl (mvs s)) as [|x r IH]; cbn in *; [constructor; [tauto|constructor]|].
    inversion U; subst. constructor; [|apply IH; tauto]. rewrite in_app_iff. cbn. intuition.
  - intros b P. destruct (Nat.eq_dec a b) as [<-|N].
    + exists m. split; [apply in_app_iff; cbn; auto|]. rewrite Om. split; [left; auto|]. destruct Hm as [->| ->]; reflexivity.
    + rewrite upd_ne in P by auto. destruct (b_mov s B b P) as (x & P1 & P2). exists x. split; [apply in_app_iff; auto|auto].
  - intros b P. apply in_app_iff. left. apply (b_exc s B). destruct (Nat.eq_dec a b) as [<-|N]; [rewrite upd_eq in P; exact P|rewrite upd_ne in P by auto; exact P].
  - intros b k P. rewrite (proj1 (LV b)), (proj2 (LV b)). now apply (b_held s B).
  - intros x b P Q. rewrite (proj1 (LV b)). apply in_app_iff in P. destruct P as [P|[<-|[]]]; [eapply (b_mh s B); eauto|].
    destruct Hm as [->| ->]; discriminate.
  - intros w b P. rewrite (proj1 (LV b)), (proj2 (LV b)). now apply (b_try s B w).
Qed.

(** Changing only the link of an item. *)
Lemma unlink_base s a : Base s -> Base (w_mem s a (c_lnk (mem s a) false)).
Proof.
  intros B.
  assert (LV : forall b, let c := upd (mem s) a (c_lnk (mem s a) false) b in clive c = clive (mem s b) /\ ckey c = ckey (mem s b) /\
     cmov c = cmov (mem s b) /\ cexc c = cexc (mem s b) /\ (clnk (mem s b) = false -> clnk c = false)).
  { intros b. destruct (Nat.eq_dec a b) as [<-|N]; [rewrite upd_eq; cbn; auto|rewrite upd_ne by auto; cbn; auto]. }
  constructor; cbn.
  - intros k b P. destruct (LV b) as (-> & -> & _). now apply (b_idx s B).
  - intros m b P Q. destruct (LV b) as (X1 & X2 & X3 & X4 & X5). destruct (b_own s B m b P Q) as (Y1 & Y2 & Y3).
    split; [cbn; congruence|]. split; [exact Y2|]. unfold stage in *. cbn [mem w_mem].
    destruct m; rewrite ?X3, ?X4; intuition auto.
  - apply (b_uniq s B).
  - intros b. destruct (LV b) as (X1 & X2 & X3 & X4 & X5). rewrite X3. apply (b_mov s B).
  - intros b. destruct (LV b) as (X1 & X2 & X3 & X4 & X5). rewrite X4. apply (b_exc s B).
  - intros b k P. destruct (LV b) as (-> & -> & _). now apply (b_held s B).
  - intros m b P Q. destruct (LV b) as (-> & _). eapply (b_mh s B); eauto.
  - intros w b P. destruct (LV b) as (-> & -> & _). now apply (b_try s B w).
Qed.
