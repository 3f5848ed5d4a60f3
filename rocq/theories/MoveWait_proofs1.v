(** Base invariant: who owns, holds and indexes memory (any mode). *)
From Coq Require Import List Arith Bool Lia.
Import ListNotations.
From Verif Require Import MoveWait_model.

(** ** Lists *)
Lemma split_nth {A} (l : list A) i m : nth_error l i = Some m ->
  exists l1 l2, l = l1 ++ m :: l2 /\ length l1 = i /\ forall m', updl l i m' = l1 ++ m' :: l2.
Proof.
  revert i. induction l as [|y r IH]; intros [|i] H; cbn in H; try discriminate.
  - injection H as ->. exists [], r. auto.
  - destruct (IH _ H) as (l1 & l2 & -> & L & U). exists (y :: l1), l2. cbn. split; [reflexivity|]. split; [lia|].
    intros m'. cbn. now rewrite U.
Qed.
Lemma updl_mid {A} (l1 l2 : list A) m m' : updl (l1 ++ m :: l2) (length l1) m' = l1 ++ m' :: l2.
Proof. induction l1; cbn; [reflexivity|]. now rewrite IHl1. Qed.
Lemma nth_mid {A} (l1 l2 : list A) m : nth_error (l1 ++ m :: l2) (length l1) = Some m.
Proof. induction l1; cbn; auto. Qed.
Lemma del_mid {A} (l : list A) i m : nth_error l i = Some m ->
  exists l1 l2, l = l1 ++ m :: l2 /\ del l i = l1 ++ l2.
Proof.
  revert i. induction l as [|y r IH]; intros [|i] H; cbn in H; try discriminate.
  - injection H as ->. exists [], r. auto.
  - destruct (IH _ H) as (l1 & l2 & -> & U). exists (y :: l1), l2. cbn. now rewrite U.
Qed.
Lemma in_mid {A} (l1 l2 : list A) m x : In x (l1 ++ m :: l2) <-> x = m \/ In x (l1 ++ l2).
Proof. rewrite !in_app_iff. cbn. intuition. Qed.
Lemma existsb_mid {A} (f : A -> bool) l1 l2 m : existsb f (l1 ++ m :: l2) = f m || existsb f (l1 ++ l2).
Proof. rewrite !existsb_app. cbn. destruct (f m), (existsb f l1); auto. Qed.
Lemma existsb_false {A} (f : A -> bool) l : existsb f l = false <-> forall x, In x l -> f x = false.
Proof.
  split.
  - intros H x I. destruct (f x) eqn:E; [|auto]. rewrite <- H. symmetry. apply existsb_exists. eauto.
  - intros H. destruct (existsb f l) eqn:E; [|auto]. apply existsb_exists in E. destruct E as (x & I & F).
    rewrite (H x I) in F. discriminate.
Qed.

(** ** Definitions *)
Definition ownl (m : mpc) : list nat :=
  match m with
  | MReg a | MUnm a _ | MWake a _ | MFree a | MEv a | MEvU a | MEvW a | MChild a | MCUnm a => [a]
  | _ => []
  end.
Definition movst (m : mpc) : bool :=
  match m with MReg _ | MUnm _ _ | MEv _ | MChild _ | MCUnm _ => true | _ => false end.
Definition noidx (s : state) (a : nat) : Prop := forall k, idx s k <> Some a.
Definition owners (s : state) : list nat := flat_map ownl (mvs s).
Definition stage (s : state) (m : mpc) (a : nat) : Prop :=
  match m with
  | MReg _ | MEv _ | MChild _ | MCUnm _ => cmov (mem s a) = true /\ cexc (mem s a) = false
  | MUnm _ _ => cmov (mem s a) = true /\ cexc (mem s a) = false /\ noidx s a
  | MEvU _ => cmov (mem s a) = false /\ cexc (mem s a) = true
  | MWake _ _ | MFree _ | MEvW _ =>
    cmov (mem s a) = false /\ cexc (mem s a) = false /\ clnk (mem s a) = false /\ noidx s a
  | _ => True
  end.
Definition okown (s : state) (m : mpc) (a : nat) : Prop :=
  clive (mem s a) = true /\ busy s a = false /\ stage s m a.

Record Base (s : state) : Prop := {
  b_idx : forall k a, idx s k = Some a -> clive (mem s a) = true /\ ckey (mem s a) = k;
  b_own : forall m a, In m (mvs s) -> In a (ownl m) -> okown s m a;
  b_uniq : NoDup (owners s);
  b_mov : forall a, cmov (mem s a) = true -> exists m, In m (mvs s) /\ In a (ownl m) /\ movst m = true;
  b_exc : forall a, cexc (mem s a) = true -> In (MEvU a) (mvs s);
  b_held : forall a k, In (a, k) (held s) -> clive (mem s a) = true /\ ckey (mem s a) = k;
  b_mh : forall m a, In m (mvs s) -> mholds a m = true -> clive (mem s a) = true;
  b_try : forall w a, In (w, a) (trys s) -> clive (mem s a) = true /\ idx s (ckey (mem s a)) = Some a
}.

(** Base looks at five components only. *)
Definition same5 (s t : state) : Prop :=
  mem t = mem s /\ idx t = idx s /\ trys t = trys s /\ mvs t = mvs s /\ held t = held s.
Lemma same5_base s t : same5 s t -> Base s -> Base t.
Proof.
  intros (M & I & T & V & H) [B1 B2 B3 B4 B5 B6 B7 B8].
  assert (BU : forall a, busy t a = busy s a) by (intros; unfold busy; now rewrite H, V).
  constructor; try (rewrite ?M, ?I, ?T, ?V, ?H; assumption).
  - rewrite V. intros m a P Q. specialize (B2 m a P Q). unfold okown in *. rewrite M, BU.
    destruct B2 as (X & Y & Z). split; [auto|split; [auto|]].
    destruct m; cbn in *; unfold noidx in *; rewrite ?M, ?I in *; auto.
  - unfold owners. rewrite V. exact B3.
Qed.

Lemma owned_in s m a : In m (mvs s) -> In a (ownl m) -> In a (owners s).
Proof. intros. unfold owners. apply in_flat_map. eauto. Qed.
Lemma own_one m a b : In a (ownl m) -> In b (ownl m) -> a = b.
Proof. destruct m; cbn; intuition congruence. Qed.

Lemma busy_not_owned s a : Base s -> busy s a = true -> ~ In a (owners s).
Proof.
  intros B H I. apply in_flat_map in I. destruct I as (m & P & Q).
  destruct (b_own s B m a P Q) as (_ & X & _). congruence.
Qed.
Lemma idx_free_not_owned s k a : Base s -> idx s k = Some a -> cmov (mem s a) = false -> cexc (mem s a) = false ->
  ~ In a (owners s).
Proof.
  intros B H M X I. apply in_flat_map in I. destruct I as (m & P & Q).
  destruct (b_own s B m a P Q) as (_ & _ & S).
  destruct m; cbn in *; try tauto; destruct Q as [->|[]]; unfold noidx in *;
    (destruct S as (? & ? & ? & N) || destruct S as (? & ? & N) || destruct S as (? & ?)); try congruence; now apply (N k).
Qed.
Lemma markable_not_owned s a : Base s -> markable s a = true -> ~ In a (owners s).
Proof.
  intros B H I. apply in_flat_map in I. destruct I as (m & P & Q).
  destruct (b_own s B m a P Q) as (_ & _ & S). unfold markable in H.
  rewrite !andb_true_iff, !negb_true_iff in H. destruct H as ((((? & ?) & ?) & ?) & ?).
  destruct m; cbn in *; try tauto; destruct Q as [->|[]]; intuition congruence.
Qed.

(** ** Answers *)
Definition okans (s : state) (v : option nat) : Prop :=
  forall a, v = Some a -> clive (mem s a) = true /\ ~ In a (owners s).

Lemma ownl_resume w v m : ownl (resume w v m) = ownl m.
Proof. destruct m; cbn; auto. destruct (w0 =? w); auto. Qed.
Lemma owners_resume w v l : flat_map ownl (map (resume w v) l) = flat_map ownl l.
Proof. induction l; cbn; [auto|]. now rewrite ownl_resume, IHl. Qed.
Lemma resume_id w v m a : In a (ownl m) -> resume w v m = m.
Proof. destruct m; cbn; tauto. Qed.
Lemma resume_movst w v m : movst (resume w v m) = movst m.
Proof. destruct m; cbn; auto. destruct (w0 =? w); auto. Qed.
Lemma resume_inv w v m m' : resume w v m = m' -> m' = m \/ exists p k, m = MCWait p k w /\ m' = MCWake p k v.
Proof.
  destruct m; cbn; try (intros <-; left; reflexivity).
  destruct (w0 =? w) eqn:E; intros <-; [apply Nat.eqb_eq in E; subst; right; eauto|left; reflexivity].
Qed.

Lemma answer_owners s w o v : owners (answer s w o v) = owners s.
Proof. unfold answer, owners. destruct o, v; cbn; auto; apply owners_resume. Qed.

Lemma upd_eq {A} (f : nat -> A) i v : upd f i v i = v.
Proof. unfold upd. now rewrite Nat.eqb_refl. Qed.
Lemma upd_ne {A} (f : nat -> A) i v j : i <> j -> upd f i v j = f j.
Proof. unfold upd. intros H. apply Nat.eqb_neq in H. now rewrite H. Qed.

(** The memory after an answer: only the link of the answered item may go. *)
Definition memle (m m' : nat -> cell) : Prop := forall a,
  ckey (m' a) = ckey (m a) /\ clive (m' a) = clive (m a) /\ cmov (m' a) = cmov (m a) /\ cexc (m' a) = cexc (m a) /\
  (clnk (m a) = false -> clnk (m' a) = false).
Lemma memle_refl m : memle m m. Proof. intros a. auto. Qed.
Lemma memle_trans m1 m2 m3 : memle m1 m2 -> memle m2 m3 -> memle m1 m3.
Proof. intros X Y a. destruct (X a) as (? & ? & ? & ? & ?), (Y a) as (? & ? & ? & ? & ?). repeat split; try congruence. auto. Qed.
Lemma answer_mem s w o v : memle (mem s) (mem (answer s w o v)).
Proof.
  unfold answer. destruct o, v; cbn; try apply memle_refl.
  intros a. unfold upd. destruct (n =? a) eqn:E; [apply Nat.eqb_eq in E; subst a; cbn; auto|auto].
Qed.
Lemma answer_frame s w o v : idx (answer s w o v) = idx s /\ tbl (answer s w o v) = tbl s /\ trys (answer s w o v) = trys s /\
  nw (answer s w o v) = nw s.
Proof. unfold answer. destruct o, v; cbn; auto. Qed.
Lemma answer_held s w o v : held (answer s w o v) = held s \/
  exists a, v = Some a /\ held (answer s w o v) = (a, ckey (mem s a)) :: held s.
Proof. unfold answer. destruct o, v; cbn; eauto. Qed.
Lemma answer_mvs s w o v : mvs (answer s w o v) = match o with WMover => map (resume w v) (mvs s) | _ => mvs s end.
Proof. unfold answer. destruct o, v; cbn; eauto. Qed.
Lemma answer_in_mvs s w o v m : In m (mvs (answer s w o v)) ->
  In m (mvs s) \/ exists p k, In (MCWait p k w) (mvs s) /\ m = MCWake p k v.
Proof.
  rewrite answer_mvs. destruct o; auto. rewrite in_map_iff. intros (x & E & I).
  apply resume_inv in E. destruct E as [->|(p & k & -> & ->)]; eauto.
Qed.
Lemma answer_owner_stays s w o v m a : In m (mvs s) -> In a (ownl m) -> In m (mvs (answer s w o v)).
Proof.
  intros I O. rewrite answer_mvs. destruct o; auto. apply in_map_iff. exists m. split; [|auto]. eapply resume_id; eauto.
Qed.

Lemma busy_answer s w o v a : busy (answer s w o v) a = true -> busy s a = true \/ v = Some a.
Proof.
  unfold busy. rewrite !orb_true_iff, !existsb_exists. intros [(h & I & E)|(m & I & E)].
  - destruct (answer_held s w o v) as [X|(b & -> & X)]; rewrite X in I.
    + left. left. eauto.
    + destruct I as [<-|I]; [cbn in E; apply Nat.eqb_eq in E; right; congruence|left; left; eauto].
  - apply answer_in_mvs in I. destruct I as [I|(p & k & I & ->)]; [left; right; eauto|].
    cbn in E. destruct v as [b|]; [|discriminate]. apply Nat.eqb_eq in E. right. congruence.
Qed.

Lemma answer_base s w o v : Base s -> okans s v -> Base (answer s w o v) /\ okans (answer s w o v) v.
Proof.
  intros B K. pose proof (answer_mem s w o v) as M. destruct (answer_frame s w o v) as (I & T & Y & W).
  split.
  - constructor.
    + rewrite I. intros k a H. destruct (b_idx s B k a H). destruct (M a) as (X & Z & _). split; congruence.
    + intros m a P Q. destruct (answer_in_mvs _ _ _ _ _ P) as [P'|(p & k & P' & ->)]; [|destruct Q].
      destruct (b_own s B m a P' Q) as (L & U & S). destruct (M a) as (X & Z & Mv & E & N).
      split; [congruence|]. split.
      * destruct (busy (answer s w o v) a) eqn:F; [|auto]. apply busy_answer in F. destruct F as [F| ->]; [congruence|].
        destruct (K a eq_refl) as (_ & F). destruct F. eapply owned_in; eauto.
      * destruct m; cbn in *; unfold noidx in *; rewrite ?I; try tauto;
          (destruct S as (? & ? & ? & ?) || destruct S as (? & ? & ?) || destruct S as (? & ?)); repeat split; try congruence; auto.
    + rewrite answer_owners. apply (b_uniq s B).
    + intros a H. destruct (M a) as (_ & _ & Mv & _). rewrite Mv in H. destruct (b_mov s B a H) as (m & P & Q & R).
      exists m. split; [eapply answer_owner_stays; eauto|auto].
    + intros a H. destruct (M a) as (_ & _ & _ & E & _). rewrite E in H. apply (b_exc s B) in H.
      eapply answer_owner_stays; eauto. left. reflexivity.
    + intros a k H. destruct (M a) as (X & Z & _). rewrite X, Z.
      destruct (answer_held s w o v) as [Y'|(b & -> & Y')]; rewrite Y' in H; [now apply (b_held s B)|].
      destruct H as [[= <- <-]|H]; [split; [apply K|]; auto|now apply (b_held s B)].
    + intros m a P Q. destruct (M a) as (_ & Z & _). rewrite Z.
      destruct (answer_in_mvs _ _ _ _ _ P) as [P'|(p & k & P' & ->)]; [eapply b_mh; eauto|].
      cbn in Q. destruct v; [|discriminate]. apply Nat.eqb_eq in Q. subst. now apply K.
    + rewrite Y. intros x a H. destruct (b_try s B x a H). destruct (M a) as (X & Z & _). rewrite X, Z, I. auto.
  - intros a ->. destruct (K a eq_refl). destruct (M a) as (_ & Z & _). rewrite Z, answer_owners. auto.
Qed.

Lemma answerAll_base ws : forall s v, Base s -> okans s v -> Base (answerAll s ws v) /\ okans (answerAll s ws v) v.
Proof.
  induction ws as [|[w o] r IH]; intros s v B K; [auto|]. cbn.
  destruct (answer_base s w o v B K) as (B' & K'). apply IH; auto.
Qed.
Lemma answerAll_frame ws : forall s v, let t := answerAll s ws v in
  idx t = idx s /\ tbl t = tbl s /\ trys t = trys s /\ nw t = nw s /\ owners t = owners s /\ memle (mem s) (mem t).
Proof.
  induction ws as [|[w o] r IH]; intros s v; cbn; [repeat split; auto; apply memle_refl|].
  destruct (IH (answer s w o v) v) as (A & B & C & D & E & F). destruct (answer_frame s w o v) as (A' & B' & C' & D').
  unfold answerAll in *. rewrite A, B, C, D, E, A', B', C', D', answer_owners. repeat split; auto.
  all: eapply memle_trans; [apply answer_mem|apply F].
Qed.
Lemma answerAll_owner_stays ws : forall s v m a, In m (mvs s) -> In a (ownl m) -> In m (mvs (answerAll s ws v)).
Proof. induction ws as [|[w o] r IH]; intros; cbn; [auto|]. eapply IH; eauto. eapply answer_owner_stays; eauto. Qed.
(** A moving thread that does not wait keeps its place. *)
Definition isWait (m : mpc) : bool := match m with MCWait _ _ _ => true | _ => false end.
Lemma answerAll_nth ws : forall s v i m, nth_error (mvs s) i = Some m -> isWait m = false ->
  nth_error (mvs (answerAll s ws v)) i = Some m.
Proof.
  induction ws as [|[w o] r IH]; intros s v i m H N; cbn; [auto|]. apply IH; [|auto]. rewrite answer_mvs.
  destruct o; auto. rewrite nth_error_map, H. cbn. f_equal. destruct m; cbn in *; auto; discriminate.
Qed.

Lemma wake_base visits s k v : Base s -> okans s v -> Base (wake visits s k v) /\ okans (wake visits s k v) v.
Proof. intros B K. unfold wake. apply answerAll_base; [eapply same5_base; [|exact B]; repeat split|exact K]. Qed.
Lemma wake_frame visits s k v : let t := wake visits s k v in
  idx t = idx s /\ trys t = trys s /\ nw t = nw s /\ owners t = owners s /\ memle (mem s) (mem t).
Proof. cbn. destruct (answerAll_frame (fst (erase visits s k (tbl s))) (w_tbl s (snd (erase visits s k (tbl s)))) v) as (A & B & C & D & E & F). repeat split; auto; apply F. Qed.
Lemma wake_nth visits s k v i m : nth_error (mvs s) i = Some m -> isWait m = false -> nth_error (mvs (wake visits s k v)) i = Some m.
Proof. intros. unfold wake. apply answerAll_nth; auto. Qed.
