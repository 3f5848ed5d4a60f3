(** Proofs for C09/C10: invariant of one allocation class. *)
From Coq Require Import Permutation.
From Verif Require Import Bytes Compress_model AllocClass_model AllocClass_spec.

Definition b2n := Nat.b2n.
Definition aeqb (x y : alloc) : bool := (fst x =? fst y) && (snd x =? snd y)%N.
Lemma aeqb_eq x y : aeqb x y = true <-> x = y.
Proof.
  unfold aeqb. rewrite andb_true_iff, Nat.eqb_eq, N.eqb_eq. destruct x, y; cbn. split; [intros []; congruence|intros E; inversion E; auto].
Qed.
Lemma aeqb_refl x : aeqb x x = true. Proof. apply aeqb_eq; reflexivity. Qed.
Fixpoint cA (m : alloc) (l : list alloc) : nat := match l with [] => 0 | x :: r => b2n (aeqb x m) + cA m r end.
Fixpoint cS (s : nat) (l : list nat) : nat := match l with [] => 0 | x :: r => b2n (x =? s) + cS s r end.
Fixpoint cX (s : nat) (l : list ctx) : nat := match l with [] => 0 | x :: r => b2n (xSlab x =? s) + cX s r end.

Lemma cA_app m l1 l2 : cA m (l1 ++ l2) = cA m l1 + cA m l2.
Proof. induction l1; cbn; lia. Qed.
Lemma cS_app m l1 l2 : cS m (l1 ++ l2) = cS m l1 + cS m l2.
Proof. induction l1; cbn; lia. Qed.
Lemma cA_In m l : In m l <-> 0 < cA m l.
Proof.
  induction l as [|x r IH]; cbn; [split; [tauto|lia]|]. destruct (aeqb x m) eqn:E.
  - apply aeqb_eq in E. cbn. split; [lia|auto].
  - cbn. rewrite IH. split; [intros [->|H]; [rewrite aeqb_refl in E; discriminate|lia]|intros H; right; lia].
Qed.
Lemma cS_In m l : In m l <-> 0 < cS m l.
Proof.
  induction l as [|x r IH]; cbn; [split; [tauto|lia]|]. destruct (Nat.eqb_spec x m).
  - cbn. split; [lia|auto].
  - cbn. rewrite IH. split; [intros [->|H]; [congruence|lia]|intros H; right; lia].
Qed.
Lemma cX_In s l : 0 < cX s l <-> exists x, In x l /\ xSlab x = s.
Proof.
  induction l as [|x r IH]; cbn; [split; [lia|intros (x & [] & _)]|]. destruct (Nat.eqb_spec (xSlab x) s) as [E|E].
  - cbn. split; [intros _; exists x; auto|lia].
  - cbn. rewrite IH. split; [intros (y & ? & ?); exists y; auto|intros (y & [->|?] & ?); [contradiction|exists y; auto]].
Qed.
Lemma cA_remA m m' l : In m l -> cA m' (remA m l) + b2n (aeqb m m') = cA m' l.
Proof.
  induction l as [|x r IH]; cbn; [tauto|]. fold (aeqb x m). destruct (aeqb x m) eqn:E.
  - apply aeqb_eq in E as ->. lia.
  - intros [->|H]; [rewrite aeqb_refl in E; discriminate|]. cbn. specialize (IH H). lia.
Qed.
Lemma cA_NoDup l : (forall m, cA m l <= 1) -> NoDup l.
Proof.
  induction l as [|x r IH]; intros H; [constructor|]. constructor.
  - intros I. apply cA_In in I. specialize (H x). cbn in H. rewrite aeqb_refl in H. cbn in H. lia.
  - apply IH. intros m. specialize (H m). cbn in H. lia.
Qed.

(** swapRemove *)
Lemma replaceFirst_cS s z l t : In s l -> cS t (replaceFirst s z l) + b2n (s =? t) = cS t l + b2n (z =? t).
Proof.
  induction l as [|x r IH]; cbn; [tauto|]. intros I. destruct (Nat.eqb_spec x s) as [->|NE].
  - cbn. lia.
  - destruct I as [->|I]; [congruence|]. cbn. specialize (IH I). lia.
Qed.
Lemma replaceFirst_last s z l : replaceFirst s z (l ++ [z]) = replaceFirst s z l ++ [z] \/ ~ In s l.
Proof.
  induction l as [|x r IH]; [right; tauto|]. cbn. destruct (Nat.eqb_spec x s) as [->|NE]; [left; reflexivity|].
  destruct IH as [->|H]; [left; reflexivity|right; intros [->|?]; [congruence|tauto]].
Qed.
Lemma replaceFirst_notin s z l : ~ In s l -> replaceFirst s z l = l.
Proof. induction l as [|x r IH]; cbn; [auto|]. intros H. destruct (Nat.eqb_spec x s); [exfalso; auto|]. f_equal. auto. Qed.
Lemma replaceFirst_snoc s z l : In s l \/ s = z -> replaceFirst s z (l ++ [z]) = replaceFirst s z l ++ [z].
Proof.
  intros H. destruct (replaceFirst_last s z l) as [E|NI]; [exact E|]. destruct H as [H| ->]; [contradiction|].
  rewrite (replaceFirst_notin _ _ _ NI). clear NI.
  induction l as [|x r IH]; cbn; [rewrite Nat.eqb_refl; reflexivity|].
  destruct (Nat.eqb_spec x z) as [->|]; [reflexivity|]. f_equal. exact IH.
Qed.
Lemma swapRemove_cS s l t : In s l -> cS t (swapRemove s l) + b2n (s =? t) = cS t l.
Proof.
  intros I. unfold swapRemove. destruct (rev l) as [|z r] eqn:E.
  - apply (f_equal (@rev nat)) in E. rewrite rev_involutive in E. subst. destruct I.
  - apply (f_equal (@rev nat)) in E. rewrite rev_involutive in E. cbn in E. subst l. set (l0 := rev r) in *. clearbody l0.
    assert (I' : In s l0 \/ s = z) by (apply in_app_or in I; destruct I as [?|[?|[]]]; auto).
    rewrite replaceFirst_snoc by exact I'. rewrite removelast_last. rewrite cS_app. cbn [cS].
    destruct (in_dec Nat.eq_dec s l0) as [J|J].
    + pose proof (replaceFirst_cS s z l0 t J). lia.
    + destruct I' as [?| ->]; [contradiction|]. rewrite replaceFirst_notin by exact J. lia.
Qed.

(** setTrue *)
Lemma setTrue_ok v i : i < length v -> exists v', setTrue v i = Some v' /\ length v' = length v /\
  forall j, nth j v' false = if j =? i then true else nth j v false.
Proof.
  revert i. induction v as [|b r IH]; intros i H; cbn in H; [lia|]. destruct i as [|i]; cbn.
  - eexists. split; [reflexivity|]. split; [reflexivity|]. intros [|j]; reflexivity.
  - destruct (IH i ltac:(lia)) as (r1 & E1 & L & NN). rewrite E1. eexists. split; [reflexivity|]. split; [cbn; lia|].
    intros [|j]; cbn; [reflexivity|]. apply NN.
Qed.
Lemma setTrue_inv v i v' : setTrue v i = Some v' -> i < length v /\ length v' = length v /\
  forall j, nth j v' false = if j =? i then true else nth j v false.
Proof.
  intros E. destruct (Nat.lt_ge_cases i (length v)) as [L|L].
  - destruct (setTrue_ok v i L) as (w & E' & A & B). rewrite E' in E. inversion E; subst. auto.
  - exfalso. revert i v' E L. induction v as [|b r IH]; intros i v' E L; [discriminate|]. cbn in L.
    destruct i; [lia|]. cbn in E. destruct (setTrue r i) eqn:E2; [|discriminate]. eapply IH; [exact E2|lia].
Qed.
Lemma markTail_length k v : k <= length v -> length (markTail k v) = length v.
Proof. intros. unfold markTail. rewrite app_length, firstn_length, repeat_length. lia. Qed.
Lemma nth_repeat_b (x : bool) n j : nth j (repeat x n) false = (j <? n) && x.
Proof. revert j. induction n; intros [|j]; cbn; auto. rewrite IHn. reflexivity. Qed.
Lemma markTail_nth k n j : k <= n -> nth j (markTail k (repeat false n)) false = (k <=? j) && (j <? n).
Proof.
  intros. unfold markTail. destruct (Nat.lt_ge_cases j k) as [L|L].
  - rewrite app_nth1 by (rewrite firstn_length, repeat_length; lia).
    replace (nth j (firstn k (repeat false n)) false) with false; [symmetry; apply andb_false_iff; left; apply Nat.leb_gt; lia|].
    assert (forall l, Forall (eq false) l -> nth j l false = false) as F.
    { intros l. revert j L. clear. induction l as [|b l IH]; intros [|j] L Fa; cbn; auto; inversion Fa; subst; auto. apply IH; [lia|auto]. }
    symmetry. apply F. apply Forall_forall. intros x I.
    assert (In x (repeat false n)) as I2. { rewrite <- (firstn_skipn k). apply in_or_app. auto. }
    apply repeat_spec in I2. congruence.
  - rewrite app_nth2 by (rewrite firstn_length, repeat_length; lia). rewrite firstn_length, repeat_length, Nat.min_l by lia.
    rewrite nth_repeat_b, andb_true_r. destruct (Nat.leb_spec k j); [|lia]. cbn [andb].
    destruct (Nat.ltb_spec (j - k) (n - k)), (Nat.ltb_spec j n); auto; lia.
Qed.

(** Offsets. *)
Section Cfg.
Context (c : acfg) (LC : legalCfg c).
Let sz := cSize c.
Definition al (m : alloc) : bool := (snd m mod cSize c =? 0)%N && (allocIdx c m <? perSlab c).
Lemma sz_pos : (0 < cSize c)%N.
Proof. destruct LC as [A _]. change kMinAllocSize with 64%N in A. lia. Qed.
Lemma al_form m : al m = true <-> exists i, i < perSlab c /\ m = allocForIdx c (fst m) i.
Proof.
  pose proof sz_pos as SP. unfold al, allocIdx, allocForIdx. rewrite andb_true_iff, N.eqb_eq, Nat.ltb_lt. destruct m as [s o]; cbn. split.
  - intros [A B]. exists (N.to_nat (o / cSize c)). split; [exact B|]. rewrite N2Nat.id. f_equal. pose proof (N.div_mod o (cSize c)). lia.
  - intros (i & I & E). inversion E; subst. rewrite N.mod_mul by lia. rewrite N.div_mul by lia. rewrite Nat2N.id. auto.
Qed.
Lemma allocForIdx_al s i : i < perSlab c -> al (allocForIdx c s i) = true.
Proof. intros. apply al_form. exists i. auto. Qed.
Lemma allocIdx_for s i : allocIdx c (allocForIdx c s i) = i.
Proof. pose proof sz_pos. unfold allocIdx, allocForIdx. cbn. rewrite N.div_mul by lia. apply Nat2N.id. Qed.
Lemma al_idx m n : al m = true -> al n = true -> fst m = fst n -> allocIdx c m = allocIdx c n -> m = n.
Proof.
  intros A B F I. apply al_form in A as (i & Hi & Em). apply al_form in B as (j & Hj & En).
  rewrite Em, En in I. rewrite !allocIdx_for in I. congruence.
Qed.
Lemma per_mul : (N.of_nat (perSlab c) * cSize c <= kSlabSize)%N.
Proof. unfold perSlab. rewrite N2Nat.id. pose proof sz_pos. rewrite N.mul_comm. apply N.mul_div_le. lia. Qed.
Lemma fits_per k : (N.of_nat k * cSize c + cSize c <= kSlabSize)%N <-> k < perSlab c.
Proof.
  pose proof sz_pos. pose proof per_mul as PM. unfold perSlab. split.
  - intros F. assert (N.of_nat k + 1 <= kSlabSize / cSize c)%N by (apply N.div_le_lower_bound; lia). lia.
  - intros L. unfold perSlab in PM. rewrite N2Nat.id in PM. assert (N.of_nat k + 1 <= kSlabSize / cSize c)%N by lia. nia.
Qed.
Lemma al_inSlab m : al m = true -> inSlab (cSize c) m.
Proof.
  intros A. apply al_form in A as (i & I & E). unfold inSlab. rewrite E. cbn. apply fits_per. exact I.
Qed.
Lemma al_disjoint m n : al m = true -> al n = true -> m <> n -> disjoint (cSize c) m n.
Proof.
  intros A B NE. apply al_form in A as (i & I & Em). apply al_form in B as (j & J & En). unfold disjoint.
  destruct (Nat.eq_dec (fst m) (fst n)) as [F|F]; [|left; exact F]. right.
  assert (i <> j) by (intros ->; apply NE; rewrite Em, En, F; reflexivity).
  rewrite Em, En. cbn. pose proof sz_pos. destruct (Nat.lt_ge_cases i j); [left|right]; nia.
Qed.

(** ** The invariant *)
Definition rmap := nat -> option (list bool).
Definition relT (r : rmap) (m : alloc) : bool :=
  match r (fst m) with Some v => nth (allocIdx c m) v false | None => false end && al m.
Definition unc (cs : option nat) (co : N) (m : alloc) : bool :=
  match cs with Some s => (s =? fst m) && (co <=? snd m)%N && al m | None => false end.
Definition offl (k : slock) : list alloc :=
  match k with LkPrune _ (P1 fr ins nots) => fr ++ ins ++ nots | _ => [] end.
Definition prOn (k : slock) (s : nat) : bool := match k with LkPrune t _ => t =? s | _ => false end.
Definition loose (k : slock) (s : nat) : Prop :=
  match k with LkPrune t P0 => t = s | LkPrune t PA2 => t = s | _ => False end.
Definition inR (r : rmap) (s : nat) : bool := isSome (r s).
Definition hdrOurs (h : hdrs) (s : nat) : Prop := hClass (h s) = Some (cId c) /\ hPool (h s) = Some (cPool c).
Definition covers (r : rmap) (s : nat) (act : list alloc) : Prop :=
  (forall m, In m act -> fst m = s /\ al m = true) /\
  (forall m, fst m = s -> al m = true -> relT r m = true \/ In m act).
Definition phOk (r : rmap) (al0 fs : list nat) (k : slock) : Prop :=
  match k with
  | LkPrune s (P1 fr ins nots) =>
      (forall m, In m ins -> fst m = s) /\ (forall m, In m nots -> fst m <> s) /\
      (forall m, In m fr \/ In m nots -> r (fst m) = None \/ fst m = s)
  | LkPrune s (P4 act) => covers r s act
  | LkIter s => (0 < cS s al0 + cS s fs)
  | _ => True
  end.
Definition ctxOk (r : rmap) (x : ctx) : Prop :=
  covers r (xSlab x) (xAct x) /\ (xPh x = CFreed -> forall m, fst m = xSlab x -> al m = true -> relT r m = true).
Definition nown (a : ac) (s : nat) : nat := cS s (allocd a) + cS s (freeS a) + b2n (inR (relMap a) s).

Record InvA (a : ac) (k : slock) (lv fg : list alloc) (cx : list ctx) (h : hdrs) : Prop := mkInv {
  i_slabs : forall s, cS s (allocd a) + cS s (freeS a) + b2n (inR (relMap a) s) <= 1;
  i_hdr : forall s, hdrOurs h s <-> 0 < cS s (allocd a) + cS s (freeS a) + b2n (inR (relMap a) s);
  i_mark : forall s, 0 < cS s (allocd a) + cS s (freeS a) + b2n (inR (relMap a) s) -> hMark (h s) = inR (relMap a) s;
  i_cur : forall s, curS a = Some s -> 0 < cS s (allocd a) /\ exists k, k <= perSlab c /\ curOff a = (N.of_nat k * cSize c)%N;
  i_cnt : forall m, cA m lv + cA m fg + cA m (freed a) + cA m (offl k)
            + b2n (relT (relMap a) m) + b2n (unc (curS a) (curOff a) m)
            = (cS (fst m) (allocd a) + b2n (inR (relMap a) (fst m))) * b2n (al m);
  i_len : forall s v, relMap a s = Some v -> length v = perSlab c;
  i_rel : forall s, b2n (inR (relMap a) s) = b2n (prOn k s) + cX s cx;
  i_free : forall m, In m (freed a) -> relMap a (fst m) = None \/ loose k (fst m);
  i_ph : phOk (relMap a) (allocd a) (freeS a) k;
  i_ctx : forall x, In x cx -> ctxOk (relMap a) x;
  i_act : nActive a = Z.of_nat (length cx)
}.
Definition Inv (x : ast * hdrs) : Prop :=
  InvA (sAc (fst x)) (sLk (fst x)) (live (fst x)) (freeing (fst x)) (ctxs (fst x)) (snd x).
End Cfg.
