(** Proofs for C07, part 2: the iterator and each call. *)
From Coq Require Import Permutation.
From Verif Require Import Bytes DList_model DList_spec DList_proofs MMTinyLFU_model MMTinyLFU_spec MMTinyLFU_proofs.
From Verif Require CountMin_model CountMin_spec CountMin_proofs MMLru_proofs.
Ltac Zify.zify_post_hook ::= idtac.

(** The iterator is at [rt] of tiny and [rm] of main (both oldest first). *)
Definition at_it (s : lfu) (q : qt) (it : iter) (rt rm : list node) : Prop :=
  it = (hd_error rt, hd_error rm) /\ (exists pt, rev (T q) = pt ++ rt) /\ (exists pm, rev (M q) = pm ++ rm).

Lemma back_at w l pt x r : rev l = pt ++ x :: r ->
  (forall a y b, l = a ++ y :: b -> prv (wheap w) y = lastOr a None) -> prv (wheap w) x = hd_error r.
Proof.
  intros E P. assert (El : l = rev r ++ x :: rev pt).
  { rewrite <- (rev_involutive l), E, rev_app_distr. cbn [rev]. now rewrite <- app_assoc. }
  rewrite (P _ _ _ El). destruct r as [|y r]; [reflexivity|]. cbn [rev hd_error]. apply lastOr_snoc.
Qed.

Lemma merge_nil_r adm t : merge adm t [] = t.
Proof. destruct t; reflexivity. Qed.
Lemma merge_cons adm a t b m : merge adm (a :: t) (b :: m) = if adm a b then b :: merge adm (a :: t) m else a :: merge adm t (b :: m).
Proof. reflexivity. Qed.

Lemma itGet_ok e s q it rt rm : R0 e s q -> at_it s q it rt rm ->
  itGet e s it = Some (hd_error (merge (admits e q) rt rm)) /\
  match merge (admits e q) rt rm with
  | [] => True
  | n :: r => exists jt rt' rm', itNext e s it = Some jt /\ at_it s q jt rt' rm' /\ merge (admits e q) rt' rm' = r /\
      ((rt = n :: rt' /\ rm' = rm) \/ (rm = n :: rm' /\ rt' = rt))
  end.
Proof.
  intros HR (-> & (pt & Pt) & (pm & Pm)). pose proof HR as (Wr & _).
  assert (BT : forall x r, rt = x :: r -> back s (hd_error rt) = hd_error r).
  { intros x r ->. cbn [hd_error back]. eapply back_at; [exact Pt|]. intros a y b E. eapply W_prv1; eauto. }
  assert (BM : forall x r, rm = x :: r -> back s (hd_error rm) = hd_error r).
  { intros x r ->. cbn [hd_error back]. eapply back_at; [exact Pm|]. intros a y b E. eapply W_prv0; eauto. }
  assert (NT : forall x r, rt = x :: r -> at_it s q (hd_error r, hd_error rm) r rm).
  { intros x r ->. split; [reflexivity|]. split; [|eauto]. exists (pt ++ [x]). now rewrite <- app_assoc. }
  assert (NM : forall x r, rm = x :: r -> at_it s q (hd_error rt, hd_error r) rt r).
  { intros x r ->. split; [reflexivity|]. split; [eauto|]. exists (pm ++ [x]). now rewrite <- app_assoc. }
  unfold itGet, itNext, evictTiny. destruct rm as [|b m].
  - rewrite merge_nil_r. destruct rt as [|a t]; cbn [hd_error fst snd]; (split; [reflexivity|]); [exact Logic.I|].
    eexists _, t, []. split; [reflexivity|]. split; [|rewrite merge_nil_r; split; [reflexivity|left; auto]].
    change (Some a) with (hd_error (a :: t)). rewrite (BT a t eq_refl). exact (NT a t eq_refl).
  - destruct rt as [|a t].
    + cbn [hd_error fst snd merge]. split; [reflexivity|].
      eexists _, [], m. split; [reflexivity|]. split; [|split; [reflexivity|right; auto]].
      cbn [fst snd]. change (Some b) with (hd_error (b :: m)). rewrite (BM b m eq_refl). exact (NM b m eq_refl).
    + cbn [hd_error]. rewrite (R0_admit _ _ _ a b HR), merge_cons. destruct (admits e q a b); cbn [negb fst snd].
      * split; [reflexivity|]. eexists _, (a :: t), m. split; [reflexivity|]. split; [|split; [reflexivity|right; auto]].
        change (Some b) with (hd_error (b :: m)). rewrite (BM b m eq_refl). exact (NM b m eq_refl).
      * split; [reflexivity|]. eexists _, t, (b :: m). split; [reflexivity|]. split; [|split; [reflexivity|left; auto]].
        change (Some a) with (hd_error (a :: t)). rewrite (BT a t eq_refl). exact (NT a t eq_refl).
Qed.

Lemma walk_at e s q : R0 e s q -> forall fuel it rt rm, at_it s q it rt rm ->
  length (merge (admits e q) rt rm) <= fuel -> walkIt fuel e s it = Some (merge (admits e q) rt rm).
Proof.
  intros HR. induction fuel as [|f IH]; intros it rt rm A Le; cbn [walkIt];
    destruct (itGet_ok e s q it rt rm HR A) as (-> & Nx).
  - destruct (merge (admits e q) rt rm) as [|n r]; [reflexivity|]. cbn in Le. lia.
  - destruct (merge (admits e q) rt rm) as [|n r]; [reflexivity|]. cbn [hd_error].
    destruct Nx as (jt & rt' & rm' & -> & A' & E & _). cbn in Le. rewrite (IH jt rt' rm' A'); rewrite E; [reflexivity|lia].
Qed.

Lemma merge_perm adm t : forall m, Permutation (merge adm t m) (t ++ m).
Proof.
  induction t as [|a t IHt]; [reflexivity|]. induction m as [|b m IHm].
  - now rewrite merge_nil_r, app_nil_r.
  - rewrite merge_cons. destruct (adm a b).
    + rewrite IHm. apply Permutation_middle.
    + rewrite IHt. reflexivity.
Qed.
Lemma eviction_perm e q : Permutation (eviction e q) (members q).
Proof.
  unfold eviction, members. rewrite merge_perm, <- !Permutation_rev. apply Permutation_app_comm.
Qed.
Lemma begin_at e s q : R0 e s q -> at_it s q (rbegin s) (rev (T q)) (rev (M q)).
Proof.
  intros (Wr & _). destruct (W_tail _ _ _ Wr) as (A & B). split; [|split; [exists []|exists []]; reflexivity].
  unfold rbegin, lst, Main, Tiny. rewrite A, B.
  assert (G : forall l : list node, lastOr l None = hd_error (rev l)).
  { intros l. destruct (list_snoc l) as [->|(a & x & ->)]; [reflexivity|]. now rewrite lastOr_snoc, rev_snoc. }
  now rewrite !G.
Qed.
Lemma eviction_len e q : length (eviction e q) = length (members q).
Proof. apply Permutation_length, eviction_perm. Qed.
Lemma order_ok e s q : R0 e s q -> evictionOrder e s = Some (eviction e q).
Proof.
  intros HR. unfold evictionOrder. apply (walk_at e s q HR); [exact (begin_at e s q HR)|].
  fold (eviction e q). rewrite eviction_len, (R0_total _ _ _ HR). lia.
Qed.

Lemma R_shows e s q : R e s q -> shows e s q.
Proof.
  intros HR. pose proof (R_R0 _ _ _ HR) as R1. pose proof HR as (Wr & Ti & Im & _ & _ & _ & (E1 & E2 & _) & _).
  split; [now apply order_ok|]. split; [exact (W_nodup _ _ _ Wr)|]. split; [now apply (R0_total e)|].
  split; [exact (W_walk _ _ _ 0 Wr)|]. split; [exact (W_walk _ _ _ 1 Wr)|].
  split; [intros n; rewrite Im; apply mem_in|]. split; [intros n; rewrite Ti; apply mem_in|]. auto.
Qed.

(** Seeking. *)
Lemma seek_at e s q n : R0 e s q -> forall fuel it rt rm, at_it s q it rt rm -> In n (merge (admits e q) rt rm) ->
  length (merge (admits e q) rt rm) <= fuel ->
  exists jt rt' rm' p r, seek fuel e s it n = Some jt /\ at_it s q jt rt' rm' /\
    merge (admits e q) rt rm = p ++ n :: r /\ ~ In n p /\ merge (admits e q) rt' rm' = n :: r.
Proof.
  intros HR. induction fuel as [|f IH]; intros it rt rm A In0 Le; cbn [seek];
    destruct (itGet_ok e s q it rt rm HR A) as (-> & Nx).
  - destruct (merge (admits e q) rt rm); [destruct In0|cbn in Le; lia].
  - destruct (merge (admits e q) rt rm) as [|x r] eqn:Em; [destruct In0|]. cbn [hd_error].
    destruct (Nat.eqb_spec x n) as [E|D].
    + rewrite E in *. exists it, rt, rm, [], r. split; [reflexivity|]. split; [exact A|]. split; [reflexivity|]. split; [intros []|exact Em].
    + destruct Nx as (jt & rt' & rm' & -> & A' & E & _). destruct In0 as [X|X]; [contradiction|].
      rewrite <- E in X. destruct (IH jt rt' rm' A' X) as (kt & a & b & p & r' & S1 & S2 & S3 & S4 & S5).
      { rewrite E. cbn in Le. lia. }
      exists kt, a, b, (x :: p), r'. split; [exact S1|]. split; [exact S2|]. rewrite <- E, S3. split; [reflexivity|].
      split; [|exact S5]. intros [Y|Y]; auto.
Qed.

Lemma members_split e s q n : R e s q -> (In n (M q) /\ ~ In n (T q)) \/ (In n (T q) /\ ~ In n (M q)) \/ ~ In n (members q).
Proof.
  intros (Wr & _). unfold members. rewrite in_app_iff.
  assert (D : In n (M q) -> In n (T q) -> False).
  { destruct Wr as (_ & B & _). intros X Y. specialize (B 0 1 n X Y). discriminate. }
  destruct (in_dec Nat.eq_dec n (M q)); destruct (in_dec Nat.eq_dec n (T q)); tauto.
Qed.

Lemma removeLocked_ok e s q n : R e s q -> In n (members q) -> R e (removeLocked s n) (taken_out q n).
Proof.
  intros HR I0. pose proof HR as (Wr & Ti & Im & Ac & Ut & Cf & Wi & Sk & B).
  assert (Mem : forall x, (if x =? n then false else inMM s x) = mem x (remove_node (M q) n ++ remove_node (T q) n)).
  { intros x. rewrite Im. destruct (Nat.eqb_spec x n) as [E|D].
    - symmetry. apply mem_false. rewrite in_app_iff, !rn_in. subst. tauto.
    - apply mem_iff. unfold members. rewrite !in_app_iff, !rn_in. tauto. }
  assert (Acc : forall x, updb (accd s) n false x = updb (seen q) n false x).
  { intros x. unfold updb. destruct (x =? n); auto. }
  unfold removeLocked. rewrite (Ti n).
  destruct (members_split _ _ _ n HR) as [(X & Y)|[(X & Y)|X]]; [| |contradiction].
  - rewrite (proj2 (mem_false _ _) Y). split; [|split; [|split]].
    + cbn [wd setIn setAcc lcall setWd M T taken_out with_seen with_queues].
      eapply wrep_ext; [|exact (w_remM _ _ _ n Wr X)]. intros [|[|i]]; cbn [L2]; try reflexivity.
      symmetry. now apply remove_node_notin.
    + intros x. cbn [tiny setIn setAcc lcall setWd T taken_out with_seen with_queues]. rewrite Ti.
      now rewrite (remove_node_notin (T q)).
    + intros x. cbn [inMM setIn setAcc lcall setWd]. unfold updb. rewrite Mem. reflexivity.
    + split; [exact Acc|]. split; [exact Ut|]. split; [exact Cf|]. split; [exact Wi|]. split; [exact Sk|exact B].
  - rewrite (proj2 (mem_in _ _) X). split; [|split; [|split]].
    + cbn [wd setTiny setIn setAcc lcall setWd M T taken_out with_seen with_queues].
      eapply wrep_ext; [|exact (w_remT _ _ _ n Wr X)]. intros [|[|i]]; cbn [L2]; try reflexivity.
      symmetry. now apply remove_node_notin.
    + intros x. cbn [tiny setTiny setIn setAcc lcall setWd T taken_out with_seen with_queues]. unfold updb. rewrite Ti.
      destruct (Nat.eqb_spec x n) as [E|D].
      * symmetry. apply mem_false. rewrite rn_in. tauto.
      * apply mem_iff. rewrite rn_in. tauto.
    + intros x. cbn [inMM setTiny setIn setAcc lcall setWd]. unfold updb. rewrite Mem. reflexivity.
    + split; [exact Acc|]. split; [exact Ut|]. split; [exact Cf|]. split; [exact Wi|]. split; [exact Sk|exact B].
Qed.

Lemma after_mid n p r : ~ In n p -> after n (p ++ n :: r) = hd_error r.
Proof.
  induction p as [|x p IH]; intros X; cbn [app after].
  - now rewrite Nat.eqb_refl.
  - destruct (Nat.eqb_spec x n); [exfalso; apply X; now left|]. apply IH. intros Y. apply X. now right.
Qed.

(** The iterator after removing the item it was at. *)
Lemma evict_strong e s q n : R e s q -> In n (members q) -> exists s' it p r,
  evict e s n = Some (s', it) /\ R e s' (taken_out q n) /\ eviction e q = p ++ n :: r /\ ~ In n p /\
  itGet e s' it = Some (hd_error r) /\ walkIt (total s') e s' it = Some r.
Proof.
  intros HR I0. pose proof (R_R0 _ _ _ HR) as R1. pose proof (removeLocked_ok _ _ _ _ HR I0) as R2.
  pose proof (R_R0 _ _ _ R2) as R3.
  destruct (seek_at e s q n R1 (total s) _ _ _ (begin_at _ _ _ R1)) as (jt & rt & rm & p & r & S1 & S2 & S3 & S4 & S5).
  { fold (eviction e q). eapply Permutation_in; [apply Permutation_sym, eviction_perm|exact I0]. }
  { fold (eviction e q). rewrite eviction_len, (R0_total _ _ _ R1). lia. }
  fold (eviction e q) in S3. unfold evict. rewrite S1. unfold removeIt.
  destruct (itGet_ok e s q jt rt rm R1 S2) as (-> & Nx). rewrite S5 in Nx |- *. cbn [hd_error].
  destruct Nx as (kt & rt' & rm' & -> & A' & E & Ch).
  exists (removeLocked s n), kt, p, r. split; [reflexivity|]. split; [exact R2|]. split; [exact S3|]. split; [exact S4|].
  (* the iterator is valid in the new state *)
  destruct A' as (-> & (pt & Pt) & (pm & Pm)). destruct S2 as (_ & (pt0 & Pt0) & (pm0 & Pm0)).
  assert (ND : NoDup (M q ++ T q)) by (destruct HR as (Wr & _); exact (W_nodup _ _ _ Wr)).
  assert (NDT : NoDup (rev (T q))). { apply NoDup_rev. clear -ND. induction (M q); auto. inversion ND; subst. auto. }
  assert (NDM : NoDup (rev (M q))).
  { apply NoDup_rev. clear -ND. induction (M q); [constructor|]. inversion ND; subst. constructor; auto. rewrite in_app_iff in *. tauto. }
  assert (Dj : In n (M q) -> In n (T q) -> False).
  { destruct HR as (Wr & _). destruct Wr as (_ & B & _). intros X Y. specialize (B 0 1 n X Y). discriminate. }
  assert (rev_rn : forall l, rev (remove_node l n) = remove_node (rev l) n).
  { intros l. symmetry. apply MMLru_proofs.remove_node_rev. }
  assert (A2 : at_it (removeLocked s n) (taken_out q n) (hd_error rt', hd_error rm') rt' rm').
  { split; [reflexivity|]. cbn [M T taken_out with_seen with_queues]. rewrite !rev_rn.
    destruct Ch as [(-> & ->)|(-> & ->)].
    - assert (NM : ~ In n (M q)).
      { intros X. apply Dj in X; auto. apply in_rev. rewrite Pt0. apply in_or_app. cbn. auto. }
      rewrite Pt0 in NDT |- *. apply NoDup_remove in NDT as (_ & NDT). rewrite in_app_iff in NDT.
      rewrite remove_node_mid by tauto. rewrite remove_node_notin by (rewrite <- in_rev; exact NM). eauto.
    - assert (NT : ~ In n (T q)).
      { intros X. apply Dj; auto. apply in_rev. rewrite Pm0. apply in_or_app. cbn. auto. }
      rewrite Pm0 in NDM |- *. apply NoDup_remove in NDM as (_ & NDM). rewrite in_app_iff in NDM.
      rewrite remove_node_mid by tauto. rewrite remove_node_notin by (rewrite <- in_rev; exact NT). eauto. }
  assert (Ad : admits e (taken_out q n) = admits e q) by reflexivity.
  destruct (itGet_ok e _ _ _ rt' rm' R3 A2) as (-> & _). rewrite Ad, E. split; [reflexivity|].
  rewrite (walk_at e _ _ R3 _ _ rt' rm' A2); rewrite Ad, E; [reflexivity|].
  rewrite (R0_total _ _ _ R3). 
  assert (L1 : length (members (taken_out q n)) = length (merge (admits e (taken_out q n)) (rev (T (taken_out q n))) (rev (M (taken_out q n))))).
  { fold (eviction e (taken_out q n)). now rewrite eviction_len. }
  destruct A2 as (_ & (a & Ea) & (b & Eb)). rewrite L1, Ea, Eb.
  rewrite (Permutation_length (merge_perm _ _ _)). rewrite <- E, (Permutation_length (merge_perm _ _ _)), !app_length. lia.
Qed.
