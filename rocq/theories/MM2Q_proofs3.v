(** Proofs for C06, part 3: the iterator and the calls. *)
From Coq Require Import Permutation.
From Verif Require Import Bytes DList_model DList_spec DList_proofs MM2Q_model MM2Q_spec MM2Q_proofs MM2Q_proofs2.
Ltac Zify.zify_post_hook ::= idtac.

(** The items in lists k-1, ..., 0, each from its tail. *)
Fixpoint revs (l : seqs) (k : nat) : list node :=
  match k with O => [] | S j => rev (l j) ++ revs l j end.
(** [rest] is what the iterator still has to offer. *)
Definition at_ (l : seqs) (it : iter) (rest : list node) : Prop :=
  match it with
  | None => rest = []
  | Some (i, x) => exists pre post, l i = pre ++ x :: post /\ rest = x :: rev pre ++ revs l i
  end.

Lemma skipEmpty_at s l : J s l -> forall k, at_ l (skipEmpty s k) (revs l k).
Proof.
  intros HJ. induction k as [|j IH]; [reflexivity|]. cbn [skipEmpty revs]. rewrite (J_tail _ _ _ HJ).
  destruct (list_snoc (l j)) as [E|(a & x & E)]; rewrite E.
  - cbn [lastOr rev app]. exact IH.
  - rewrite lastOr_snoc. cbn [at_]. exists a, []. split; [exact E|]. rewrite rev_app_distr. reflexivity.
Qed.
Lemma rbeginFrom_at s l : J s l -> forall k, exists it, rbeginFrom s k = Some it /\ at_ l it (revs l k).
Proof.
  intros HJ. induction k as [|j IH]; [exists None; split; reflexivity|].
  cbn [rbeginFrom revs]. rewrite (J_tail _ _ _ HJ), (J_size _ _ _ HJ).
  destruct (list_snoc (l j)) as [E|(a & x & E)]; rewrite E.
  - cbn [length Nat.eqb rev app]. exact IH.
  - rewrite lastOr_snoc, app_length. cbn [length]. destruct (Nat.eqb_spec (length a + 1) 0); [lia|].
    eexists. split; [reflexivity|]. cbn [at_]. exists a, []. split; [exact E|]. rewrite rev_app_distr. reflexivity.
Qed.
Lemma fwd_at s l it x rest : J s l -> at_ l it (x :: rest) -> at_ l (goForward s it) rest.
Proof.
  intros HJ A. destruct it as [[i y]|]; [|discriminate]. destruct A as (pre & post & E & Er).
  injection Er as -> Er. cbn [goForward]. rewrite (J_prv _ _ _ _ _ _ HJ E).
  destruct (list_snoc pre) as [->|(p & z & ->)].
  - cbn [lastOr]. subst rest. cbn [rev app]. now apply skipEmpty_at.
  - rewrite lastOr_snoc. cbn [at_]. exists p, (y :: post). split.
    + rewrite E, <- app_assoc. reflexivity.
    + rewrite Er, rev_app_distr. reflexivity.
Qed.
Lemma at_none l it : at_ l it [] -> it = None.
Proof. destruct it as [[i x]|]; auto. intros (p & r & _ & E). discriminate. Qed.
Lemma at_some l it x rest : at_ l it (x :: rest) -> exists i, it = Some (i, x).
Proof.
  destruct it as [[i y]|]; [|discriminate]. intros (p & r & _ & E). injection E as -> _. eauto.
Qed.
Lemma walk_at s l : J s l -> forall rest fuel it, at_ l it rest -> length rest <= fuel -> walkIt fuel s it = Some rest.
Proof.
  intros HJ. induction rest as [|x rest IH]; intros fuel it A F.
  - apply at_none in A as ->. destruct fuel; reflexivity.
  - destruct (at_some _ _ _ _ A) as (i & ->). destruct fuel as [|f]; [simpl in F; lia|].
    cbn [walkIt]. rewrite (IH f); [reflexivity| |simpl in F; lia]. eapply fwd_at; eauto.
Qed.
Lemma seek_at s l n : J s l -> forall rest fuel it, at_ l it rest -> In n rest -> length rest <= S fuel ->
  exists i p r, seek fuel s it n = Some (Some (i, n)) /\ rest = p ++ n :: r /\ ~ In n p /\ at_ l (Some (i, n)) (n :: r).
Proof.
  intros HJ. induction rest as [|x rest IH]; intros fuel it A I0 F; [destruct I0|].
  destruct (at_some _ _ _ _ A) as (i & ->).
  destruct (Nat.eq_dec x n) as [->|D].
  - exists i, [], rest. assert (Es : seek fuel s (Some (i, n)) n = Some (Some (i, n)))
      by (destruct fuel; cbn [seek]; now rewrite Nat.eqb_refl).
    rewrite Es. auto.
  - destruct I0 as [E|I0]; [congruence|]. destruct fuel as [|f].
    { destruct rest; [destruct I0|simpl in F; lia]. }
    destruct (IH f (goForward s (Some (i, x)))) as (j & p & r & Es & Er & Np & Ar); auto.
    + eapply fwd_at; eauto.
    + simpl in F. lia.
    + exists j, (x :: p), r. cbn [seek]. destruct (Nat.eqb_spec x n); [congruence|].
      rewrite Es, Er. repeat split; auto. intros [E|X]; auto.
Qed.
Lemma revs_remove l n k : (forall j, j < k -> ~ In n (l j)) -> revs (fun i => remove_node (l i) n) k = revs l k.
Proof.
  induction k as [|j IH]; intros X; [reflexivity|]. cbn [revs]. rewrite remove_node_notin, IH; auto.
Qed.
Lemma revs_in l k x : In x (revs l k) <-> exists j, j < k /\ In x (l j).
Proof.
  induction k as [|j IH]; cbn [revs].
  - split; [intros []|intros (j & X & _); lia].
  - rewrite in_app_iff, <- in_rev, IH. split.
    + intros [X|(i & Y & X)]; [exists j; auto|exists i; split; [lia|auto]].
    + intros (i & Y & X). destruct (Nat.eq_dec i j) as [->|D]; auto. right. exists i. split; [lia|auto].
Qed.
(** Removing an item the iterator has passed does not disturb it. *)
Lemma at_remove l it n rest : at_ l it rest -> ~ In n rest -> at_ (fun i => remove_node (l i) n) it rest.
Proof.
  destruct it as [[i x]|]; [|auto]. intros (pre & post & E & ->) N.
  exists pre, (remove_node post n). cbn [app] in N.
  assert (x <> n) by (intros ->; apply N; left; auto).
  assert (~ In n pre). { intros X. apply N. right. apply in_or_app. left. now apply -> in_rev. }
  split.
  - rewrite E, remove_app, (remove_node_notin pre) by auto. unfold remove_node at 1. cbn [filter].
    destruct (Nat.eqb_spec x n); [congruence|]. reflexivity.
  - rewrite revs_remove; auto. intros j Lj X. apply N. right. apply in_or_app. right. apply revs_in. eauto.
Qed.

Lemma revs5 s q a b d e : K5 s q a b d e -> revs (L5 a b (H q) d e) 5 = eviction q.
Proof.
  intros (_ & EW & _ & EC & _). cbn [revs L5]. unfold eviction. rewrite EW, EC, !rev_app_distr, app_nil_r, <- !app_assoc.
  reflexivity.
Qed.
Lemma eviction_len q : length (eviction q) = length (members q).
Proof. unfold eviction, members. rewrite !app_length, !rev_length. lia. Qed.
Lemma eviction_in q n : In n (eviction q) <-> In n (members q).
Proof. unfold eviction, members. rewrite !in_app_iff, <- !in_rev. tauto. Qed.

Lemma nodup_app_intro {A} (x y : list A) : NoDup x -> NoDup y -> (forall z, In z x -> ~ In z y) -> NoDup (x ++ y).
Proof.
  induction x as [|u x IH]; simpl; auto. intros Nx Ny D. inversion Nx; subst. constructor.
  - rewrite in_app_iff. intros [X|X]; [auto|]. apply (D u); auto.
  - apply IH; auto.
Qed.
Lemma K5_nodup s q a b d e : K5 s q a b d e -> NoDup (members q).
Proof.
  intros (HJ & EW & _ & EC & _). unfold members. rewrite EW, EC.
  assert (DJ : forall i j x, i <> j -> In x (L5 a b (H q) d e i) -> ~ In x (L5 a b (H q) d e j)).
  { intros i j x NE X Y. apply NE. eapply J_disj; eauto. }
  pose proof (J_nodup _ _ 0 HJ). pose proof (J_nodup _ _ 1 HJ). pose proof (J_nodup _ _ 2 HJ).
  pose proof (J_nodup _ _ 3 HJ). pose proof (J_nodup _ _ 4 HJ). cbn [L5] in *.
  assert (D01 := DJ 0 1). assert (D03 := DJ 0 3). assert (D04 := DJ 0 4). assert (D13 := DJ 1 3).
  assert (D14 := DJ 1 4). assert (D34 := DJ 3 4). assert (D20 := DJ 2 0). assert (D21 := DJ 2 1).
  assert (D23 := DJ 2 3). assert (D24 := DJ 2 4). cbn [L5] in *.
  apply nodup_app_intro; [assumption| |].
  - apply nodup_app_intro.
    + apply nodup_app_intro; auto.
    + apply nodup_app_intro; auto.
    + intros z Z. rewrite in_app_iff in *.
      destruct Z as [Z|Z]; intros [X|X]; [apply (D03 z)|apply (D04 z)|apply (D13 z)|apply (D14 z)]; auto.
  - intros z Z. rewrite !in_app_iff.
    intros [[X|X]|[X|X]]; [apply (D20 z)|apply (D21 z)|apply (D23 z)|apply (D24 z)]; auto.
Qed.

Lemma R_shows s q : R s q -> shows s q.
Proof.
  intros (((a & b & d & e & Hk) & He & Hu) & HI).
  pose proof Hk as (HJ & EW & Ewt & EC & Ect & HT).
  assert (TY : forall n i, In n (L5 a b (H q) d e i) -> getLruType s n = i).
  { intros n i. apply (type_ok _ _ _ _ _ _ _ _ Hk). apply He. }
  assert (MI : forall n, inMM s n = true -> exists i, In n (L5 a b (H q) d e i)).
  { intros n X. apply HI in X. now apply (members_L5 _ _ _ _ _ _ n Hk) in X. }
  assert (IM : forall n i, In n (L5 a b (H q) d e i) -> inMM s n = true).
  { intros n i X. apply HI. apply (members_L5 _ _ _ _ _ _ n Hk). eauto. }
  repeat apply conj.
  - unfold evictionOrder, rbegin. destruct (rbeginFrom_at _ _ HJ NumTypes) as (it & -> & A).
    change NumTypes with 5 in A. rewrite (revs5 _ _ _ _ _ _ Hk) in A.
    apply (walk_at _ _ HJ _ _ _ A). rewrite (members_perm_len _ _ _ _ _ _ Hk), eviction_len. auto.
  - eapply K5_nodup; eauto.
  - eapply members_perm_len; eauto.
  - exact HI.
  - intros n. split.
    + intros X. split; [eapply (IM n 2)|apply (TY n 2)]; exact X.
    + intros (X & Y). destruct (MI n X) as (i & Z). rewrite (TY _ _ Z) in Y. subst i. exact Z.
  - intros n. rewrite EW, in_app_iff. split.
    + intros [X|X].
      * split; [exact (IM n 0 X)|]. left. apply (TY n 0). exact X.
      * split; [exact (IM n 1 X)|]. right. apply (TY n 1). exact X.
    + intros (X & Y). destruct (MI n X) as (i & Z). rewrite (TY _ _ Z) in Y.
      destruct Y as [-> | ->]; auto.
  - intros n. rewrite EC, in_app_iff. split.
    + intros [X|X].
      * split; [exact (IM n 3 X)|]. left. apply (TY n 3). exact X.
      * split; [exact (IM n 4 X)|]. right. apply (TY n 4). exact X.
    + intros (X & Y). destruct (MI n X) as (i & Z). rewrite (TY _ _ Z) in Y.
      destruct Y as [-> | ->]; auto.
  - rewrite (J_size _ _ _ HJ), Ewt. reflexivity.
  - rewrite (J_size _ _ _ HJ), Ect. reflexivity.
  - apply He.
Qed.

(** ** The calls *)
Lemma in_mem s q n : R s q -> inMM s n = mem n (members q).
Proof.
  intros (_ & HI). destruct (mem n (members q)) eqn:E.
  - apply HI, mem_in. exact E.
  - destruct (inMM s n) eqn:F; auto. apply HI, mem_in in F. congruence.
Qed.

Lemma add_K s q n : K s q -> ~ In n (members q) ->
  K (lcall (setTail (setCold (setHot s n true) n false) n false) (LinkAtHead Hot n))
    (with_used (with_queues q (n :: H q) (W q) (C q) (wt q) (ct q)) n true).
Proof.
  intros ((a & b & d & e & Hk) & He & Hu) NM. pose proof Hk as (HJ & EW & Ewt & EC & Ect & HT).
  assert (U := proj1 (members_out _ _ _ _ _ _ n Hk) NM).
  split; [|split].
  - exists a, b, d, e. split.
    { cbn [H with_used with_queues]. eapply J_ext; cycle 1.
      - refine (Jlink s (setTail (setCold (setHot s n true) n false) n false) _ 2 n HJ U _ eq_refl _ _); [lia| |].
        + intros x D. cbn [hot cold tailf setTail setCold setHot]. rewrite !updb_other by auto. auto.
        + cbn [hot cold tailf setTail setCold setHot]. rewrite !updb_same. auto.
      - intros [|[|[|[|[|k]]]]]; reflexivity. }
    cbn. auto.
  - exact He.
  - intros x Ux. cbn [used with_used with_queues] in Ux. unfold updb in Ux.
    destruct (Nat.eqb_spec x n); [discriminate|]. destruct (Hu x Ux) as (A & B).
    split.
    + unfold members in *. cbn [H W C with_used with_queues]. cbn [app]. intros [E|X]; [congruence|auto].
    + cbn [hot cold tailf lcall setWd setTail setCold setHot]. rewrite !updb_other by auto. exact B.
Qed.

Lemma K_stamp s q n t : K s q -> K (setTime s n t) (with_stamp q n t).
Proof.
  intros (A & B & D). split; [exact A|split; [|exact D]].
  destruct B as (E1 & E2 & E3 & E4 & E5 & E6 & E7 & E8). repeat split; auto.
  cbn. now rewrite E6.
Qed.
Lemma K_setIn s q n b : K s q -> K (setIn s n b) q.
Proof. intros (A & B & D). split; [exact A|split; [exact B|exact D]]. Qed.

Lemma R_intro s q (f : node -> bool) n : K s q -> (forall x, x <> n -> (inMM s x = true <-> In x (members q))) ->
  (inMM s n = true <-> In n (members q)) -> R s q.
Proof.
  intros A B D. split; [exact A|]. intros x. destruct (Nat.eq_dec x n) as [->|E]; auto.
Qed.

Lemma add_ok s q n now : R s q -> exists s',
  mexec s (MAdd n now) = Some (s', snd (spec_exec q (MAdd n now))) /\ R s' (fst (spec_exec q (MAdd n now))).
Proof.
  intros HR. pose proof (in_mem _ _ n HR) as Em. cbn [mexec spec_exec]. unfold add. rewrite Em.
  destruct (mem n (members q)) eqn:E; [exists s; auto|].
  apply mem_false in E. destruct HR as (HK & HI).
  destruct (rebalance_ok _ _ (add_K _ _ _ HK E)) as (s' & X & K' & I').
  change (rebalanced (with_used (with_queues q (n :: H q) (W q) (C q) (wt q) (ct q)) n true)) with
    (with_used (rebalanced (with_queues q (n :: H q) (W q) (C q) (wt q) (ct q))) n true) in K'.
  rewrite X. eexists. split; [reflexivity|]. cbn [fst].
  split; [apply K_stamp, K_setIn; exact K'|].
  intros x. cbn [inMM setTime setIn]. rewrite I'. cbn [inMM lcall setWd setTail setCold setHot].
  change (members (with_stamp (with_used (rebalanced (with_queues q (n :: H q) (W q) (C q) (wt q) (ct q))) n true) n now))
    with (members (rebalanced (with_queues q (n :: H q) (W q) (C q) (wt q) (ct q)))).
  rewrite rebalanced_members. unfold members at 1. cbn [H W C with_queues app In]. fold (members q).
  unfold updb. destruct (Nat.eqb_spec x n).
  - subst. tauto.
  - rewrite HI. intuition congruence.
Qed.

Lemma remove_ok2 s q n : R s q -> exists s',
  mexec s (MRemove n) = Some (s', snd (spec_exec q (MRemove n))) /\ R s' (fst (spec_exec q (MRemove n))).
Proof.
  intros HR. pose proof (in_mem _ _ n HR) as Em. cbn [mexec spec_exec]. unfold remove. rewrite Em.
  destruct (mem n (members q)) eqn:E; cbn [negb]; [|exists s; auto].
  apply mem_in in E. destruct HR as (HK & HI). unfold removeLocked.
  destruct (rebalance_ok _ _ (unlink_ok2 _ _ _ HK E)) as (s' & X & K' & I'). rewrite X.
  eexists. split; [reflexivity|]. cbn [fst]. split; [apply K_setIn; exact K'|].
  intros x. cbn [inMM setIn]. rewrite I'. cbn [inMM lcall setWd].
  rewrite rebalanced_members, taken_members. unfold updb. destruct (Nat.eqb_spec x n).
  - subst. intuition congruence.
  - rewrite HI. tauto.
Qed.

Lemma after_mid n p r : ~ In n p -> after n (p ++ n :: r) = hd_error r.
Proof.
  induction p as [|x p IH]; simpl.
  - now rewrite Nat.eqb_refl.
  - intros N. destruct (Nat.eqb_spec x n); [subst; exfalso; auto|]. auto.
Qed.
Lemma at_hd l it rest : at_ l it rest -> option_map snd it = hd_error rest.
Proof. destruct it as [[i x]|]; [intros (p & r & _ & ->)|intros ->]; reflexivity. Qed.

Lemma evict_strong s q n : R s q -> In n (members q) -> exists s' it p r,
  evict s n = Some (s', it) /\ R s' (taken_out q n) /\ eviction q = p ++ n :: r /\ ~ In n p /\
  option_map snd it = hd_error r /\ walkIt (total s') s' it = Some r.
Proof.
  intros (HK & HI) E. pose proof (unlink_ok2 _ _ _ HK E) as K2.
  pose proof HK as ((a & b & d & e & Hk) & He & Hu). pose proof Hk as (HJ & _).
  unfold evict, rbegin. destruct (rbeginFrom_at _ _ HJ NumTypes) as (it & -> & A).
  change NumTypes with 5 in A. rewrite (revs5 _ _ _ _ _ _ Hk) in A.
  destruct (seek_at _ _ n HJ _ (total s) _ A) as (i & p & r & -> & Er & Np & Ar).
  { now apply eviction_in. }
  { rewrite (members_perm_len _ _ _ _ _ _ Hk), eviction_len. lia. }
  pose proof (fwd_at _ _ _ _ _ HJ Ar) as An.
  cbn [removeIt]. unfold removeLocked.
  eexists _, (goForward s (Some (i, n))), p, r. split; [reflexivity|].
  assert (NDr : ~ In n r).
  { assert (ND : NoDup (eviction q)).
    { apply (K5_nodup) in Hk. unfold members in Hk. unfold eviction.
      assert (P : Permutation (H q ++ W q ++ C q) (rev (C q) ++ rev (H q) ++ rev (W q))).
      { rewrite <- (Permutation_rev (C q)), <- (Permutation_rev (H q)), <- (Permutation_rev (W q)).
        rewrite (app_assoc (H q)). apply Permutation_app_comm. }
      eapply Permutation_NoDup; eauto. }
    rewrite Er in ND. apply nodup_mid in ND. tauto. }
  split; [|split; [exact Er|split; [exact Np|split; [eapply at_hd; exact An|]]]].
  - split; [apply K_setIn; exact K2|]. intros x. cbn [inMM setIn lcall setWd].
    rewrite taken_members. unfold updb. destruct (Nat.eqb_spec x n).
    + subst. intuition congruence.
    + rewrite HI. tauto.
  - pose proof (at_remove _ _ n _ An NDr) as A2.
    apply (members_L5 _ _ _ _ _ _ n Hk) in E as (j & Ij).
    assert (HJ2 : J (setIn (lcall s (Remove (getLruType s n) n)) n false) (fun k => remove_node (L5 a b (H q) d e k) n)).
    { rewrite (type_ok _ _ _ _ _ _ _ _ Hk (proj1 He) Ij). exact (Jrem _ _ _ _ HJ Ij). }
    apply (walk_at _ _ HJ2 _ _ _ A2).
    destruct K2 as ((a2 & b2 & d2 & e2 & Hk2) & _).
    change (total (setIn (lcall s (Remove (getLruType s n) n)) n false)) with (total (lcall s (Remove (getLruType s n) n))).
    rewrite (members_perm_len _ _ _ _ _ _ Hk2).
    assert (L : length (members (taken_out q n)) = length (members q) - 1).
    { replace (members (taken_out q n)) with (remove_node (members q) n).
      - rewrite len_remove by (eapply K5_nodup; eauto).
        replace (mem n (members q)) with true; auto. symmetry. apply mem_in.
        apply (members_L5 _ _ _ _ _ _ n Hk). eauto.
      - unfold members, taken_out, with_queues. cbn [H W C]. now rewrite !remove_app. }
    rewrite L, <- eviction_len, Er, app_length. simpl. lia.
Qed.
Lemma evict_ok s q n : R s q -> In n (members q) -> exists s',
  mexec s (MEvict n) = Some (s', snd (spec_exec q (MEvict n))) /\ R s' (fst (spec_exec q (MEvict n))).
Proof.
  intros HR E. destruct (evict_strong _ _ _ HR E) as (s' & it & p & r & X & R' & Er & Np & Hd & _).
  exists s'. cbn [mexec spec_exec fst snd]. rewrite X, Hd, Er, after_mid by assumption. auto.
Qed.

Lemma replace_members q o n x : In x (members (with_queues q (replace_node (H q) o n) (replace_node (W q) o n) (replace_node (C q) o n) (wt q) (ct q))) <->
  (In x (members q) /\ x <> o) \/ (x = n /\ In o (members q)).
Proof.
  assert (G : forall l, In x (replace_node l o n) <-> (In x l /\ x <> o) \/ (x = n /\ In o l)).
  { intros l. unfold replace_node. rewrite in_map_iff. split.
    - intros (y & Ey & Iy). destruct (Nat.eqb_spec y o); subst; auto.
    - intros [(A & B)|(-> & A)].
      + exists x. split; auto. destruct (Nat.eqb_spec x o); congruence.
      + exists o. rewrite Nat.eqb_refl. auto. }
  unfold members, with_queues. cbn [H W C]. rewrite !in_app_iff, !G. tauto.
Qed.

Lemma replace_ok2 s q o n : R s q -> (In o (members q) -> In n (members q) \/ used q n = false) -> exists s',
  mexec s (MReplace o n) = Some (s', snd (spec_exec q (MReplace o n))) /\ R s' (fst (spec_exec q (MReplace o n))).
Proof.
  intros HR Leg. pose proof (in_mem _ _ o HR) as Eo. pose proof (in_mem _ _ n HR) as En.
  cbn [mexec spec_exec]. unfold replace. rewrite Eo, En.
  destruct (mem o (members q)) eqn:Mo; cbn [negb orb andb]; [|exists s; auto].
  destruct (mem n (members q)) eqn:Mn; cbn [negb orb andb]; [exists s; auto|].
  apply mem_in in Mo. apply mem_false in Mn. destruct (Leg Mo) as [X|Us]; [contradiction|].
  destruct HR as (HK & HI). pose proof HK as ((a & b & d & e & Hk) & He & Hu).
  pose proof Hk as (HJ & EW & Ewt & EC & Ect & HT).
  destruct (Hu n Us) as (_ & Fh & Fc & Ft).
  assert (U := proj1 (members_out _ _ _ _ _ _ n Hk) Mn).
  pose proof (proj1 (members_L5 _ _ _ _ _ _ o Hk) Mo) as (i & Io).
  assert (Li := J_lt _ _ _ _ HJ Io).
  rewrite (type_ok _ _ _ _ _ _ _ _ Hk (proj1 He) Io).
  set (s1 := lcall s (Replace i o n)).
  set (s2 := if i =? Hot then _ else _).
  assert (Other : forall x, x <> n -> hot s2 x = hot s x /\ cold s2 x = cold s x /\ tailf s2 x = tailf s x).
  { intros x D. subst s2 s1. unfold Hot, ColdTail, Cold, WarmTail.
    destruct (i =? 2); [|destruct (i =? 4); [|destruct (i =? 3); [|destruct (i =? 1)]]];
    cbn [hot cold tailf setHot setCold setTail lcall setWd]; rewrite ?updb_other by auto; auto. }
  assert (Fr : inMM s2 = inMM s /\ utime s2 = utime s /\ cfg s2 = cfg s /\ tailTrack s2 = tailTrack s /\
    refresh s2 = refresh s /\ nextReconf s2 = nextReconf s /\ cnt s2 = cnt s /\ wd s2 = doCall (wd s) (Replace i o n)).
  { subst s2 s1. destruct (i =? Hot); [|destruct (i =? ColdTail); [|destruct (i =? Cold); [|destruct (i =? WarmTail)]]];
    repeat split. }
  destruct Fr as (F1 & F2 & F3 & F4 & F5 & F6 & F7 & F8).
  assert (HJ2 : J s2 (fun k => replace_node (L5 a b (H q) d e k) o n)).
  { refine (Jrepl s _ s2 i o n HJ Io U F8 Other _).
    subst s2 s1. unfold Hot, ColdTail, Cold, WarmTail.
    destruct i as [|[|[|[|[|i]]]]]; [| | | | |lia]; cbn [Nat.eqb];
    cbn [hot cold tailf setHot setCold setTail lcall setWd]; rewrite ?updb_same, ?Fh, ?Fc, ?Ft; auto. }
  exists (setTime (setIn (setIn s2 o false) n true) n (utime s o)). cbn [snd fst].
  split; [rewrite ?F2; reflexivity|].
  destruct He as (E1 & E2 & E3 & E4 & E5 & E6 & E7 & E8).
  rewrite E6. split.
  - apply K_stamp, K_setIn, K_setIn. split; [|split].
    + exists (replace_node a o n), (replace_node b o n), (replace_node d o n), (replace_node e o n).
      split. { cbn [H with_used with_queues]. eapply J_ext; [|exact HJ2]. intros [|[|[|[|[|k]]]]]; reflexivity. }
      cbn [W wt C ct qcfg with_used with_queues]. rewrite EW, EC, !replace_app, Ewt, Ect.
      split; [reflexivity|]. split; [unfold replace_node; now rewrite map_length|]. split; [reflexivity|].
      split; [unfold replace_node; now rewrite map_length|]. intros Z. destruct (HT Z) as [-> ->]. auto.
    + unfold Ke. cbn. intuition congruence.
    + intros x Ux. cbn [used with_used with_queues] in Ux. unfold updb in Ux.
      destruct (Nat.eqb_spec x n); [discriminate|]. destruct (Hu x Ux) as (A & B).
      destruct (Other x n0) as (-> & -> & ->). split; [|exact B].
      change (~ In x (members (with_queues q (replace_node (H q) o n) (replace_node (W q) o n) (replace_node (C q) o n) (wt q) (ct q)))).
      rewrite replace_members. tauto.
  - intros x. cbn [inMM setTime setIn]. rewrite F1.
    match goal with |- _ <-> In x ?m => change m with
      (members (with_queues q (replace_node (H q) o n) (replace_node (W q) o n) (replace_node (C q) o n) (wt q) (ct q))) end.
    rewrite replace_members. unfold updb. destruct (Nat.eqb_spec x n) as [->|D].
    + split; auto.
    + destruct (Nat.eqb_spec x o) as [->|D2]; [intuition congruence|]. rewrite HI. intuition congruence.
Qed.
