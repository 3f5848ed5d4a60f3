(** * Map refines a finite map. *)
From Coq Require Import Permutation.
From Verif Require Import Bytes DtBuffer_model DtMap_model DtMap_spec DtTable_proofs DtBuffer_proofs.
Ltac Zify.zify_post_hook ::= idtac.
Local Open Scope nat_scope.

Section P.
Variables (hash : N -> N) (ks : N) (vsize : N -> N) (maxIndex : nat).
Hypothesis Hks : (1 <= ks)%N.
Hypothesis Hsize : forall v, (ks + vsize v < 2 ^ 32 - 4)%N.
Notation tinv := (tinv hash).

Record hinv (m : hmap) (ls : list (list (N * slot))) : Prop := HInv {
  hi_t : tinv (tab m); hi_b : minv (bufs m) ls;
  hi_l : forall k a, has (tab m) k a <-> exists v, In (a, (k, v)) (lv ls 0) }.
Definition kv (ls : list (list (N * slot))) (k v : N) : Prop := exists a, In (a, (k, v)) (lv ls 0).
Definition abs (ls : list (list (N * slot))) (M : fmap) : Prop := forall k v, M k = Some v <-> kv ls k v.

Lemma nodup_fun {A B} (l : list (A * B)) a b b' : NoDup (map fst l) -> In (a, b) l -> In (a, b') l -> b = b'.
Proof.
  induction l as [ | [x y] l IH]; cbn; intros ND H1 H2; [ tauto | ]. inversion ND as [ | ? ? Ni ND']; subst.
  destruct H1 as [E1 | H1], H2 as [E2 | H2]; try congruence.
  - inversion E1; subst. exfalso. apply Ni. apply in_map_iff. exists (a, b'). auto.
  - inversion E2; subst. exfalso. apply Ni. apply in_map_iff. exists (a, b). auto.
  - eauto.
Qed.
Lemma hinv_null m ls k a : hinv m ls -> has (tab m) k a -> a <> nullAddr.
Proof. intros [T B L] Hh. apply L in Hh. destruct Hh as (v & Hin). destruct (in_lv0 _ _ _ _ B Hin) as (? & ? & ? & ? & ? & ? & ? & ? & ? & ? & ? & ? & ? & ? & ?). auto. Qed.
Lemma hinv_key m ls a a' k v v' : hinv m ls -> In (a, (k, v)) (lv ls 0) -> In (a', (k, v')) (lv ls 0) -> a = a' /\ v = v'.
Proof.
  intros [T B L] H1 H2. assert (a = a') by (eapply (has_fun hash); [ exact T | apply L | apply L ]; eauto). subst a'. split; auto.
  pose proof (nodup_fun _ _ _ _ (lv_nodup _ _ B) H1 H2). congruence.
Qed.
Lemma abs_none ls M k : abs ls M -> M k = None <-> forall v, ~ kv ls k v.
Proof.
  intro A. split.
  - intros E v Hk. apply A in Hk. congruence.
  - intro Nk. destruct (M k) eqn:E; auto. exfalso. eapply Nk. apply A. eauto.
Qed.
Lemma kv_keys_nodup m ls : hinv m ls -> NoDup (map fst (map snd (lv ls 0))).
Proof.
  intro H. pose proof (lv_nodup _ _ (hi_b _ _ H)) as ND.
  assert (K : forall a a' k v v', In (a, (k, v)) (lv ls 0) -> In (a', (k, v')) (lv ls 0) -> a = a') by (intros; edestruct (hinv_key m ls a a'); eauto).
  revert ND K. induction (lv ls 0) as [ | [a [k v]] l IH]; cbn; intros ND K; [ constructor | ]. inversion ND as [ | ? ? Ni ND']; subst. constructor.
  - intro Hin. rewrite map_map in Hin. apply in_map_iff in Hin. destruct Hin as ([a' [k' v']] & E & Hin). cbn in E. subst k'.
    assert (a = a') by (eapply K; [ left; reflexivity | right; eauto ]). subst a'. apply Ni. apply in_map_iff. exists (a, (k, v')). auto.
  - apply IH; auto. intros; eapply K; right; eauto.
Qed.
Lemma in_vals ls k v : In (k, v) (map snd (lv ls 0)) <-> kv ls k v.
Proof.
  unfold kv. rewrite in_map_iff. split.
  - intros ([a [k' v']] & E & Hin). cbn in E. inversion E; subst. eauto.
  - intros (a & Hin). exists (a, (k, v)). auto.
Qed.
(** the count kept in the table is the number of keys *)
Lemma tnum_keys m ls : hinv m ls -> tnum (tab m) = length (map fst (map snd (lv ls 0))).
Proof.
  intro H. pose proof H as [T B L]. pose proof T as [Hc R U C Lt]. rewrite <- C, <- (keysL_cnt hash).
  apply Permutation_length. apply NoDup_Permutation.
  - apply (keysL_nodup hash). intros i j k a a' Hi Hj. apply U; lia.
  - eapply kv_keys_nodup; eauto.
  - intro k. rewrite (keysL_in hash). split.
    + intros (i & a & Hi & Fi). assert (Hh : has (tab m) k a) by (exists i; split; auto; lia). apply L in Hh. destruct Hh as (v & Hin).
      apply in_map_iff. exists (k, v). split; auto. apply in_vals. exists a. auto.
    + intro Hin. apply in_map_iff in Hin. destruct Hin as ([k' v] & E & Hin). cbn in E. subst k'. apply in_vals in Hin. destruct Hin as (a & Hin).
      assert (Hh : has (tab m) k a) by (apply L; eauto). destruct Hh as (i & Hi & Fi). exists i, a. split; auto. lia.
Qed.

(** ** compact *)
Lemma reindex_ok : forall l t, tinv t -> S (tnum t) <> tcap t -> NoDup (map fst (map snd l)) -> (forall a k v, In (a, (k, v)) l -> a <> nullAddr) ->
  (forall k, In k (map fst (map snd l)) -> exists a, has t k a) ->
  exists t', reindex hash l t = Some (t', true) /\ tinv t' /\ tcap t' = tcap t /\ tnum t' = tnum t /\
    (forall k a, has t' k a <-> (exists v, In (a, (k, v)) l) \/ (~ In k (map fst (map snd l)) /\ has t k a)).
Proof.
  induction l as [ | [a [k v]] l IH]; intros t T Nf ND Na P; cbn [reindex].
  - exists t. split; auto. split; auto. split; auto. split; auto. intros k a. split; [ intro; right; split; auto | intros [(v & []) | [_ ?]]; auto ].
  - cbn in ND, P. inversion ND as [ | ? ? Ni ND']; subst.
    destruct (tInsert_ok hash t k a T) as (t1 & old & E & T1 & C1 & Hs & Ho); [ apply (Na a k v); left; reflexivity | auto | ].
    rewrite E. destruct old as [o | ].
    2:{ exfalso. destruct (P k) as (a0 & Ha0); auto. destruct Ho as [Ho _]. eapply Ho; eauto. }
    destruct Ho as [Ho Hn].
    destruct (IH t1) as (t' & E' & T' & C' & N' & Hs'); auto.
    + congruence.
    + intros a1 k1 v1 Hin. apply (Na a1 k1 v1). right; auto.
    + intros k1 Hk1. destruct (P k1) as (a1 & Ha1); auto. exists a1. apply Hs. right. split; auto. intro; subst; auto.
    + exists t'. split; auto. split; auto. split; [ congruence | ]. split; [ congruence | ]. intros k1 a1. rewrite Hs', Hs. cbn [map fst snd In]. split.
      * intros [(v1 & Hin) | [N1 [[-> ->] | [N2 Hh]]]].
        -- left. eauto.
        -- left. exists v. auto.
        -- right. split; auto. intros [Ek | Hk]; auto.
      * intros [(v1 & [Ein | Hin]) | [N1 Hh]].
        -- inversion Ein; subst. right. split; auto.
        -- left. eauto.
        -- right. split; auto. right. split; auto.
Qed.
Lemma compact_ok m ls : hinv m ls -> S (tnum (tab m)) <> tcap (tab m) ->
  exists m' ls', compact hash m = Some (m', true) /\ hinv m' ls' /\ map snd (lv ls' 0) = map snd (lv ls 0) /\
    tcap (tab m') = tcap (tab m) /\ tnum (tab m') = tnum (tab m) /\ pub m' = pub m /\ length (bufs m') = length (bufs m).
Proof.
  intros H Nf. pose proof H as [T B L]. unfold compact. destruct (mCompact_ok _ _ B) as (b' & ls' & E & B' & Ln & Ev). rewrite E.
  rewrite (mIterate_ok _ _ B').
  destruct (reindex_ok (lv ls' 0) (tab m) T Nf) as (t' & E' & T' & C' & N' & Hs).
  - rewrite Ev. eapply kv_keys_nodup; eauto.
  - intros a k v Hin. destruct (in_lv0 _ _ _ _ B' Hin) as (? & ? & ? & ? & ? & ? & ? & ? & ? & ? & ? & ? & ? & ? & ?). auto.
  - intros k Hk. rewrite Ev in Hk. apply in_map_iff in Hk. destruct Hk as ([k' v] & Ek & Hin). cbn in Ek. subst k'. apply in_vals in Hin. destruct Hin as (a & Hin).
    exists a. apply L. eauto.
  - rewrite E'. eexists _, ls'. split; [ reflexivity | ]. cbn [tab bufs pub]. split; [ | auto 6 ]. constructor; cbn [tab bufs pub]; auto.
    intros k a. rewrite Hs. split; auto. intros [Hv | [Nk Hh]]; auto. exfalso. apply Nk. rewrite Ev. apply L in Hh. destruct Hh as (v & Hin).
    apply in_map_iff. exists (k, v). split; auto. apply in_vals. exists a. auto.
Qed.
(** a table with one free place left: compact fails, unless the map is empty *)
Lemma compact_full m ls : hinv m ls -> S (tnum (tab m)) = tcap (tab m) ->
  exists m', compact hash m = Some (m', if tnum (tab m) =? 0 then true else false) /\ pub m' = pub m /\
    (tnum (tab m) = 0 -> exists ls', hinv m' ls' /\ map snd (lv ls' 0) = map snd (lv ls 0)).
Proof.
  intros H Ef. pose proof H as [T B L]. unfold compact. destruct (mCompact_ok _ _ B) as (b' & ls' & E & B' & Ln & Ev). rewrite E.
  rewrite (mIterate_ok _ _ B'). pose proof (tnum_keys m ls H) as Tk. rewrite !map_length in Tk.
  assert (El : length (lv ls' 0) = tnum (tab m)) by (rewrite Tk, <- (map_length snd (lv ls' 0)), Ev, map_length; auto).
  destruct (lv ls' 0) as [ | [a [k v]] l] eqn:Elv.
  - cbn [reindex]. cbn in El. rewrite <- El. cbn. eexists. split; [ reflexivity | ]. split; auto. intros _. exists ls'. rewrite Elv. split; auto.
    constructor; cbn [tab bufs pub]; auto. intros k a. split.
    + intro Hh. apply L in Hh. destruct Hh as (v & Hin). destruct (lv ls 0) as [ | x l']; [ destruct Hin | cbn in Ev; discriminate ].
    + intros (v & Hin). rewrite Elv in Hin. destruct Hin.
  - cbn [reindex]. rewrite tInsert_full; auto.
    + cbn in El. rewrite <- El. cbn. eexists. split; [ reflexivity | ]. split; auto. discriminate.
    + assert (Hin : In (a, (k, v)) (lv ls' 0)) by (rewrite Elv; left; auto).
      destruct (in_lv0 _ _ _ _ B' Hin) as (? & ? & ? & ? & ? & ? & ? & ? & ? & ? & ? & ? & ? & ? & ?). auto.
Qed.

(** ** growing the table *)
Lemma expandTable_ok m ls c al : hinv m ls -> tcap (tab m) <= c ->
  exists x al', expandTable hash maxIndex m c al = Some (x, al') /\
    match x with
    | XMaxed => maxIndex < c
    | XFailed => al <> []
    | XDone m' => hinv m' ls /\ tcap (tab m') = c /\ tnum (tab m') = tnum (tab m) /\ bufs m' = bufs m /\ pub m' = false /\ (al = [] -> al' = [])
    end.
Proof.
  intros H Hc. pose proof H as [T B L]. unfold expandTable, copyTable. destruct (Nat.ltb_spec maxIndex c) as [Lm | Lm].
  - eexists _, _. split; [ reflexivity | auto ].
  - destruct (take al) as [ok al1] eqn:Et. destruct ok.
    + destruct (Nat.ltb_spec c (tcap (tab m))); [ lia | ].
      destruct (rebuild_ok hash (tab m) c T Hc) as (t' & E & T' & C' & N' & Hs); [ intros; eapply hinv_null; eauto | ]. rewrite E.
      destruct (mClone (bufs m) al1) as [[b | ] al2] eqn:Ec.
      * pose proof (mClone_id _ _ _ Ec) as Eb. cbn in Eb. subst b. eexists _, _. split; [ reflexivity | ]. cbn [tab bufs pub].
        split; [ constructor; cbn [tab bufs pub]; auto; intros k a; rewrite Hs; auto | ]. split; auto. split; auto. split; auto. split; auto.
        intros ->. cbn in Et. inversion Et; subst. rewrite mClone_all in Ec. congruence.
      * eexists _, _. split; [ reflexivity | ]. intros ->. cbn in Et. inversion Et; subst. rewrite mClone_all in Ec. congruence.
    + eexists _, _. split; [ reflexivity | ]. intros ->. discriminate.
Qed.

(** ** the end of an insertion *)
Lemma size_ok v : u32 (ks + vsize v) = (ks + vsize v)%N /\ (1 <= ks + vsize v < 4294967292)%N.
Proof. specialize (Hsize v). consts. split; [ apply u32_small; lia | lia ]. Qed.
Lemma finish_ok m ls M k v m1 a : hinv m ls -> abs ls M -> S (tnum (tab m)) <> tcap (tab m) -> mAllocate (bufs m) (u32 (ks + vsize v)) = Some (m1, a) -> forall p,
  exists m' ls', (let* b := mWrite m1 a (u32 (ks + vsize v)) (k, v) in
          let* r := tInsert hash (tab m) k a in
          match r with
          | IFull => let* b' := mRemove b a in Some (mkMap (tab m) b' p, OBadAlloc)
          | IDone t None => Some (mkMap t b p, OReplaced false)
          | IDone t (Some o) => let* b' := mRemove b o in Some (mkMap t b' p, OReplaced true)
          end) = Some (m', OReplaced (present M k)) /\ hinv m' ls' /\ abs ls' (fset M k (Some v)) /\ pub m' = p.
Proof.
  intros H A Nf E p. pose proof H as [T B L]. destruct (size_ok v) as (Es & S1 & S2).
  rewrite Es in *. destruct (alloc_write _ _ _ (k, v) _ _ B S1 S2 E) as (m2 & ls2 & E2 & B2 & Ln & Na & Hin & Fr). rewrite E2.
  destruct (tInsert_ok hash (tab m) k a T Na Nf) as (t & old & Et & T' & C' & Hs & Ho). rewrite Et.
  destruct old as [o | ]; destruct Ho as [Ho Hn].
  - pose proof Ho as Ho'. apply L in Ho'. destruct Ho' as (v0 & H0).
    assert (H0' : In (o, (k, v0)) (lv ls2 0)) by (apply Hin; auto).
    destruct (mRemove_ok _ _ _ _ B2 H0') as (m3 & ls3 & E3 & B3 & Ln3 & Hin3). rewrite E3.
    assert (Noa : o <> a) by (intro; subst o; eapply Fr; eauto).
    assert (P : present M k = true) by (unfold present; assert (X : M k = Some v0) by (apply A; exists o; auto); rewrite X; auto). rewrite P.
    assert (In3 : forall a1 k1 v1, In (a1, (k1, v1)) (lv ls3 0) <-> (a1 = a /\ k1 = k /\ v1 = v) \/ (k1 <> k /\ In (a1, (k1, v1)) (lv ls 0))).
    { intros a1 k1 v1. rewrite Hin3, Hin. split.
      - intros [[Hl | [-> Ep]] Na1].
        + right. split; auto. intro; subst k1. apply Na1. edestruct (hinv_key m ls a1 o); eauto.
        + left. inversion Ep; auto.
      - intros [(-> & -> & ->) | [Nk Hl]].
        + split; auto.
        + split; auto. intro; subst a1. apply Nk. pose proof (nodup_fun _ _ _ _ (lv_nodup _ _ B) Hl H0). congruence. }
    eexists _, ls3. split; [ reflexivity | ]. split; [ | split; auto ].
    + constructor; cbn [tab bufs pub]; auto. intros k1 a1. rewrite Hs. split.
      * intros [[-> ->] | [Nk Hh]]; [ exists v; apply In3; auto | ]. apply L in Hh. destruct Hh as (v1 & Hv). exists v1. apply In3. auto.
      * intros (v1 & Hv). apply In3 in Hv. destruct Hv as [(-> & -> & ->) | [Nk Hv]]; auto. right. split; auto. apply L. eauto.
    + intros k1 v1. unfold fset, kv. destruct (N.eqb_spec k1 k) as [-> | Nk].
      * split; [ intro Ev; inversion Ev; subst; exists a; apply In3; auto | ]. intros (a1 & Hv). apply In3 in Hv. destruct Hv as [(_ & _ & ->) | [? _]]; congruence.
      * rewrite (A k1 v1). unfold kv. split; intros (a1 & Hv); exists a1; [ apply In3; auto | apply In3 in Hv ]. destruct Hv as [(_ & ? & _) | [_ ?]]; auto. congruence.
  - assert (Nk0 : forall v0, ~ kv ls k v0). { intros v0 (a0 & Hv). eapply (Ho a0). apply L. eauto. }
    assert (P : present M k = false) by (unfold present; rewrite (proj2 (abs_none ls M k A) Nk0); auto). rewrite P.
    assert (In3 : forall a1 k1 v1, In (a1, (k1, v1)) (lv ls2 0) <-> (a1 = a /\ k1 = k /\ v1 = v) \/ (k1 <> k /\ In (a1, (k1, v1)) (lv ls 0))).
    { intros a1 k1 v1. rewrite Hin. split.
      - intros [Hl | [-> Ep]].
        + right. split; auto. intro; subst k1. eapply Nk0. exists a1. eauto.
        + left. inversion Ep; auto.
      - intros [(-> & -> & ->) | [Nk Hl]]; auto. }
    eexists _, ls2. split; [ reflexivity | ]. split; [ | split; auto ].
    + constructor; cbn [tab bufs pub]; auto. intros k1 a1. rewrite Hs. split.
      * intros [[-> ->] | [Nk Hh]]; [ exists v; apply In3; auto | ]. apply L in Hh. destruct Hh as (v1 & Hv). exists v1. apply In3. auto.
      * intros (v1 & Hv). apply In3 in Hv. destruct Hv as [(-> & -> & ->) | [Nk Hv]]; auto. right. split; auto. apply L. eauto.
    + intros k1 v1. unfold fset, kv. destruct (N.eqb_spec k1 k) as [-> | Nk].
      * split; [ intro Ev; inversion Ev; subst; exists a; apply In3; auto | ]. intros (a1 & Hv). apply In3 in Hv. destruct Hv as [(_ & _ & ->) | [? _]]; congruence.
      * rewrite (A k1 v1). unfold kv. split; intros (a1 & Hv); exists a1; [ apply In3; auto | apply In3 in Hv ]. destruct Hv as [(_ & ? & _) | [_ ?]]; auto. congruence.
Qed.

Definition thrown (o : out) : Prop := o = OBadAlloc \/ o = OMaxed.
(** conditions under which an insertion cannot fail *)
Definition fits (m : hmap) (v : N) (al : list bool) : Prop :=
  al = [] /\ (4 + ks + vsize v < maxCapacity)%N /\ 2 * tcap (tab m) <= maxIndex /\ (N.of_nat (length (bufs m)) < maxItems)%N.
Lemma overLimit_false m : tinv (tab m) -> overLimit (tab m) = false -> S (tnum (tab m)) < tcap (tab m).
Proof.
  intros [Hc _ _ _ Lt] O. unfold overLimit in O. apply orb_false_iff in O. destruct O as [O _]. destruct (Nat.eqb_spec (tcap (tab m)) 0); [ lia | ].
  apply Nat.leb_gt in O. lia.
Qed.
Lemma insertImpl_ok m ls M k v al : hinv m ls -> abs ls M ->
  exists m' o, insertImpl hash ks vsize maxIndex m k v al = Some (m', o) /\ pub m' = pub m /\
    ((o = OReplaced (present M k) /\ exists ls', hinv m' ls' /\ abs ls' (fset M k (Some v))) \/
     (thrown o /\ ~ fits m v al /\ exists ls', hinv m' ls' /\ abs ls' M)).
Proof.
  intros H A. pose proof H as [T B L]. unfold insertImpl.
  assert (Hc1 : 1 <= tcap (tab m)) by apply T. assert (Lt : tnum (tab m) < tcap (tab m)) by apply T.
  assert (X : exists x al1, (if overLimit (tab m) then expandTable hash maxIndex m (2 * tcap (tab m)) al else Some (XDone m, al)) = Some (x, al1) /\
    match x with
    | XMaxed => maxIndex < 2 * tcap (tab m)
    | XFailed => al <> []
    | XDone m1 => hinv m1 ls /\ S (tnum (tab m1)) < tcap (tab m1) /\ bufs m1 = bufs m /\ pub m1 = (if overLimit (tab m) then false else pub m) /\ (al = [] -> al1 = []) /\
                  (overLimit (tab m) = false -> tcap (tab m1) = tcap (tab m))
    end).
  { destruct (overLimit (tab m)) eqn:O.
    - destruct (expandTable_ok m ls (2 * tcap (tab m)) al H) as (x & al1 & E & Hx); [ lia | ]. exists x, al1. split; auto.
      destruct x; auto. destruct Hx as (X1 & X2 & X3 & X4 & X5 & X6). rewrite X2, X3. split; auto. split; [ lia | ]. split; auto. split; auto. split; auto. discriminate.
    - exists (XDone m), al. split; auto. split; auto. split; [ apply overLimit_false; auto | ]. auto. }
  destruct X as (x & al1 & E & Hx). rewrite E. destruct x as [ | | m1].
  { exists m, OMaxed. split; auto. split; auto. right. split; [ right; auto | ]. split; [ intros (_ & _ & F & _); lia | eauto ]. }
  { exists m, OBadAlloc. split; auto. split; auto. right. split; [ left; auto | ]. split; [ intros (F & _); auto | eauto ]. }
  destruct Hx as (H1 & R1 & Eb1 & Ep1 & Ea1 & Ec1).
  pose proof H1 as [T1 B1 L1]. destruct (wastedPct_ok _ _ B1) as (w & Ew). rewrite Ew.
  assert (X : exists m2 ls2, (if (50 <? w)%N then compact hash m1 else Some (m1, true)) = Some (m2, true) /\ hinv m2 ls2 /\ abs ls2 M /\
     tcap (tab m2) = tcap (tab m1) /\ tnum (tab m2) = tnum (tab m1) /\ pub m2 = pub m1 /\ length (bufs m2) = length (bufs m1)).
  { destruct (50 <? w)%N.
    - destruct (compact_ok m1 ls H1) as (m2 & ls2 & E2 & H2 & Ev & C2 & N2 & P2 & Ln2); [ lia | ]. exists m2, ls2. split; auto. split; auto. split; [ | auto 6 ].
      intros k1 v1. rewrite (A k1 v1). rewrite <- !in_vals, Ev. tauto.
    - exists m1, ls. auto 8. }
  destruct X as (m2 & ls2 & E2 & H2 & A2 & C2 & N2 & P2 & Ln2). rewrite E2. cbn [negb].
  assert (Nf2 : S (tnum (tab m2)) <> tcap (tab m2)) by (rewrite N2, C2; lia).
  set (cloned := overLimit (tab m)) in *.
  destruct (mAllocate (bufs m2) (u32 (ks + vsize v))) as [[b a] | ] eqn:Ea.
  { (* there is room *)
    cbn match beta. cbn [tab bufs pub].
    destruct (finish_ok m2 ls2 M k v b a H2 A2 Nf2 Ea (if cloned && pub m then true else pub m2)) as (m' & ls' & Ef & H' & A' & P'). rewrite Ef.
    exists m', (OReplaced (present M k)). split; auto. split; [ | left; eauto ]. rewrite P', P2, Ep1. destruct cloned, (pub m); auto. }
  assert (X : exists z al2, (if cloned then Some (XDone m2, al1) else expandTable hash maxIndex m2 (tcap (tab m2)) al1) = Some (z, al2) /\
    match z with
    | XMaxed => cloned = false /\ maxIndex < tcap (tab m2)
    | XFailed => cloned = false /\ al1 <> []
    | XDone m3 => hinv m3 ls2 /\ S (tnum (tab m3)) <> tcap (tab m3) /\ bufs m3 = bufs m2 /\ pub m3 = false /\ (al1 = [] -> al2 = [])
    end).
  { destruct cloned.
    - exists (XDone m2), al1. split; auto. split; auto. split; auto. split; auto. split; auto. rewrite P2, Ep1; auto.
    - destruct (expandTable_ok m2 ls2 (tcap (tab m2)) al1 H2) as (x & al2 & E3 & Hx); [ lia | ]. exists x, al2. split; auto.
      destruct x; auto. destruct Hx as (X1 & X2 & X3 & X4 & X5 & X6). rewrite X2, X3. auto. }
  destruct X as (z & al2 & Ez & Hz). rewrite Ez. destruct z as [ | | m3].
  { destruct Hz as [Ecl Hz]. exists m2, OMaxed. split; auto. split; [ rewrite P2, Ep1, Ecl; auto | ]. right. split; [ right; auto | ]. split; [ | eauto ].
    intros (_ & _ & F & _). rewrite C2, (Ec1 Ecl) in Hz. lia. }
  { destruct Hz as [Ecl Hz]. exists m2, OBadAlloc. split; auto. split; [ rewrite P2, Ep1, Ecl; auto | ]. right. split; [ left; auto | ]. split; [ | eauto ].
    intros (F & _). subst al. auto. }
  destruct Hz as (H3 & Nf3 & Eb3 & Ep3 & Ea3). pose proof H3 as [T3 B3 L3]. destruct (size_ok v) as (Es & S1 & S2).
  pose proof (mExpand_ok (bufs m3) ls2 (u32 (ks + vsize v)) al2 B3) as X. destruct (mExpand (bufs m3) (u32 (ks + vsize v)) al2) as [[b | ] al3] eqn:Ex.
  - destruct X as (ls4 & B4 & Ev4 & Ln4 & bb & Hbb & Cbb); [ rewrite Es; lia | ].
    assert (H4 : hinv (mkMap (tab m3) b (pub m3)) ls4). { constructor; cbn [tab bufs pub]; auto. intros k1 a1. rewrite Ev4. auto. }
    assert (A4 : abs ls4 M). { intros k1 v1. unfold kv. rewrite Ev4. apply A2. }
    destruct (mAllocate b (u32 (ks + vsize v))) as [[b' a] | ] eqn:Ea4.
    + cbn match beta. cbn [tab bufs pub andb].
      destruct (finish_ok (mkMap (tab m3) b (pub m3)) ls4 M k v b' a H4 A4 Nf3 Ea4 (if pub m then true else pub m3)) as (m' & ls' & Ef & H' & A' & P').
      cbn [tab] in Ef. rewrite Ef. exists m', (OReplaced (present M k)). split; auto. split; [ | left; eauto ]. rewrite P', Ep3. destruct (pub m); auto.
    + cbn match beta. cbn [tab bufs pub andb]. eexists _, OBadAlloc. split; [ reflexivity | ]. cbn [pub]. split; [ rewrite Ep3; destruct (pub m); auto | ].
      right. split; [ left; auto | ]. split.
      * intros (_ & F & _). pose proof (mAllocate_none b ls4 (u32 (ks + vsize v)) B4) as Q. rewrite Es in Q, Ea4, Cbb. rewrite (Q S1 S2) in Cbb; auto; [ discriminate | lia ].
      * exists ls4. split; auto. constructor; cbn [tab bufs pub]; auto; apply H4.
  - cbn match beta. cbn [tab bufs pub andb]. eexists _, OBadAlloc. split; [ reflexivity | ]. cbn [pub]. split; [ rewrite Ep3; destruct (pub m); auto | ].
    right. split; [ left; auto | ]. split.
    + intros (F1 & F2 & F3 & F4). specialize (Ea1 F1). specialize (Ea3 Ea1). subst al2.
      destruct (mExpand_succeeds (bufs m3) (u32 (ks + vsize v))) as (m' & Em).
      * rewrite Es. lia.
      * rewrite Eb3, Ln2, Eb1. auto.
      * rewrite Ex in Em. discriminate.
    + exists ls2. split; auto. constructor; cbn [tab bufs pub]; auto.
Qed.

(** ** one call *)
Lemma exec_ok m ls M c : hinv m ls -> abs ls M ->
  exists m' o, exec hash ks vsize maxIndex m c = Some (m', o) /\ pub m' = (match c with Publish => true | _ => pub m end) /\
    ((o = ORuntime /\ c = Compact /\ S (tnum (tab m)) = tcap (tab m) /\ tnum (tab m) <> 0) \/
     (o <> ORuntime /\ exists ls' M', hinv m' ls' /\ abs ls' M' /\ sstep M c o M' /\
        (thrown o -> match c with Insert _ v al | Upsert _ v al => ~ fits m v al | _ => True end))).
Proof.
  intros H A. pose proof H as [T B L].
  assert (An : forall k, (forall a, ~ has (tab m) k a) -> M k = None).
  { intros k Nk. apply (abs_none ls M k A). intros v (a & Hin). eapply Nk. apply L. eauto. }
  assert (As : forall k j a, j < tcap (tab m) -> ents (tab m) j = Some (k, a) -> exists v, M k = Some v /\ In (a, (k, v)) (lv ls 0)).
  { intros k j a Hj Fj. assert (Hh : has (tab m) k a) by (exists j; auto). apply L in Hh. destruct Hh as (v & Hv). exists v. split; auto. apply A. exists a. auto. }
  destruct c as [k | k v al | k v al | k | | | | ]; cbn [exec].
  - destruct (tFind_ok hash (tab m) k T) as [(j & a & E & Hj & Fj) | (E & Nk)]; rewrite E.
    + destruct (As k j a Hj Fj) as (v & Ev & Hin). rewrite (mRead_ok _ _ _ _ B Hin). eexists _, _. split; [ reflexivity | ]. split; auto.
      right. split; [ discriminate | ]. exists ls, M. split; auto. split; auto. split; [ cbn; rewrite <- Ev; constructor | auto ].
    + eexists _, _. split; [ reflexivity | ]. split; auto. right. split; [ discriminate | ]. exists ls, M. split; auto. split; auto.
      split; [ rewrite <- (An k Nk); constructor | auto ].
  - destruct (tFind_ok hash (tab m) k T) as [(j & a & E & Hj & Fj) | (E & Nk)]; rewrite E.
    + destruct (As k j a Hj Fj) as (v0 & Ev & Hin). eexists _, _. split; [ reflexivity | ]. split; auto. right. split; [ discriminate | ].
      exists ls, M. split; auto. split; auto. split; [ constructor; congruence | ]. intros [ | ]; discriminate.
    + specialize (An k Nk). destruct (insertImpl_ok m ls M k v al H A) as (m' & o & Ei & Ep & C). rewrite Ei. eexists _, _. split; [ reflexivity | ]. split; auto. right.
      destruct C as [(-> & ls' & H' & A') | (Th & Nfit & ls' & H' & A')].
      * split; [ discriminate | ]. exists ls', (fset M k (Some v)). split; auto. split; auto. split; [ constructor; auto | ]. intros [ | ]; discriminate.
      * assert (Eo : match o with OReplaced _ => OBool true | _ => o end = o) by (destruct Th; subst o; auto). rewrite Eo.
        split; [ destruct Th; subst o; discriminate | ]. exists ls', M. split; auto. split; auto. split; [ apply SInsThrow; auto | auto ].
  - destruct (insertImpl_ok m ls M k v al H A) as (m' & o & Ei & Ep & C). rewrite Ei. eexists _, _. split; [ reflexivity | ]. split; auto. right.
    destruct C as [(-> & ls' & H' & A') | (Th & Nfit & ls' & H' & A')].
    + split; [ discriminate | ]. exists ls', (fset M k (Some v)). split; auto. split; auto. split; [ constructor; auto | ]. intros [ | ]; discriminate.
    + split; [ destruct Th; subst o; discriminate | ]. exists ls', M. split; auto. split; auto. split; [ apply SUpsThrow; auto | auto ].
  - destruct (tRemove_ok hash (tab m) k T) as [(E & Nk) | (t' & a & E & Hh & T' & C' & N' & Hs)]; rewrite E.
    + eexists _, _. split; [ reflexivity | ]. split; auto. right. split; [ discriminate | ]. specialize (An k Nk). exists ls, (fset M k None). split; [ constructor; auto | ].
      split; [ | split; [ replace false with (present M k) by (unfold present; rewrite An; auto); constructor | intros [ | ]; discriminate ] ].
      intros k1 v1. unfold fset. destruct (N.eqb_spec k1 k) as [-> | Nk1]; [ | apply A ]. rewrite <- An. apply A.
    + pose proof Hh as Hh'. apply L in Hh'. destruct Hh' as (v & Hin). destruct (mRemove_ok _ _ _ _ B Hin) as (b' & ls' & E' & B' & Ln & Hi). rewrite E'.
      eexists _, _. split; [ reflexivity | ]. split; auto. right. split; [ discriminate | ]. exists ls', (fset M k None).
      assert (In' : forall a1 k1 v1, In (a1, (k1, v1)) (lv ls' 0) <-> k1 <> k /\ In (a1, (k1, v1)) (lv ls 0)).
      { intros a1 k1 v1. rewrite Hi. split.
        - intros [Hl Na]. split; auto. intro; subst k1. apply Na. edestruct (hinv_key m ls a1 a); eauto.
        - intros [Nk Hl]. split; auto. intro; subst a1. apply Nk. pose proof (nodup_fun _ _ _ _ (lv_nodup _ _ B) Hl Hin). congruence. }
      split; [ | split; [ | split; [ | intros [ | ]; discriminate ] ] ].
      * constructor; cbn [tab bufs pub]; auto. intros k1 a1. rewrite Hs. split.
        -- intros [Nk Hk]. apply L in Hk. destruct Hk as (v1 & Hv). exists v1. apply In'. auto.
        -- intros (v1 & Hv). apply In' in Hv. destruct Hv as [Nk Hv]. split; auto. apply L. eauto.
      * intros k1 v1. unfold fset, kv. destruct (N.eqb_spec k1 k) as [-> | Nk1].
        -- split; [ discriminate | ]. intros (a1 & Hv). apply In' in Hv. destruct Hv; congruence.
        -- rewrite (A k1 v1). unfold kv. split; intros (a1 & Hv); exists a1; [ apply In'; auto | apply In' in Hv; tauto ].
      * replace true with (present M k); [ constructor | ]. unfold present. assert (Ev : M k = Some v) by (apply A; exists a; auto). rewrite Ev. auto.
  - eexists _, _. split; [ reflexivity | ]. split; auto. right. split; [ discriminate | ]. exists ls, M. split; auto. split; auto. split; [ | auto ].
    rewrite (tnum_keys m ls H). constructor; [ eapply kv_keys_nodup; eauto | ]. intro k. rewrite in_map_iff. split.
    + intros ([k' v] & E & Hin). cbn in E. subst k'. apply in_vals in Hin. apply A in Hin. congruence.
    + intro N. destruct (M k) as [v | ] eqn:Ev; [ | congruence ]. exists (k, v). split; auto. apply in_vals. apply A. auto.
  - rewrite (mIterate_ok _ _ B). eexists _, _. split; [ reflexivity | ]. split; auto. right. split; [ discriminate | ]. exists ls, M. split; auto. split; auto. split; [ | auto ].
    constructor; [ eapply kv_keys_nodup; eauto | ]. intros k v. rewrite in_vals. symmetry. apply A.
  - destruct (Nat.eq_dec (S (tnum (tab m))) (tcap (tab m))) as [Ef | Nf].
    + destruct (compact_full m ls H Ef) as (m' & E & Ep & Z). rewrite E. eexists _, _. split; [ reflexivity | ]. split; auto.
      destruct (Nat.eqb_spec (tnum (tab m)) 0) as [E0 | N0].
      * right. split; [ discriminate | ]. destruct (Z E0) as (ls' & H' & Ev). exists ls', M. split; auto. split; [ | split; [ constructor | auto ] ].
        intros k1 v1. rewrite (A k1 v1), <- !in_vals, Ev. tauto.
      * left. auto.
    + destruct (compact_ok m ls H Nf) as (m' & ls' & E & H' & Ev & _ & _ & Ep & _). rewrite E. eexists _, _. split; [ reflexivity | ]. split; auto. right.
      split; [ discriminate | ]. exists ls', M. split; auto. split; [ | split; [ constructor | auto ] ]. intros k1 v1. rewrite (A k1 v1), <- !in_vals, Ev. tauto.
  - eexists _, _. split; [ reflexivity | ]. split; auto. right. split; [ discriminate | ]. exists ls, M. split; [ constructor; auto | ]. split; auto. split; [ constructor | auto ].
Qed.
Lemma execs_ok : forall cs m ls M, hinv m ls -> abs ls M -> exists m' os M', execs hash ks vsize maxIndex m cs = Some (m', os) /\ srun M cs os M'.
Proof.
  induction cs as [ | c cs IH]; intros m ls M H A; cbn [execs].
  - exists m, [], M. split; auto. constructor.
  - destruct (exec_ok m ls M c H A) as (m1 & o & E & _ & [(-> & -> & _) | (No & ls1 & M1 & H1 & A1 & S1 & _)]); rewrite E.
    + exists m1, [ORuntime], M. split; auto. constructor.
    + destruct (IH m1 ls1 M1 H1 A1) as (m2 & os & M2 & E2 & R2). rewrite E2. exists m2, (o :: os), M2. split; [ destruct o; auto; congruence | ]. econstructor; eauto.
Qed.
Lemma create_ok n bytes : 1 <= n -> (1 <= bytes <= maxCapacity)%N -> hinv (create n bytes) [[]] /\ abs [[]] fempty.
Proof.
  intros Hn Hb. split.
  - constructor; cbn [create tab bufs].
    + apply newTable_inv; auto.
    + constructor; [ constructor; [ apply newBuffer_ok; auto | constructor ] | constructor; [ intros o s [] | constructor ] | consts; cbn; lia | discriminate ].
    + intros k a. split; [ intro Hh; exfalso; eapply has_new; eauto | intros (v & []) ].
  - intros k v. unfold fempty, kv. cbn. split; [ discriminate | intros (a & []) ].
Qed.
(** reachable states, for per-call theorems *)
Lemma reach_ok : forall cs m ls M m' os, hinv m ls -> abs ls M -> execs hash ks vsize maxIndex m cs = Some (m', os) -> ~ In ORuntime os ->
  exists ls' M', hinv m' ls' /\ abs ls' M' /\ srun M cs os M'.
Proof.
  induction cs as [ | c cs IH]; intros m ls M m' os H A E Nr; cbn [execs] in E.
  - inversion E; subst. exists ls, M. split; auto. split; auto. constructor.
  - destruct (exec_ok m ls M c H A) as (m1 & o & E1 & _ & [(-> & -> & _) | (No & ls1 & M1 & H1 & A1 & S1 & _)]); rewrite E1 in E.
    + inversion E; subst. exfalso. apply Nr. left. auto.
    + destruct (execs hash ks vsize maxIndex m1 cs) as [[m2 os2] | ] eqn:E2; [ | destruct o; congruence ].
      assert (Eo : m' = m2 /\ os = o :: os2) by (destruct o; inversion E; auto; congruence). destruct Eo as [-> ->].
      destruct (IH m1 ls1 M1 m2 os2 H1 A1 E2) as (ls' & M' & H' & A' & R'); [ intro; apply Nr; right; auto | ]. exists ls', M'. split; auto. split; auto. econstructor; eauto.
Qed.
End P.
