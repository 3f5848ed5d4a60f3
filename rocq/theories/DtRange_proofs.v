(** * RangeMap refines a sorted finite map. *)
From Coq Require Import Permutation Sorted.
From Verif Require Import Bytes DtBuffer_model DtMap_spec DtRange_model DtRange_spec DtBuffer_proofs.
Ltac Zify.zify_post_hook ::= idtac.
Local Open Scope nat_scope.

Definition key (x : index) (i : nat) : N := fst (iarr x i).
Record iinv (x : index) : Prop := IInv {
  ii_cap : 1 <= icap x; ii_num : inum x <= icap x; ii_sort : forall i j, i < j < inum x -> (key x i < key x j)%N }.
Definition ihas (x : index) (k a : N) : Prop := exists i, i < inum x /\ iarr x i = (k, a).

Lemma lbFrom_ok a k n : (forall i j, i < j < n -> (fst (a i) < fst (a j))%N) -> forall fuel first len, len < fuel -> first + len <= n ->
  (forall i, i < first -> (fst (a i) < k)%N) -> (forall i, first + len <= i < n -> (k <= fst (a i))%N) ->
  let r := lbFrom fuel a k first len in r <= n /\ (forall i, i < r -> (fst (a i) < k)%N) /\ (forall i, r <= i < n -> (k <= fst (a i))%N).
Proof.
  intro S. induction fuel as [ | f IH]; intros first len Lf Le Lo Hi; [ lia | ]. cbn [lbFrom].
  destruct (Nat.eqb_spec len 0) as [-> | Nz]; [ split; [ lia | ]; split; auto; intros i Hi'; apply Hi; lia | ].
  pose proof (Nat.div_lt len 2) as Hd. set (half := len / 2) in *. clearbody half.
  destruct (N.ltb_spec (fst (a (first + half))) k) as [Lt | Ge].
  - apply IH; try lia.
    + intros i Hi'. destruct (Nat.eq_dec i (first + half)) as [-> | Ne]; auto.
      assert (fst (a i) < fst (a (first + half)%nat))%N by (apply S; lia). lia.
    + intros i Hi'. apply Hi. lia.
  - apply IH; try lia; auto.
    intros i Hi'. destruct (Nat.eq_dec i (first + half)) as [-> | Ne]; auto.
    assert (fst (a (first + half)%nat) < fst (a i))%N by (apply S; lia). lia.
Qed.
Lemma lower_ok x k : iinv x -> lower x k <= inum x /\ (forall i, i < lower x k -> (key x i < k)%N) /\ (forall i, lower x k <= i < inum x -> (k <= key x i)%N).
Proof. intros [C Nn S]. apply (lbFrom_ok (iarr x) k (inum x) S); lia. Qed.
Lemma key_inj x i j : iinv x -> i < inum x -> j < inum x -> key x i = key x j -> i = j.
Proof.
  intros [_ _ S] Hi Hj E. destruct (Nat.lt_trichotomy i j) as [L | [L | L]]; auto; exfalso.
  - specialize (S i j). lia.
  - specialize (S j i). lia.
Qed.
Lemma ilookup_ok x k : iinv x ->
  (ilookup x k < inum x /\ ilookup x k = lower x k /\ exists a, iarr x (ilookup x k) = (k, a)) \/ (ilookup x k = inum x /\ forall a, ~ ihas x k a).
Proof.
  intro I. destruct (lower_ok x k I) as (Le & Lo & Hi). unfold ilookup.
  destruct (Nat.eqb_spec (lower x k) (inum x)) as [E | E]; cbn [orb].
  - right. split; auto. intros a (i & Li & Ei). specialize (Lo i). unfold key in Lo. rewrite Ei in Lo. cbn [fst] in Lo. lia.
  - destruct (N.eqb_spec (fst (iarr x (lower x k))) k) as [Ek | Ek]; cbn [negb].
    + left. split; [ lia | ]. split; auto. exists (snd (iarr x (lower x k))). destruct (iarr x (lower x k)); cbn in *; congruence.
    + right. split; auto. intros a (i & Li & Ei).
      destruct (Nat.lt_trichotomy i (lower x k)) as [L | [L | L]].
      * specialize (Lo i L). unfold key in Lo. rewrite Ei in Lo. cbn [fst] in Lo. lia.
      * subst i. rewrite Ei in Ek. cbn in Ek. congruence.
      * pose proof (ii_sort _ I (lower x k) i) as S. specialize (Hi (lower x k)). unfold key in *. rewrite Ei in S. cbn [fst] in S. lia.
Qed.
Lemma ihas_fun x k a a' : iinv x -> ihas x k a -> ihas x k a' -> a = a'.
Proof.
  intros I (i & Li & Ei) (j & Lj & Ej). assert (i = j) by (apply (key_inj x); auto; unfold key; rewrite Ei, Ej; auto). subst. congruence.
Qed.

Lemma insertInternal_ok x k a : iinv x -> inum x < icap x -> (forall b, ~ ihas x k b) ->
  exists x', insertInternal x k a = Some x' /\ iinv x' /\ icap x' = icap x /\ inum x' = S (inum x) /\
    (forall k1 a1, ihas x' k1 a1 <-> (k1 = k /\ a1 = a) \/ (k1 <> k /\ ihas x k1 a1)).
Proof.
  intros I Lc Ab. destruct (lower_ok x k I) as (Le & Lo & Hi). unfold insertInternal. destruct (Nat.leb_spec (icap x) (inum x)); [ lia | ].
  set (r := lower x k) in *. clearbody r. eexists. split; [ reflexivity | ].
  set (a1 := if r <? inum x then move (iarr x) (S r) r (inum x - r) else iarr x).
  assert (V : forall i, i <= inum x -> put a1 r (k, a) i = if i =? r then (k, a) else if i <? r then iarr x i else iarr x (i - 1)).
  { intros i Li. unfold put, a1. destruct (Nat.eqb_spec i r); auto. destruct (Nat.ltb_spec r (inum x)).
    - unfold move. destruct (Nat.leb_spec (S r) i), (Nat.ltb_spec i (S r + (inum x - r))), (Nat.ltb_spec i r); cbn [andb]; try lia; auto.
      f_equal. lia.
    - destruct (Nat.ltb_spec i r); [ auto | lia ]. }
  assert (Hi' : forall i, r <= i < inum x -> (k < key x i)%N).
  { intros i Li. specialize (Hi i Li). destruct (N.eq_dec (key x i) k) as [E | E]; [ | lia ]. exfalso. apply (Ab (snd (iarr x i))). exists i. split; [ lia | ].
    unfold key in E. destruct (iarr x i); cbn in *; congruence. }
  split; [ | split; [ auto | split; [ auto | ] ] ].
  - constructor; cbn [icap inum]; [ apply I | lia | ]. intros i j Hij. unfold key at 1 2. cbn [iarr]. rewrite !V by lia.
    pose proof (ii_sort _ I) as S. unfold key in *.
    destruct (Nat.eqb_spec i r), (Nat.eqb_spec j r); try lia.
    + subst i. destruct (Nat.ltb_spec j r); [ lia | ]. cbn [fst]. apply Hi'. lia.
    + subst j. destruct (Nat.ltb_spec i r); [ | lia ]. cbn [fst]. apply Lo. lia.
    + destruct (Nat.ltb_spec i r), (Nat.ltb_spec j r); try lia.
      * apply S. lia.
      * assert (fst (iarr x i) < k)%N by (apply Lo; lia). assert (k < fst (iarr x (j - 1)%nat))%N by (apply Hi'; lia). lia.
      * apply S. lia.
  - intros k1 b. unfold ihas. cbn [inum iarr]. split.
    + intros (i & Li & Ei). rewrite V in Ei by lia. destruct (Nat.eqb_spec i r); [ left; inversion Ei; auto | ]. right. destruct (Nat.ltb_spec i r).
      * split; [ | exists i; split; [ lia | auto ] ]. intro; subst k1. apply (Ab b). exists i. split; [ lia | auto ].
      * split; [ | exists (i - 1); split; [ lia | auto ] ]. intro; subst k1. apply (Ab b). exists (i - 1). split; [ lia | auto ].
    + intros [[-> ->] | [Nk (i & Li & Ei)]].
      * exists r. split; [ lia | ]. rewrite V by lia. rewrite Nat.eqb_refl. auto.
      * destruct (Nat.lt_ge_cases i r).
        -- exists i. split; [ lia | ]. rewrite V by lia. destruct (Nat.eqb_spec i r), (Nat.ltb_spec i r); try lia. auto.
        -- exists (S i). split; [ lia | ]. rewrite V by lia. destruct (Nat.eqb_spec (S i) r), (Nat.ltb_spec (S i) r); try lia. replace (S i - 1) with i by lia. auto.
Qed.
Lemma insertOrReplace_ok x k a : iinv x -> (inum x < icap x \/ exists b, ihas x k b) ->
  exists x' old, insertOrReplace x k a = Some (x', old) /\ iinv x' /\ icap x' = icap x /\
    (forall k1 a1, ihas x' k1 a1 <-> (k1 = k /\ a1 = a) \/ (k1 <> k /\ ihas x k1 a1)) /\
    (match old with Some o => ihas x k o /\ inum x' = inum x | None => (forall o, ~ ihas x k o) /\ inum x' = S (inum x) end).
Proof.
  intros I C. unfold insertOrReplace. destruct (ilookup_ok x k I) as [(L & _ & b & E) | (E & Ab)].
  - destruct (Nat.eqb_spec (ilookup x k) (inum x)); [ lia | ]. set (e := ilookup x k) in *. eexists _, _. split; [ reflexivity | ]. rewrite E. cbn [snd].
    assert (V : forall i, key (mkI (icap x) (inum x) (put (iarr x) e (k, a))) i = key x i).
    { intro i. unfold key, put. cbn [iarr]. destruct (Nat.eqb_spec i e); auto. subst i. rewrite E. auto. }
    split; [ | split; [ auto | split ] ].
    + constructor; cbn [icap inum]; try apply I. intros i j Hij. rewrite !V. apply I. auto.
    + intros k1 a1. unfold ihas. cbn [inum iarr]. unfold put. split.
      * intros (i & Li & Ei). destruct (Nat.eqb_spec i e); [ left; inversion Ei; auto | ]. right. split; [ | exists i; auto ].
        intro; subst k1. apply n0. apply (key_inj x); auto. unfold key. rewrite Ei, E. auto.
      * intros [[-> ->] | [Nk (i & Li & Ei)]].
        -- exists e. rewrite Nat.eqb_refl. auto.
        -- exists i. split; auto. destruct (Nat.eqb_spec i e); auto. subst i. rewrite E in Ei. congruence.
    + split; [ exists e; auto | auto ].
  - rewrite E, Nat.eqb_refl. destruct C as [C | (b & C)]; [ | exfalso; eapply Ab; eauto ].
    destruct (insertInternal_ok x k a I C Ab) as (x' & E' & I' & C' & N' & Hs). rewrite E'. exists x', None. auto 6.
Qed.
Lemma iremove_ok x k : iinv x ->
  (iremove x k = (x, None) /\ forall a, ~ ihas x k a) \/
  (exists x' a, iremove x k = (x', Some a) /\ ihas x k a /\ iinv x' /\ icap x' = icap x /\ S (inum x') = inum x /\
     forall k1 a1, ihas x' k1 a1 <-> k1 <> k /\ ihas x k1 a1).
Proof.
  intro I. unfold iremove. destruct (ilookup_ok x k I) as [(L & _ & b & E) | (E & Ab)].
  - right. destruct (Nat.eqb_spec (ilookup x k) (inum x)); [ lia | ]. set (e := ilookup x k) in *. eexists _, _. split; [ reflexivity | ]. rewrite E. cbn [snd].
    split; [ exists e; auto | ].
    set (n' := inum x - 1) in *. set (arr' := if e <? n' then move (iarr x) e (S e) (n' - e) else iarr x).
    assert (V : forall i, i < n' -> arr' i = if i <? e then iarr x i else iarr x (S i)).
    { intros i Li. unfold arr'. destruct (Nat.ltb_spec e n').
      - unfold move. destruct (Nat.leb_spec e i), (Nat.ltb_spec i (e + (n' - e))), (Nat.ltb_spec i e); cbn [andb]; try lia; auto. f_equal. lia.
      - destruct (Nat.ltb_spec i e); auto. lia. }
    pose proof (ii_sort _ I) as S.
    split; [ | split; [ auto | split; [ cbn; lia | ] ] ].
    + constructor; cbn [icap inum]; [ apply I | pose proof (ii_num _ I); lia | ]. intros i j Hij. unfold key. cbn [iarr]. rewrite !V by lia. unfold key in S.
      destruct (Nat.ltb_spec i e), (Nat.ltb_spec j e); try lia; apply S; lia.
    + intros k1 a1. unfold ihas. cbn [inum iarr]. split.
      * intros (i & Li & Ei). rewrite V in Ei by auto. destruct (Nat.ltb_spec i e).
        -- split; [ | exists i; split; auto; lia ]. intro; subst k1. assert (i = e); [ | lia ]. apply (key_inj x); auto; [ lia | ]. unfold key. rewrite Ei, E. auto.
        -- split; [ | exists (Datatypes.S i); split; auto; lia ]. intro; subst k1. assert (Datatypes.S i = e); [ | lia ]. apply (key_inj x); auto; [ lia | ]. unfold key. rewrite Ei, E. auto.
      * intros (Nk & i & Li & Ei). assert (i <> e) by (intro; subst i; congruence). destruct (Nat.lt_ge_cases i e).
        -- exists i. split; [ lia | ]. rewrite V by lia. destruct (Nat.ltb_spec i e); [ auto | lia ].
        -- exists (i - 1). split; [ lia | ]. rewrite V by lia. destruct (Nat.ltb_spec (i - 1) e); [ lia | ]. replace (Datatypes.S (i - 1)) with i by lia. auto.
  - left. rewrite E, Nat.eqb_refl. auto.
Qed.
Lemma beforeFrom_ok x k : iinv x -> forall fuel cur, inum x < fuel + cur -> cur <= inum x -> (forall i, i < cur -> (key x i < k)%N) ->
  let c := beforeFrom fuel x k cur in c <= inum x /\ (forall i, i < c -> (key x i < k)%N) /\ (c < inum x -> (k <= key x c)%N).
Proof.
  intro I. induction fuel as [ | f IH]; intros cur Lf Le Lo; [ lia | ]. cbn [beforeFrom].
  destruct (Nat.eqb_spec cur (inum x)) as [E | E]; cbn [negb andb]; [ split; auto; split; auto; lia | ].
  destruct (N.ltb_spec (fst (iarr x cur)) k) as [Lt | Ge].
  - apply IH; try lia. intros i Hi. destruct (Nat.eq_dec i cur) as [-> | Ne]; [ exact Lt | apply Lo; lia ].
  - split; auto.
Qed.
Lemma iremoveBefore_ok x k : iinv x -> exists x' c, iremoveBefore x k = (x', map (fun i => snd (iarr x i)) (seq 0 c)) /\ c <= inum x /\
  iinv x' /\ icap x' = icap x /\ (forall i, i < inum x -> i < c <-> (key x i < k)%N) /\
  (forall k1 a1, ihas x' k1 a1 <-> (k <= k1)%N /\ ihas x k1 a1).
Proof.
  intro I. unfold iremoveBefore. destruct (beforeFrom_ok x k I (S (inum x)) 0) as (Le & Lo & Hi); try lia.
  set (c := beforeFrom (S (inum x)) x k 0) in *. clearbody c.
  assert (P : forall i, i < inum x -> i < c <-> (key x i < k)%N).
  { intros i Li. split; [ apply Lo | ]. intro Lt. destruct (Nat.lt_ge_cases i c); auto. exfalso.
    assert (k <= key x c)%N by (apply Hi; lia). destruct (Nat.eq_dec i c) as [-> | Ne]; [ lia | ]. pose proof (ii_sort _ I c i). lia. }
  eexists _, c. split; [ reflexivity | ]. split; auto.
  destruct (Nat.eqb_spec c 0) as [E0 | N0].
  - split; auto. split; auto. split; auto. intros k1 a1. split; [ intros (i & Li & Ei); split; [ | exists i; auto ] | tauto ].
    specialize (P i Li). unfold key in P. rewrite Ei in P. cbn [fst] in P. lia.
  - set (arr' := if c =? inum x then iarr x else move (iarr x) 0 c (inum x - c)).
    assert (V : forall i, i < inum x - c -> arr' i = iarr x (i + c)).
    { intros i Li. unfold arr'. destruct (Nat.eqb_spec c (inum x)); [ lia | ]. unfold move.
      destruct (Nat.leb_spec 0 i), (Nat.ltb_spec i (0 + (inum x - c))); cbn [andb]; try lia. f_equal. lia. }
    split; [ | split; [ auto | split; [ auto | ] ] ].
    + constructor; cbn [icap inum]; [ apply I | pose proof (ii_num _ I); lia | ]. intros i j Hij. unfold key. cbn [iarr]. rewrite !V by lia. apply (ii_sort _ I). lia.
    + intros k1 a1. unfold ihas. cbn [inum iarr]. split.
      * intros (i & Li & Ei). rewrite V in Ei by auto. split; [ | exists (i + c); split; [ lia | auto ] ].
        assert (~ key x (i + c) < k)%N by (rewrite <- P; lia). unfold key in *. rewrite Ei in *. cbn in *. lia.
      * intros (Lk & i & Li & Ei). assert (~ i < c) by (rewrite P by auto; unfold key; rewrite Ei; cbn; lia).
        exists (i - c). split; [ lia | ]. rewrite V by lia. replace (i - c + c) with i by lia. auto.
Qed.

Section P.
Variables (ks : N) (vsize : N -> N) (maxIndex : nat).
Hypothesis Hks : (1 <= ks)%N.
Hypothesis Hsize : forall v, (ks + vsize v < 2 ^ 32 - 4)%N.
Definition kv (ls : list (list (N * slot))) (k v : N) : Prop := exists a, In (a, (k, v)) (lv ls 0).
Definition abs (ls : list (list (N * slot))) (M : fmap) : Prop := forall k v, M k = Some v <-> kv ls k v.
Definition link (x : index) (ls : list (list (N * slot))) : Prop := forall k a, ihas x k a <-> exists v, In (a, (k, v)) (lv ls 0).
Record rinv (m : rmap) (ls : list (list (N * slot))) : Prop := RInv { ri_i : iinv (ix m); ri_b : minv (rbufs m) ls; ri_l : link (ix m) ls }.

Lemma nodup_fun {A B} (l : list (A * B)) a b b' : NoDup (map fst l) -> In (a, b) l -> In (a, b') l -> b = b'.
Proof.
  induction l as [ | [x y] l IH]; cbn; intros ND H1 H2; [ tauto | ]. inversion ND as [ | ? ? Ni ND']; subst.
  destruct H1 as [E1 | H1], H2 as [E2 | H2]; try congruence.
  - inversion E1; subst. exfalso. apply Ni. apply in_map_iff. exists (a, b'). auto.
  - inversion E2; subst. exfalso. apply Ni. apply in_map_iff. exists (a, b). auto.
  - eauto.
Qed.
Lemma rinv_key m ls a a' k v v' : rinv m ls -> In (a, (k, v)) (lv ls 0) -> In (a', (k, v')) (lv ls 0) -> a = a' /\ v = v'.
Proof.
  intros [T B L] H1 H2. assert (a = a') by (eapply ihas_fun; [ exact T | apply L | apply L ]; eauto). subst a'. split; auto.
  pose proof (nodup_fun _ _ _ _ (lv_nodup _ _ B) H1 H2). congruence.
Qed.
Lemma abs_none ls M k : abs ls M -> M k = None <-> forall v, ~ kv ls k v.
Proof.
  intro A. split.
  - intros E v Hk. apply A in Hk. congruence.
  - intro Nk. destruct (M k) eqn:E; auto. exfalso. eapply Nk. apply A. eauto.
Qed.
Lemma absent_none m ls M k : rinv m ls -> abs ls M -> (forall a, ~ ihas (ix m) k a) -> M k = None.
Proof. intros [T B L] A Nk. apply (abs_none ls M k A). intros v (a & Hin). eapply Nk. apply L. eauto. Qed.
Lemma here_some m ls M k a : rinv m ls -> abs ls M -> ihas (ix m) k a -> exists v, M k = Some v /\ In (a, (k, v)) (lv ls 0).
Proof. intros [T B L] A Hh. apply L in Hh. destruct Hh as (v & Hv). exists v. split; auto. apply A. exists a. auto. Qed.
Lemma kv_keys_nodup m ls : rinv m ls -> NoDup (map fst (map snd (lv ls 0))).
Proof.
  intro H. pose proof (lv_nodup _ _ (ri_b _ _ H)) as ND.
  assert (K : forall a a' k v v', In (a, (k, v)) (lv ls 0) -> In (a', (k, v')) (lv ls 0) -> a = a') by (intros; edestruct (rinv_key m ls a a'); eauto).
  revert ND K. induction (lv ls 0) as [ | [a [k v]] l IH]; cbn; intros ND K; [ constructor | ]. inversion ND as [ | ? ? Ni ND']; subst. constructor.
  - intro Hin. rewrite map_map in Hin. apply in_map_iff in Hin. destruct Hin as ([a' [k' v']] & E & Hin). cbn in E. subst k'.
    assert (a = a') by (eapply K; [ left; reflexivity | right; eauto ]). subst a'. apply Ni. apply in_map_iff. exists (a, (k, v')). auto.
  - apply IH; auto. intros; eapply K; right; eauto.
Qed.
Lemma in_vals ls k v : In (k, v) (map snd (lv ls 0)) <-> kv ls k v.
Proof.
  unfold kv. rewrite in_map_iff. split.
  - intros ([a [k' v']] & E & Hin). cbn in E. inversion E; subst. eauto.
  - intros (a & Hin). exists (a, (k, v)). auto.
Qed.
Lemma abs_vals ls ls' M : abs ls M -> map snd (lv ls' 0) = map snd (lv ls 0) -> abs ls' M.
Proof. intros A E k v. rewrite (A k v), <- !in_vals, E. tauto. Qed.

Lemma reindexR_ok : forall l x, iinv x -> NoDup (map fst (map snd l)) -> (forall k, In k (map fst (map snd l)) -> exists a, ihas x k a) ->
  exists x', reindexR l x = Some x' /\ iinv x' /\ icap x' = icap x /\ inum x' = inum x /\
    (forall k a, ihas x' k a <-> (exists v, In (a, (k, v)) l) \/ (~ In k (map fst (map snd l)) /\ ihas x k a)).
Proof.
  induction l as [ | [a [k v]] l IH]; intros x T ND P; cbn [reindexR].
  - exists x. split; auto. split; auto. split; auto. split; auto. intros k a. split; [ intro; right; split; auto | intros [(v & []) | [_ ?]]; auto ].
  - cbn in ND, P. inversion ND as [ | ? ? Ni ND']; subst.
    destruct (insertOrReplace_ok x k a T) as (x1 & old & E & T1 & C1 & Hs & Ho); [ right; apply P; auto | ].
    rewrite E. destruct old as [o | ].
    2:{ exfalso. destruct (P k) as (a0 & Ha0); auto. destruct Ho as [Ho _]. eapply Ho; eauto. }
    destruct Ho as [Ho Hn].
    destruct (IH x1) as (x' & E' & T' & C' & N' & Hs'); auto.
    + intros k1 Hk1. destruct (P k1) as (a1 & Ha1); auto. exists a1. apply Hs. right. split; auto. intro; subst; auto.
    + exists x'. split; auto. split; auto. split; [ congruence | ]. split; [ congruence | ]. intros k1 a1. rewrite Hs', Hs. cbn [map fst snd In]. split.
      * intros [(v1 & Hin) | [N1 [[-> ->] | [N2 Hh]]]].
        -- left. eauto.
        -- left. exists v. auto.
        -- right. split; auto. intros [Ek | Hk]; auto.
      * intros [(v1 & [Ein | Hin]) | [N1 Hh]].
        -- inversion Ein; subst. right. split; auto.
        -- left. eauto.
        -- right. split; auto. right. split; auto.
Qed.
Lemma compactR_ok m ls : rinv m ls -> exists m' ls', compactR m = Some m' /\ rinv m' ls' /\ map snd (lv ls' 0) = map snd (lv ls 0) /\
    icap (ix m') = icap (ix m) /\ inum (ix m') = inum (ix m) /\ rpub m' = rpub m /\ length (rbufs m') = length (rbufs m).
Proof.
  intros H. pose proof H as [T B L]. unfold compactR. destruct (mCompact_ok _ _ B) as (b' & ls' & E & B' & Ln & Ev). rewrite E.
  rewrite (mIterate_ok _ _ B').
  destruct (reindexR_ok (lv ls' 0) (ix m) T) as (t' & E' & T' & C' & N' & Hs).
  - rewrite Ev. eapply kv_keys_nodup; eauto.
  - intros k Hk. rewrite Ev in Hk. apply in_map_iff in Hk. destruct Hk as ([k' v] & Ek & Hin). cbn in Ek. subst k'. apply in_vals in Hin. destruct Hin as (a & Hin).
    exists a. apply L. eauto.
  - rewrite E'. eexists _, ls'. split; [ reflexivity | ]. cbn [ix rbufs rpub]. split; [ | auto 6 ]. constructor; cbn [ix rbufs rpub]; auto.
    intros k a. rewrite Hs. split; auto. intros [Hv | [Nk Hh]]; auto. exfalso. apply Nk. rewrite Ev. apply L in Hh. destruct Hh as (v & Hin).
    apply in_map_iff. exists (k, v). split; auto. apply in_vals. exists a. auto.
Qed.
Lemma maybeCompact_ok m ls : rinv m ls -> exists m' ls', maybeCompact m = Some m' /\ rinv m' ls' /\ map snd (lv ls' 0) = map snd (lv ls 0) /\
    icap (ix m') = icap (ix m) /\ inum (ix m') = inum (ix m) /\ rpub m' = rpub m /\ length (rbufs m') = length (rbufs m).
Proof.
  intro H. unfold maybeCompact. destruct (wastedPct_ok _ _ (ri_b _ _ H)) as (w & ->). destruct (50 <? w)%N; [ apply compactR_ok; auto | ]. exists m, ls. auto 8.
Qed.
Lemma size_ok v : u32 (ks + vsize v) = (ks + vsize v)%N /\ (1 <= ks + vsize v < 4294967292)%N.
Proof. specialize (Hsize v). consts. split; [ apply u32_small; lia | lia ]. Qed.

(** index and buffers before the allocation, the result of allocating *)
Lemma finishR x b ls M k v b1 a p : rinv (mkR x b p) ls -> abs ls M -> inum x < icap x -> mAllocate b (u32 (ks + vsize v)) = Some (b1, a) ->
  exists m' ls', (let* b := mWrite b1 a (u32 (ks + vsize v)) (k, v) in
    let* (x, old) := insertOrReplace x k a in
    match old with
    | Some o => let* b' := mRemove b o in Some (mkR x b' p, RReplaced true)
    | None => Some (mkR x b p, RReplaced false)
    end) = Some (m', RReplaced (present M k)) /\ rinv m' ls' /\ abs ls' (fset M k (Some v)) /\ rpub m' = p.
Proof.
  intros H A Nf E. pose proof H as [T B L]. cbn [ix rbufs] in *. destruct (size_ok v) as (Es & S1 & S2).
  rewrite Es in *. destruct (alloc_write _ _ _ (k, v) _ _ B S1 S2 E) as (m2 & ls2 & E2 & B2 & Ln & Na & Hin & Fr). rewrite E2.
  destruct (insertOrReplace_ok x k a T (or_introl Nf)) as (t & old & Et & T' & C' & Hs & Ho). rewrite Et.
  assert (G : forall b' ls', minv b' ls' -> (forall a1 k1 v1, In (a1, (k1, v1)) (lv ls' 0) <-> (a1 = a /\ k1 = k /\ v1 = v) \/ (k1 <> k /\ In (a1, (k1, v1)) (lv ls 0))) ->
              rinv (mkR t b' p) ls' /\ abs ls' (fset M k (Some v))).
  { intros b' ls' B' In3. split.
    - constructor; cbn [ix rbufs]; auto. intros k1 a1. rewrite Hs. split.
      * intros [[-> ->] | [Nk Hh]]; [ exists v; apply In3; auto | ]. apply L in Hh. destruct Hh as (v1 & Hv). exists v1. apply In3. auto.
      * intros (v1 & Hv). apply In3 in Hv. destruct Hv as [(-> & -> & ->) | [Nk Hv]]; auto. right. split; auto. apply L. eauto.
    - intros k1 v1. unfold fset, kv. destruct (N.eqb_spec k1 k) as [-> | Nk].
      * split; [ intro Ev; inversion Ev; subst; exists a; apply In3; auto | ]. intros (a1 & Hv). apply In3 in Hv. destruct Hv as [(_ & _ & ->) | [? _]]; congruence.
      * rewrite (A k1 v1). unfold kv. split; intros (a1 & Hv); exists a1; [ apply In3; auto | apply In3 in Hv ]. destruct Hv as [(_ & ? & _) | [_ ?]]; auto. congruence. }
  destruct old as [o | ]; destruct Ho as [Ho Hn].
  - pose proof Ho as Ho'. apply L in Ho'. destruct Ho' as (v0 & H0).
    assert (H0' : In (o, (k, v0)) (lv ls2 0)) by (apply Hin; auto).
    destruct (mRemove_ok _ _ _ _ B2 H0') as (m3 & ls3 & E3 & B3 & Ln3 & Hin3). rewrite E3.
    assert (Noa : o <> a) by (intro; subst o; eapply Fr; eauto).
    assert (P : present M k = true) by (unfold present; assert (X : M k = Some v0) by (apply A; exists o; auto); rewrite X; auto). rewrite P.
    destruct (G m3 ls3 B3) as [H' A']; [ | eexists _, ls3; split; [ reflexivity | split; auto ] ].
    intros a1 k1 v1. rewrite Hin3, Hin. split.
    + intros [[Hl | [-> Ep]] Na1].
      * right. split; auto. intro; subst k1. apply Na1. edestruct (rinv_key _ ls a1 o k v1 v0 H); eauto.
      * left. inversion Ep; auto.
    + intros [(-> & -> & ->) | [Nk Hl]].
      * split; auto.
      * split; auto. intro; subst a1. apply Nk. pose proof (nodup_fun _ _ _ _ (lv_nodup _ _ B) Hl H0). congruence.
  - assert (Nk0 : forall v0, ~ kv ls k v0). { intros v0 (a0 & Hv). eapply (Ho a0). apply L. eauto. }
    assert (P : present M k = false) by (unfold present; rewrite (proj2 (abs_none ls M k A) Nk0); auto). rewrite P.
    destruct (G m2 ls2 B2) as [H' A']; [ | eexists _, ls2; split; [ reflexivity | split; auto ] ].
    intros a1 k1 v1. rewrite Hin. split.
    + intros [Hl | [-> Ep]].
      * right. split; auto. intro; subst k1. eapply Nk0. exists a1. eauto.
      * left. inversion Ep; auto.
    + intros [(-> & -> & ->) | [Nk Hl]]; auto.
Qed.

Definition rthrown (o : rout) : Prop := o = RBadAlloc \/ o = RInvalid.
Definition rfits (m : rmap) (v : N) (al : list bool) : Prop :=
  al = [] /\ (4 + ks + vsize v < maxCapacity)%N /\ 2 * icap (ix m) <= maxIndex /\ (N.of_nat (length (rbufs m)) < maxItems)%N.
Lemma cloneAlloc_ok m ls M size grow al : rinv m ls -> abs ls M -> (1 <= size < 4294967292)%N -> (grow = false -> inum (ix m) < icap (ix m)) ->
  exists r, cloneAlloc maxIndex m size grow al = Some r /\
    match r with
    | inr o => rthrown o /\ ~ (al = [] /\ (4 + size < maxCapacity)%N /\ 2 * icap (ix m) <= maxIndex /\ (N.of_nat (length (rbufs m)) < maxItems)%N)
    | inl (m', a) => rpub m' = rpub m /\ inum (ix m') < icap (ix m') /\
        exists b ls', rinv (mkR (ix m') b (rpub m')) ls' /\ abs ls' M /\ mAllocate b size = Some (rbufs m', a)
    end.
Proof.
  intros H A Sz Gr. pose proof H as [T B L]. unfold cloneAlloc.
  set (c := if grow then icap (ix m) * 2 else icap (ix m)).
  assert (Hc : icap (ix m) <= c <= 2 * icap (ix m) /\ inum (ix m) < c).
  { pose proof (ii_cap _ T). pose proof (ii_num _ T). unfold c. destruct grow; [ lia | ]. specialize (Gr eq_refl). lia. }
  destruct (Nat.ltb_spec maxIndex c) as [Lm | Lm].
  { eexists. split; [ reflexivity | ]. split; [ right; auto | ]. intros (_ & _ & F & _). lia. }
  destruct (take al) as [ok al1] eqn:Et. destruct ok; cbn [negb].
  2:{ eexists. split; [ reflexivity | ]. split; [ left; auto | ]. intros (-> & _). discriminate. }
  unfold cloneIndex. destruct (Nat.ltb_spec c (inum (ix m))); [ lia | ].
  assert (T2 : iinv (mkI c (inum (ix m)) (iarr (ix m)))).
  { constructor; cbn [icap inum]; [ lia | lia | ]. apply (ii_sort _ T). }
  assert (R2 : forall b ls', minv b ls' -> lv ls' 0 = lv ls 0 -> forall p, rinv (mkR (mkI c (inum (ix m)) (iarr (ix m))) b p) ls' /\ abs ls' M).
  { intros b ls' B' Ev p. split; [ constructor; cbn [ix rbufs]; auto | ].
    - intros k a. rewrite Ev. apply L.
    - intros k v. unfold kv. rewrite Ev. apply A. }
  destruct (mClone (rbufs m) al1) as [[b | ] al2] eqn:Ec.
  2:{ eexists. split; [ reflexivity | ]. split; [ left; auto | ]. intros (-> & _). inversion Et; subst. rewrite mClone_all in Ec. discriminate. }
  pose proof (mClone_id _ _ _ Ec) as Eb. cbn in Eb. subst b.
  destruct (mAllocate (rbufs m) size) as [[b' a] | ] eqn:Ea.
  { eexists. split; [ reflexivity | ]. cbn [ix rbufs rpub icap inum]. split; auto. split; [ lia | ]. exists (rbufs m), ls. destruct (R2 _ _ B eq_refl (rpub m)). auto. }
  pose proof (mExpand_ok (rbufs m) ls size al2 B (proj2 Sz)) as X. destruct (mExpand (rbufs m) size al2) as [[b1 | ] al3] eqn:Ex.
  - destruct X as (ls4 & B4 & Ev4 & Ln4 & bb & Hbb & Cbb). destruct (mAllocate b1 size) as [[b' a] | ] eqn:Ea4.
    + eexists. split; [ reflexivity | ]. cbn [ix rbufs rpub icap inum]. split; auto. split; [ lia | ]. exists b1, ls4. destruct (R2 _ _ B4 Ev4 (rpub m)). auto.
    + eexists. split; [ reflexivity | ]. split; [ left; auto | ]. intros (_ & F & _). rewrite (mAllocate_none b1 ls4 size B4) in Cbb; auto; try lia; discriminate.
  - eexists. split; [ reflexivity | ]. split; [ left; auto | ]. intros (-> & F2 & _ & F4). inversion Et; subst. rewrite mClone_all in Ec. inversion Ec; subst.
    destruct (mExpand_succeeds (rbufs m) size) as (m' & Em); [ lia | auto | ]. rewrite Ex in Em. discriminate.
Qed.
Lemma insertR_ok m ls M k v al : rinv m ls -> abs ls M ->
  exists m' o, insertR ks vsize maxIndex m k v al = Some (m', o) /\ rpub m' = rpub m /\
    ((o = RReplaced (present M k) /\ exists ls', rinv m' ls' /\ abs ls' (fset M k (Some v))) \/
     (rthrown o /\ ~ rfits m v al /\ exists ls', rinv m' ls' /\ abs ls' M)).
Proof.
  intros H A. unfold insertR. pose proof (maybeCompact_ok m ls H) as X. unfold maybeCompact in X.
  destruct (wastedPct_ok _ _ (ri_b _ _ H)) as (w & Ew). rewrite Ew in *.
  destruct X as (m1 & ls1 & E1 & H1 & Ev & C1 & N1 & P1 & Ln1). rewrite E1. pose proof (abs_vals _ _ _ A Ev) as A1. pose proof H1 as [T1 B1 L1].
  destruct (size_ok v) as (Es & Sz).
  assert (X : exists r, (if ioverLimit (ix m1) then cloneAlloc maxIndex m1 (u32 (ks + vsize v)) true al
             else match mAllocate (rbufs m1) (u32 (ks + vsize v)) with
                  | Some (b, a) => Some (inl (mkR (ix m1) b (rpub m1), a))
                  | None => cloneAlloc maxIndex m1 (u32 (ks + vsize v)) false al
                  end) = Some r /\
    match r with
    | inr o => rthrown o /\ ~ rfits m v al
    | inl (m', a) => rpub m' = rpub m /\ inum (ix m') < icap (ix m') /\
        exists b ls', rinv (mkR (ix m') b (rpub m')) ls' /\ abs ls' M /\ mAllocate b (u32 (ks + vsize v)) = Some (rbufs m', a)
    end).
  { assert (CL : forall grow, (grow = false -> inum (ix m1) < icap (ix m1)) -> exists r, cloneAlloc maxIndex m1 (u32 (ks + vsize v)) grow al = Some r /\
      match r with
      | inr o => rthrown o /\ ~ rfits m v al
      | inl (m', a) => rpub m' = rpub m /\ inum (ix m') < icap (ix m') /\
          exists b ls', rinv (mkR (ix m') b (rpub m')) ls' /\ abs ls' M /\ mAllocate b (u32 (ks + vsize v)) = Some (rbufs m', a)
      end).
    { intros grow Gr. destruct (cloneAlloc_ok m1 ls1 M (u32 (ks + vsize v)) grow al H1 A1) as (r & Er & Hr); [ rewrite Es; auto | auto | ]. exists r. split; auto.
      destruct r as [[m' a] | o]; [ rewrite P1 in Hr; exact Hr | ]. destruct Hr as [Th Nf]. split; auto. intros (F1 & F2 & F3 & F4). apply Nf.
      rewrite C1, Ln1, Es. split; [ auto | split; [ lia | auto ] ]. }
    destruct (ioverLimit (ix m1)) eqn:O; [ apply CL; discriminate | ].
    assert (Lc : inum (ix m1) < icap (ix m1)).
    { unfold ioverLimit in O. apply orb_false_iff in O. destruct O as [O _]. pose proof (ii_cap _ T1). destruct (Nat.eqb_spec (icap (ix m1)) 0); [ lia | ].
      apply Nat.leb_gt in O. lia. }
    destruct (mAllocate (rbufs m1) (u32 (ks + vsize v))) as [[b a] | ] eqn:Ea; [ | apply CL; auto ].
    eexists. split; [ reflexivity | ]. cbn [ix rbufs rpub]. split; auto. split; auto. exists (rbufs m1), ls1. split; auto. constructor; auto. }
  destruct X as (r & Er & Hr). rewrite Er. destruct r as [[m' a] | o].
  - destruct Hr as (P' & Lc & b & ls' & H' & A' & Ea).
    destruct (finishR (ix m') b ls' M k v (rbufs m') a (rpub m') H' A' Lc Ea) as (m2 & ls2 & Ef & H2 & A2 & P2). rewrite Ef.
    exists m2, (RReplaced (present M k)). split; auto. split; [ congruence | ]. left. eauto.
  - destruct Hr as [Th Nf]. exists m1, o. split; auto. split; auto. right. split; auto. split; auto. eauto.
Qed.

(** ** walking *)
Definition val (ls : list (list (N * slot))) (x : index) (i : nat) : N * N :=
  match find (fun e => (fst e =? snd (iarr x i))%N) (lv ls 0) with Some e => snd e | None => (0%N, 0%N) end.
Lemma val_ok m ls i : rinv m ls -> i < inum (ix m) -> In (snd (iarr (ix m) i), val ls (ix m) i) (lv ls 0) /\ fst (val ls (ix m) i) = key (ix m) i.
Proof.
  intros [T B L] Li. assert (Hh : ihas (ix m) (key (ix m) i) (snd (iarr (ix m) i))) by (exists i; split; auto; unfold key; destruct (iarr (ix m) i); auto).
  apply L in Hh. destruct Hh as (v & Hin). unfold val. destruct (find (fun e => (fst e =? snd (iarr (ix m) i))%N) (lv ls 0)) as [[a p] | ] eqn:F.
  - apply find_some in F. cbn in F. destruct F as [F E]. apply N.eqb_eq in E. subst a. cbn [snd]. split; auto.
    pose proof (nodup_fun _ _ _ _ (lv_nodup _ _ B) F Hin). subst p. auto.
  - exfalso. pose proof (find_none _ _ F _ Hin) as E. cbn in E. rewrite N.eqb_refl in E. discriminate.
Qed.
Lemma readFrom_ok m ls : rinv m ls -> forall n i, i + n <= inum (ix m) -> readFrom (rbufs m) (iarr (ix m)) i n = Some (map (val ls (ix m)) (seq i n)).
Proof.
  intro H. induction n as [ | n IH]; intros i Li; cbn [readFrom seq map]; auto. destruct (val_ok m ls i H) as [V _]; [ lia | ].
  rewrite (mRead_ok _ _ _ _ (ri_b _ _ H) V). rewrite IH by lia. auto.
Qed.
Lemma walk_ok m ls i j : rinv m ls -> i <= j <= inum (ix m) -> DtRange_model.walk m i j = Some (map (val ls (ix m)) (seq i (j - i))).
Proof. intros H L. unfold DtRange_model.walk. destruct (Nat.ltb_spec j i); [ lia | ]. apply readFrom_ok; auto. lia. Qed.
Lemma vals_sorted m ls : rinv m ls -> forall n i, i + n <= inum (ix m) -> StronglySorted (fun x y => (fst x < fst y)%N) (map (val ls (ix m)) (seq i n)).
Proof.
  intro H. induction n as [ | n IH]; intros i Li; cbn [seq map]; constructor.
  - apply IH. lia.
  - apply Forall_forall. intros e He. apply in_map_iff in He. destruct He as (j & <- & Hj). apply in_seq in Hj.
    destruct (val_ok m ls i H) as [_ ->]; [ lia | ]. destruct (val_ok m ls j H) as [_ ->]; [ lia | ]. apply (ii_sort _ (ri_i _ _ H)). lia.
Qed.
Lemma vals_in m ls M i n : rinv m ls -> abs ls M -> i + n <= inum (ix m) -> forall k v,
  In (k, v) (map (val ls (ix m)) (seq i n)) <-> M k = Some v /\ exists x, i <= x < i + n /\ key (ix m) x = k.
Proof.
  intros H A Li k v. rewrite in_map_iff. split.
  - intros (x & E & Hx). apply in_seq in Hx. destruct (val_ok m ls x H) as [V1 V2]; [ lia | ]. rewrite E in *. cbn in V2. split; [ | exists x; split; auto ].
    apply A. exists (snd (iarr (ix m) x)). auto.
  - intros (Ev & x & Hx & Ek). exists x. split; [ | apply in_seq; lia ]. destruct (val_ok m ls x H) as [V1 V2]; [ lia | ]. rewrite Ek in V2.
    apply A in Ev. destruct Ev as (a & Hin). destruct (val ls (ix m) x) as [k' v'] eqn:E. cbn in V2. subst k'.
    destruct (rinv_key m ls _ _ _ _ _ H V1 Hin). congruence.
Qed.
Lemma key_of m ls M k v : rinv m ls -> abs ls M -> M k = Some v -> exists x, x < inum (ix m) /\ key (ix m) x = k.
Proof.
  intros H A E. apply A in E. destruct E as (a & Hin). assert (Hh : ihas (ix m) k a) by (apply (ri_l _ _ H); eauto). destruct Hh as (x & Lx & Ex). exists x. split; auto. unfold key. rewrite Ex. auto.
Qed.
Lemma slice_ok m ls M (lo hi : N -> Prop) i j : rinv m ls -> abs ls M -> i <= j <= inum (ix m) ->
  (forall x, x < inum (ix m) -> (i <= x < j <-> lo (key (ix m) x) /\ hi (key (ix m) x))) -> slice M lo hi (map (val ls (ix m)) (seq i (j - i))).
Proof.
  intros H A L C. split; [ apply vals_sorted; auto; lia | ]. intros k v. rewrite (vals_in m ls M) by (auto; lia). split.
  - intros (E & x & Hx & <-). split; auto. apply C; lia.
  - intros (E & Hlh). split; auto. destruct (key_of m ls M k v H A E) as (x & Lx & <-). exists x. split; auto. apply C in Hlh; auto. lia.
Qed.
Lemma all_keys m ls M : rinv m ls -> abs ls M -> forall c, c <= inum (ix m) ->
  NoDup (map (key (ix m)) (seq 0 c)) /\ forall k, In k (map (key (ix m)) (seq 0 c)) <-> M k <> None /\ exists x, x < c /\ key (ix m) x = k.
Proof.
  intros H A c Lc. split.
  - assert (G : forall n i, i + n <= inum (ix m) -> NoDup (map (key (ix m)) (seq i n))).
    { induction n as [ | n IH]; intros i Li; cbn [seq map]; constructor; [ | apply IH; lia ].
      intro Hin. apply in_map_iff in Hin. destruct Hin as (j & E & Hj). apply in_seq in Hj. assert (j = i); [ | lia ]. apply (key_inj (ix m)); auto; try lia. apply H. }
    apply G. lia.
  - intro k. rewrite in_map_iff. split.
    + intros (x & E & Hx). apply in_seq in Hx. split; [ | exists x; split; auto; lia ].
      destruct (here_some m ls M k (snd (iarr (ix m) x)) H A) as (v & Ev & _); [ | congruence ]. exists x. split; [ lia | ]. unfold key in E. destruct (iarr (ix m) x); cbn in *; congruence.
    + intros (_ & x & Lx & E). exists x. split; auto. apply in_seq. lia.
Qed.

Lemma removeAll_ok : forall l m ls, minv m ls -> NoDup l -> (forall a, In a l -> exists p, In (a, p) (lv ls 0)) ->
  exists m' ls', removeAll m l = Some m' /\ minv m' ls' /\ length m' = length m /\ forall a p, In (a, p) (lv ls' 0) <-> In (a, p) (lv ls 0) /\ ~ In a l.
Proof.
  induction l as [ | a l IH]; intros m ls B ND P; cbn [removeAll].
  - exists m, ls. split; auto. split; auto. split; auto. intros. cbn. tauto.
  - inversion ND as [ | ? ? Ni ND']; subst. destruct (P a) as (p & Hp); [ left; auto | ]. destruct (mRemove_ok _ _ _ _ B Hp) as (m1 & ls1 & E1 & B1 & Ln1 & In1). rewrite E1.
    destruct (IH m1 ls1 B1 ND') as (m' & ls' & E' & B' & Ln' & In').
    + intros a' Ha'. destruct (P a') as (p' & Hp'); [ right; auto | ]. exists p'. apply In1. split; auto. intro; subst a'. contradiction.
    + exists m', ls'. split; auto. split; auto. split; [ congruence | ]. intros a' p'. rewrite In', In1. cbn. split; [ intros [[X Y] Z]; split; auto; intros [W | W]; auto | ].
      intros [X Y]. split; [ split; auto | auto ].
Qed.

(** ** one call *)
Lemma rexec_ok m ls M c : rinv m ls -> abs ls M -> ordered c ->
  exists m' o ls' M', rexec ks vsize maxIndex m c = Some (m', o) /\ rpub m' = (match c with RPublish => true | _ => rpub m end) /\
    rinv m' ls' /\ abs ls' M' /\ rstep M c o M' /\ (rthrown o -> match c with RInsert _ v al | RUpsert _ v al => ~ rfits m v al | _ => True end).
Proof.
  intros H A Ord. pose proof H as [T B L].
  assert (Same : forall o, rstep M c o M -> ~ rthrown o -> (forall x, c <> RPublish -> x = rpub m -> x = (match c with RPublish => true | _ => rpub m end)) -> c <> RPublish ->
    rexec ks vsize maxIndex m c = Some (m, o) -> exists m' o ls' M', rexec ks vsize maxIndex m c = Some (m', o) /\ rpub m' = (match c with RPublish => true | _ => rpub m end) /\
    rinv m' ls' /\ abs ls' M' /\ rstep M c o M' /\ (rthrown o -> match c with RInsert _ v al | RUpsert _ v al => ~ rfits m v al | _ => True end)).
  { intros o St Nt Pp Np E. exists m, o, ls, M. split; auto. split; [ apply Pp; auto | ]. split; auto. split; auto. split; auto. intro; contradiction. }
  assert (Nt : forall l, ~ rthrown (RList l)) by (intros l [ | ]; discriminate).
  destruct c as [k | k v al | k v al | k | k | k1 k2 | k1 k2 | | | | ].
  - (* lookup *)
    destruct (ilookup_ok (ix m) k T) as [(Lt & El & a & E) | (E & Ab)].
    + destruct (lower_ok (ix m) k T) as (_ & Lo & Hi). rewrite <- El in *.
      eapply Same; auto; try discriminate; [ | cbn [rexec]; rewrite (walk_ok m ls) by (auto; lia); reflexivity ].
      apply TLookup.
      * destruct (here_some m ls M k a H A) as (v & Ev & _); [ exists (ilookup (ix m) k); auto | congruence ].
      * apply slice_ok; auto; [ lia | ]. intros x Lx. unfold anyKey. split; [ intro; split; auto; apply Hi; lia | ]. intros [Ge _].
        destruct (Nat.lt_ge_cases x (ilookup (ix m) k)) as [Lx' | ]; [ | lia ]. specialize (Lo x Lx'). lia.
    + eapply Same; auto; try discriminate.
      2:{ cbn [rexec]. rewrite E, (walk_ok m ls) by (auto; lia). rewrite Nat.sub_diag. reflexivity. }
      apply TLookupNo. eapply absent_none; eauto.
  - (* insert *)
    cbn [rexec]. destruct (ilookup_ok (ix m) k T) as [(Lt & El & a & E) | (E & Ab)].
    + destruct (Nat.eqb_spec (ilookup (ix m) k) (inum (ix m))); [ lia | ]. cbn [negb]. exists m, (RBool false), ls, M. split; auto. split; auto. split; auto. split; auto.
      split; [ | intros [ | ]; discriminate ]. apply TInsOld. destruct (here_some m ls M k a H A) as (v0 & Ev & _); [ exists (ilookup (ix m) k); auto | congruence ].
    + rewrite E, Nat.eqb_refl. cbn [negb]. assert (Ek : M k = None) by (eapply absent_none; eauto).
      destruct (insertR_ok m ls M k v al H A) as (m' & o & Ei & Ep & [(-> & ls' & H' & A') | (Th & Nf & ls' & H' & A')]); rewrite Ei.
      * exists m', (RBool true), ls', (fset M k (Some v)). split; auto. split; auto. split; auto. split; auto. split; [ constructor; auto | intros [ | ]; discriminate ].
      * exists m', o, ls', M. split; [ destruct Th; subst o; auto | ]. split; auto. split; auto. split; auto. split; [ apply TInsThrow; auto | auto ].
  - cbn [rexec]. destruct (insertR_ok m ls M k v al H A) as (m' & o & Ei & Ep & [(-> & ls' & H' & A') | (Th & Nf & ls' & H' & A')]); rewrite Ei.
    + exists m', (RReplaced (present M k)), ls', (fset M k (Some v)). split; auto. split; auto. split; auto. split; auto. split; [ constructor; auto | intros [ | ]; discriminate ].
    + exists m', o, ls', M. split; auto. split; auto. split; auto. split; auto. split; [ apply TUpsThrow; auto | auto ].
  - (* remove *)
    cbn [rexec]. destruct (iremove_ok (ix m) k T) as [(E & Ab) | (x' & a & E & Hh & T' & C' & N' & Hs)]; rewrite E.
    + assert (Ek : M k = None) by (eapply absent_none; eauto). eexists _, _, ls, (fset M k None). split; [ reflexivity | ]. split; auto. split; [ constructor; auto | ].
      split; [ | split; [ replace false with (present M k) by (unfold present; rewrite Ek; auto); constructor | intros [ | ]; discriminate ] ].
      intros k1 v1. unfold fset. destruct (N.eqb_spec k1 k) as [-> | Nk1]; [ | apply A ]. rewrite <- Ek. apply A.
    + destruct (here_some m ls M k a H A Hh) as (v & Ev & Hin). destruct (mRemove_ok _ _ _ _ B Hin) as (b' & ls' & E' & B' & Ln & Hi). rewrite E'.
      assert (In' : forall a1 k1 v1, In (a1, (k1, v1)) (lv ls' 0) <-> k1 <> k /\ In (a1, (k1, v1)) (lv ls 0)).
      { intros a1 k1 v1. rewrite Hi. split.
        - intros [Hl Na]. split; auto. intro; subst k1. apply Na. edestruct (rinv_key m ls a1 a); eauto.
        - intros [Nk Hl]. split; auto. intro; subst a1. apply Nk. pose proof (nodup_fun _ _ _ _ (lv_nodup _ _ B) Hl Hin). congruence. }
      assert (H' : rinv (mkR x' b' (rpub m)) ls').
      { constructor; cbn [ix rbufs]; auto. intros k1 a1. rewrite Hs. split.
        - intros [Nk Hk]. apply L in Hk. destruct Hk as (v1 & Hv). exists v1. apply In'. auto.
        - intros (v1 & Hv). apply In' in Hv. destruct Hv as [Nk Hv]. split; auto. apply L. eauto. }
      assert (A' : abs ls' (fset M k None)).
      { intros k1 v1. unfold fset, kv. destruct (N.eqb_spec k1 k) as [-> | Nk1].
        - split; [ discriminate | ]. intros (a1 & Hv). apply In' in Hv. destruct Hv; congruence.
        - rewrite (A k1 v1). unfold kv. split; intros (a1 & Hv); exists a1; [ apply In'; auto | apply In' in Hv; tauto ]. }
      destruct (maybeCompact_ok _ _ H') as (m2 & ls2 & E2 & H2 & Ev2 & _ & _ & P2 & _). rewrite E2.
      exists m2, (RBool true), ls2, (fset M k None). split; auto. split; [ auto | ]. split; auto. split; [ eapply abs_vals; eauto | ].
      split; [ replace true with (present M k) by (unfold present; rewrite Ev; auto); constructor | intros [ | ]; discriminate ].
  - (* removeBefore *)
    cbn [rexec]. destruct (iremoveBefore_ok (ix m) k T) as (x' & c & E & Lc & T' & C' & P & Hs). rewrite E.
    set (dl := map (fun i => snd (iarr (ix m) i)) (seq 0 c)).
    assert (Dl : forall a, In a dl <-> exists k1, (k1 < k)%N /\ ihas (ix m) k1 a).
    { intro a. unfold dl. rewrite in_map_iff. split.
      - intros (i & <- & Hi). apply in_seq in Hi. exists (key (ix m) i). split; [ apply P; lia | ]. exists i. split; [ lia | ]. unfold key. destruct (iarr (ix m) i); auto.
      - intros (k1 & Lk & i & Li & Ei). exists i. split; [ rewrite Ei; auto | ]. apply in_seq. assert (i < c); [ | lia ]. apply P; auto. unfold key. rewrite Ei. auto. }
    assert (LN : forall a v v', In (a, v) (lv ls 0) -> In (a, v') (lv ls 0) -> v = v') by (intros a v v'; apply (nodup_fun _ _ _ _ (lv_nodup _ _ B))).
    assert (NDl : NoDup dl).
    { assert (G : forall n i, i + n <= inum (ix m) -> NoDup (map (fun i => snd (iarr (ix m) i)) (seq i n))); [ | apply G; lia ].
      induction n as [ | n IH]; intros i Li; cbn [seq map]; constructor; [ | apply IH; lia ].
      intro Hin. apply in_map_iff in Hin. destruct Hin as (j & Ej & Hj). apply in_seq in Hj.
      destruct (val_ok m ls i H) as [V1 V2]; [ lia | ]. destruct (val_ok m ls j H) as [V3 V4]; [ lia | ]. rewrite Ej in V3.
      pose proof (LN _ _ _ V1 V3) as Ev. rewrite Ev in V2. rewrite V2 in V4. assert (i = j); [ | lia ]. apply (key_inj (ix m)); auto; lia. }
    destruct (removeAll_ok dl (rbufs m) ls B NDl) as (b' & ls' & E' & B' & Ln & Hi).
    { intros a Ha. apply Dl in Ha. destruct Ha as (k1 & _ & Hh). apply L in Hh. destruct Hh as (v & Hv). eauto. }
    rewrite E'.
    assert (In' : forall a1 k1 v1, In (a1, (k1, v1)) (lv ls' 0) <-> (k <= k1)%N /\ In (a1, (k1, v1)) (lv ls 0)).
    { intros a1 k1 v1. rewrite Hi. split.
      - intros [Hl Na]. split; auto. destruct (N.lt_ge_cases k1 k); auto. exfalso. apply Na. apply Dl. exists k1. split; auto. apply L. eauto.
      - intros [Lk Hl]. split; auto. intro Hd. apply Dl in Hd. destruct Hd as (k2 & Lk2 & Hh). apply L in Hh. destruct Hh as (v2 & Hv2). pose proof (LN _ _ _ Hl Hv2). assert (k1 = k2) by congruence. lia. }
    assert (H' : rinv (mkR x' b' (rpub m)) ls').
    { constructor; cbn [ix rbufs]; auto. intros k1 a1. rewrite Hs. split.
      - intros [Nk Hk]. apply L in Hk. destruct Hk as (v1 & Hv). exists v1. apply In'. auto.
      - intros (v1 & Hv). apply In' in Hv. destruct Hv as [Nk Hv]. split; auto. apply L. eauto. }
    set (M' := fun x => if (x <? k)%N then None else M x).
    assert (A' : abs ls' M').
    { intros k1 v1. unfold M', kv. destruct (N.ltb_spec k1 k) as [Lt | Ge].
      - split; [ discriminate | ]. intros (a1 & Hv). apply In' in Hv. lia.
      - rewrite (A k1 v1). unfold kv. split; intros (a1 & Hv); exists a1; [ apply In'; auto | apply In' in Hv; tauto ]. }
    destruct (maybeCompact_ok _ _ H') as (m2 & ls2 & E2 & H2 & Ev2 & _ & _ & P2 & _). rewrite E2.
    exists m2, (RCount (length dl)), ls2, M'. split; auto. split; [ auto | ]. split; auto. split; [ eapply abs_vals; eauto | ]. split; [ | intros [ | ]; discriminate ].
    destruct (all_keys m ls M H A c Lc) as [ND Kin].
    replace (length dl) with (length (map (key (ix m)) (seq 0 c))) by (unfold dl; rewrite !map_length; auto).
    constructor; auto. intro x. rewrite Kin. split.
    + intros (Nn & y & Ly & Ey). split; auto. rewrite <- Ey. apply P; lia.
    + intros (Nn & Lx). split; auto. destruct (M x) as [v | ] eqn:Ex; [ | congruence ]. destruct (key_of m ls M x v H A Ex) as (y & Ly & Ey). exists y. split; auto. apply P; auto. rewrite Ey. auto.
  - (* rangeLookup *)
    cbn in Ord. destruct (ilookup_ok (ix m) k1 T) as [(Lt1 & El1 & a1 & E1) | (E1 & Ab1)].
    2:{ eapply Same; auto; try discriminate; [ | cbn [rexec]; rewrite E1, Nat.eqb_refl; reflexivity ]. apply TRangeNo. left. eapply absent_none; eauto. }
    destruct (ilookup_ok (ix m) k2 T) as [(Lt2 & El2 & a2 & E2) | (E2 & Ab2)].
    2:{ eapply Same; auto; try discriminate; [ | cbn [rexec]; rewrite E2, Nat.eqb_refl, orb_true_r; reflexivity ]. apply TRangeNo. right. eapply absent_none; eauto. }
    destruct (lower_ok (ix m) k1 T) as (_ & Lo1 & Hi1). rewrite <- El1 in *. destruct (lower_ok (ix m) k2 T) as (_ & Lo2 & Hi2). rewrite <- El2 in *.
    set (i := ilookup (ix m) k1) in *. set (j := ilookup (ix m) k2) in *.
    assert (Kj : key (ix m) j = k2) by (unfold key; rewrite E2; auto).
    assert (Lij : i <= j). { destruct (Nat.lt_ge_cases j i) as [Lx | ]; auto. specialize (Lo1 j Lx). lia. }
    eapply Same; auto; try discriminate.
    2:{ cbn [rexec]. fold i j. destruct (Nat.eqb_spec i (inum (ix m))); [ lia | ]. destruct (Nat.eqb_spec j (inum (ix m))); [ lia | ]. cbn [orb].
        rewrite (walk_ok m ls) by (auto; lia). reflexivity. }
    apply TRange.
    + destruct (here_some m ls M k1 a1 H A) as (v & Ev & _); [ exists i; auto | congruence ].
    + destruct (here_some m ls M k2 a2 H A) as (v & Ev & _); [ exists j; auto | congruence ].
    + apply slice_ok; [ auto | auto | lia | ]. intros x Lx. pose proof (ii_sort _ T) as S. split.
      * intro Hx. split; [ apply Hi1; lia | ]. destruct (Nat.eq_dec x j) as [-> | Nx]; [ lia | ]. specialize (Lo2 x). lia.
      * intros [G1 G2]. destruct (Nat.lt_ge_cases x i) as [Lx' | ]; [ specialize (Lo1 x Lx'); lia | ]. split; auto.
        destruct (Nat.lt_ge_cases j x) as [Lx' | ]; [ | lia ]. specialize (S j x). lia.
  - (* approximate *)
    cbn in Ord. destruct (lower_ok (ix m) k1 T) as (Le1 & Lo1 & Hi1). destruct (lower_ok (ix m) k2 T) as (Le2 & Lo2 & Hi2).
    set (i := lower (ix m) k1) in *. set (j := lower (ix m) k2) in *.
    assert (Lij : i <= j). { destruct (Nat.lt_ge_cases j i) as [Lx | ]; auto. specialize (Lo1 j Lx). specialize (Hi2 j). lia. }
    assert (Empty : i = inum (ix m) -> slice M (fun x => (k1 <= x)%N) (fun x => (x <= k2)%N) []).
    { intro Ei. split; [ constructor | ]. intros k v. split; [ intros [] | ]. intros (Ev & G1 & _). destruct (key_of m ls M k v H A Ev) as (x & Lx & <-). specialize (Lo1 x). lia. }
    destruct (Nat.eqb_spec (inum (ix m)) 0) as [E0 | N0].
    { eapply Same; auto; try discriminate; [ | cbn [rexec]; rewrite E0; reflexivity ]. apply TApprox. apply Empty. lia. }
    destruct (Nat.eqb_spec i (inum (ix m))) as [Ei | Ni].
    { eapply Same; auto; try discriminate.
      2:{ cbn [rexec]. fold i. destruct (Nat.eqb_spec (inum (ix m)) 0); [ congruence | ]. rewrite Ei, Nat.eqb_refl. reflexivity. }
      apply TApprox. auto. }
    set (j' := if negb (j =? inum (ix m)) && (fst (iarr (ix m) j) =? k2)%N then S j else j).
    assert (Hj' : i <= j' <= inum (ix m) /\ forall x, x < inum (ix m) -> (x < j' <-> (key (ix m) x <= k2)%N)).
    { unfold j'. destruct (Nat.eqb_spec j (inum (ix m))) as [Ej | Nj]; cbn [negb andb].
      - split; [ lia | ]. intros x Lx. split; [ intro; specialize (Lo2 x); lia | lia ].
      - pose proof (ii_sort _ T) as S. fold (key (ix m) j). destruct (N.eqb_spec (key (ix m) j) k2) as [Ek | Nk].
        + split; [ lia | ]. intros x Lx. split.
          * intro Hx. destruct (Nat.eq_dec x j) as [-> | Nx]; [ lia | ]. specialize (Lo2 x). lia.
          * intro G. destruct (Nat.lt_ge_cases j x) as [Lx' | ]; [ | lia ]. specialize (S j x). lia.
        + split; [ lia | ]. intros x Lx. split.
          * intro Hx. specialize (Lo2 x). lia.
          * intro G. destruct (Nat.lt_ge_cases x j) as [ | Lx']; [ auto | ]. specialize (Hi2 j). destruct (Nat.eq_dec x j) as [-> | Nx]; [ lia | ]. specialize (S j x). lia. }
    destruct Hj' as [Lj' Cj'].
    eapply Same; auto; try discriminate.
    2:{ cbn [rexec]. fold i j j'. destruct (Nat.eqb_spec (inum (ix m)) 0); [ congruence | ]. destruct (Nat.eqb_spec i (inum (ix m))); [ congruence | ].
        rewrite (walk_ok m ls) by auto. reflexivity. }
    apply TApprox. apply slice_ok; auto. intros x Lx. rewrite <- (Cj' x Lx). split.
    + intro Hx. split; [ apply Hi1; lia | lia ].
    + intros [G1 G2]. split; [ | auto ]. destruct (Nat.lt_ge_cases x i) as [Lx' | ]; [ specialize (Lo1 x Lx'); lia | auto ].
  - (* iterate *)
    eapply Same; auto; try discriminate; [ | cbn [rexec]; rewrite (walk_ok m ls) by (auto; lia); reflexivity ].
    apply TIter. apply slice_ok; auto; [ lia | ]. intros x Lx. unfold anyKey. split; [ auto | intros _; lia ].
  - (* size *)
    destruct (all_keys m ls M H A (inum (ix m)) (le_n _)) as [ND Kin].
    assert (El : inum (ix m) = length (map (key (ix m)) (seq 0 (inum (ix m))))) by (rewrite map_length, seq_length; auto).
    exists m, (RCount (inum (ix m))), ls, M. cbn [rexec]. split; auto. split; auto. split; auto. split; auto. split; [ | intros [ | ]; discriminate ]. rewrite El.
    constructor; auto. intro k. rewrite Kin. split; [ tauto | ]. intro Nn. split; auto. destruct (M k) as [v | ] eqn:Ek; [ | congruence ]. apply (key_of m ls M k v H A Ek).
  - cbn [rexec]. destruct (compactR_ok m ls H) as (m2 & ls2 & E2 & H2 & Ev2 & _ & _ & P2 & _). rewrite E2. exists m2, ROk, ls2, M. split; auto. split; auto. split; auto.
    split; [ eapply abs_vals; eauto | ]. split; [ constructor | auto ].
  - cbn [rexec]. eexists _, ROk, ls, M. split; [ reflexivity | ]. split; auto. split; [ constructor; auto | ]. split; auto. split; [ constructor | auto ].
Qed.
Lemma rexecs_ok : forall cs m ls M, rinv m ls -> abs ls M -> Forall ordered cs -> exists m' os M' ls', rexecs ks vsize maxIndex m cs = Some (m', os) /\ rrun M cs os M' /\ rinv m' ls' /\ abs ls' M'.
Proof.
  induction cs as [ | c cs IH]; intros m ls M H A O; cbn [rexecs].
  - exists m, [], M, ls. split; auto. split; auto. constructor.
  - inversion O as [ | ? ? Oc Ocs]; subst. destruct (rexec_ok m ls M c H A) as (m1 & o & ls1 & M1 & E & _ & H1 & A1 & S1 & _); auto. rewrite E.
    destruct (IH m1 ls1 M1 H1 A1) as (m2 & os & M2 & ls2 & E2 & R2 & H2 & A2'); auto. rewrite E2. exists m2, (o :: os), M2, ls2. split; auto. split; auto. econstructor; eauto.
Qed.
Lemma rcreate_ok n bytes : 1 <= n -> (1 <= bytes <= maxCapacity)%N -> rinv (rcreate n bytes) [[]] /\ abs [[]] fempty.
Proof.
  intros Hn Hb. split.
  - constructor; cbn [rcreate ix rbufs].
    + constructor; cbn; try lia.
    + constructor; [ constructor; [ apply newBuffer_ok; auto | constructor ] | constructor; [ intros o s [] | constructor ] | consts; cbn; lia | discriminate ].
    + intros k a. split; [ intros (i & Li & _); cbn in Li; lia | intros (v & []) ].
  - intros k v. unfold fempty, kv. cbn. split; [ discriminate | intros (a & []) ].
Qed.
End P.
