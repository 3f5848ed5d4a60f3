(** Proofs for C25. *)
From Coq Require Import Permutation.
From Verif Require Import Bytes SplitSet_model SplitSet_spec.

Lemma upd_length {A} (l : list A) i v : length (upd l i v) = length l.
Proof. revert i; induction l; intros [|i]; cbn; auto. Qed.
Lemma upd_nth {A} (l : list A) i j v d : i < length l ->
  nth j (upd l i v) d = if Nat.eqb j i then v else nth j l d.
Proof.
  revert i j; induction l as [|x l IH]; intros i j H; cbn in H; [lia|].
  destruct i, j; cbn; auto. apply IH. lia.
Qed.

Definition nz (v : N) : bool := negb (v =? 0)%N.
Definition keys (d : dset) : list N := filter nz (tab d).
Definition T (d : dset) (i : N) : N := nth (N.to_nat i) (tab d) 0%N.
Definition len (d : dset) : N := N.of_nat (length (tab d)).

Lemma filter_upd_z l i x : i < length l -> nth i l 0%N = 0%N -> x <> 0%N ->
  Permutation (filter nz (upd l i x)) (x :: filter nz l).
Proof.
  revert i; induction l as [|y l IH]; intros i H E X; cbn in H; [lia|]. destruct i; cbn in *.
  - subst. unfold nz at 1 3. cbn. destruct (N.eqb_spec x 0); [contradiction|]. cbn. reflexivity.
  - destruct (nz y).
    + rewrite perm_swap. apply perm_skip. apply IH; auto; lia.
    + apply IH; auto; lia.
Qed.
Lemma filter_upd_nz l i x : i < length l -> nth i l 0%N <> 0%N -> x <> 0%N ->
  Permutation (nth i l 0%N :: filter nz (upd l i x)) (x :: filter nz l).
Proof.
  revert i; induction l as [|y l IH]; intros i H E X; cbn in H; [lia|]. destruct i; cbn in *.
  - assert (Hx : nz x = true) by (unfold nz; destruct (N.eqb_spec x 0); [contradiction|reflexivity]).
    assert (Hy : nz y = true) by (unfold nz; destruct (N.eqb_spec y 0); [contradiction|reflexivity]).
    rewrite Hx, Hy. apply perm_swap.
  - destruct (nz y).
    + rewrite perm_swap. rewrite (perm_swap y x). apply perm_skip. apply IH; auto; lia.
    + apply IH; auto; lia.
Qed.

Definition shape (d : dset) : Prop :=
  (0 < cap d)%N /\ (cap d <= 2147483648)%N /\ (plimit d < 1000000)%N /\ len d = (cap d + plimit d)%N.
Definition bk (d : dset) (v : N) : N := (v * cap d / two32)%N.
Definition A (d : dset) : Prop := forall i, (i < len d)%N -> T d i <> 0%N ->
  (T d i < two32)%N /\ (bk d (T d i) <= i)%N /\ (i < bk d (T d i) + plimit d)%N /\
  forall j, (bk d (T d i) <= j)%N -> (j < i)%N -> T d j <> 0%N /\ (bk d (T d j) <= bk d (T d i))%N.

Lemma bucketOf_bk d v : shape d -> (v < two32)%N -> bucketOf d v = bk d v /\ (bk d v < cap d)%N.
Proof.
  intros (C & B & P & L) V. unfold bucketOf, bk, wrap32, wrap64.
  assert (Q : (v * cap d < two32 * cap d)%N) by nia.
  assert (R : (v * cap d / two32 < cap d)%N) by (apply N.div_lt_upper_bound; [unfold two32; lia|exact Q]).
  rewrite (N.mod_small (v * cap d)) by (unfold two32, two64 in *; nia).
  split; [|exact R]. apply N.mod_small. unfold two32 in *; lia.
Qed.
Lemma rdT_ok d i : (i < len d)%N -> rdT d i = Some (T d i).
Proof. unfold rdT, T, len. intros H. apply nth_error_nth'. lia. Qed.
Lemma T_set d i v j : (i < len d)%N -> T (setT d i v) j = if (j =? i)%N then v else T d j.
Proof.
  unfold T, len. intros H. cbn. rewrite upd_nth by lia.
  destruct (N.eqb_spec j i); destruct (Nat.eqb_spec (N.to_nat j) (N.to_nat i)); auto; lia.
Qed.
Lemma len_set d i v : len (setT d i v) = len d.
Proof. unfold len. cbn. rewrite upd_length. reflexivity. Qed.
Lemma probe_ok d i v : shape d -> (i < len d)%N -> (v < two32)%N -> (bk d v <= i)%N -> probeDistance d i v = (i - bk d v)%N.
Proof.
  intros S0 L V B. unfold probeDistance. destruct (bucketOf_bk d v S0 V) as [-> _]. destruct S0 as (C & Q & P & LL).
  unfold wrap32. replace (i + two32 - bk d v)%N with ((i - bk d v) + 1 * two32)%N by lia.
  rewrite N.mod_add by (unfold two32; lia). apply N.mod_small. unfold two32; lia.
Qed.

Definition sameshape (d d' : dset) : Prop := cap d' = cap d /\ plimit d' = plimit d /\ length (tab d') = length (tab d).

Lemma insFrom_ok : forall fuel d x i dist,
  shape d -> A d -> x <> 0%N -> (x < two32)%N -> i = (bk d x + dist)%N -> (dist <= plimit d)%N ->
  (forall j, (bk d x <= j)%N -> (j < i)%N -> T d j <> 0%N /\ (bk d (T d j) <= bk d x)%N) ->
  length (tab d) + 1 <= fuel + N.to_nat i ->
  exists d', insFrom fuel d x i dist = Some d' /\ sameshape d d' /\ A d' /\
    ((Permutation (keys d') (x :: keys d) /\ dsize d' = wrap32 (dsize d + 1)) \/
     (exists y, Permutation (y :: keys d') (x :: keys d) /\ dsize d' = dsize d)).
Proof.
  induction fuel as [|f IH]; intros d x i dist S0 HA X XB I D FL F.
  - exfalso. destruct (bucketOf_bk d x S0 XB) as [_ Q]. destruct S0 as (_ & _ & _ & L). unfold len in L. lia.
  - destruct (bucketOf_bk d x S0 XB) as [_ Q]. pose proof S0 as (C & CB & P & L).
    cbn [insFrom]. destruct (N.ltb_spec dist (plimit d)) as [D1|D1].
    2:{ exists d. split; [reflexivity|]. split; [repeat split|]. split; [exact HA|]. right. exists x. split; reflexivity. }
    assert (IL : (i < len d)%N) by lia.
    rewrite rdT_ok by exact IL. destruct (N.eqb_spec (T d i) 0) as [E|E].
    + eexists. split; [reflexivity|]. split; [unfold sameshape; cbn; rewrite upd_length; repeat split|].
      split.
      * intros p PL PN. change (T (incSize (setT d i x))) with (T (setT d i x)) in *.
        change (len (incSize (setT d i x))) with (len (setT d i x)) in PL. rewrite len_set in PL.
        change (bk (incSize (setT d i x))) with (bk d). change (plimit (incSize (setT d i x))) with (plimit d).
        rewrite (T_set d i x p IL) in *. destruct (N.eqb_spec p i) as [->|NE].
        -- split; [exact XB|]. split; [lia|]. split; [lia|].
           intros j J1 J2. rewrite (T_set d i x j IL). destruct (N.eqb_spec j i); [lia|]. apply FL; auto.
        -- destruct (HA p PL PN) as (a1 & a2 & a3 & a4). split; [exact a1|]. split; [exact a2|]. split; [exact a3|].
           intros j J1 J2. rewrite (T_set d i x j IL). destruct (N.eqb_spec j i) as [->|]; [|apply a4; auto].
           exfalso. destruct (a4 i J1 J2) as [a5 _]. exact (a5 E).
      * left. split; [|reflexivity]. unfold keys. cbn. apply filter_upd_z; auto. unfold len in IL. lia.
    + destruct (HA i IL E) as (a1 & a2 & a3 & a4). rewrite probe_ok by auto.
      destruct (N.leb_spec (i - bk d (T d i)) dist) as [LE|GT].
      * set (d2 := setT d i x).
        assert (SH2 : shape d2) by (unfold shape, d2; rewrite len_set; exact S0).
        destruct (IH d2 (T d i) (i + 1)%N (i - bk d (T d i) + 1)%N) as (d' & E' & (s1 & s2 & s3) & A' & K'); auto.
        -- intros p PL PN. unfold d2 in *. rewrite len_set in PL. change (bk (setT d i x)) with (bk d).
           change (plimit (setT d i x)) with (plimit d).
           rewrite (T_set d i x p IL) in *. destruct (N.eqb_spec p i) as [->|NE].
           ++ split; [exact XB|]. split; [lia|]. split; [lia|].
              intros j J1 J2. rewrite (T_set d i x j IL). destruct (N.eqb_spec j i); [lia|]. apply FL; auto.
           ++ destruct (HA p PL PN) as (b1 & b2 & b3 & b4). split; [exact b1|]. split; [exact b2|]. split; [exact b3|].
              intros j J1 J2. rewrite (T_set d i x j IL). destruct (N.eqb_spec j i) as [->|]; [|apply b4; auto].
              split; [exact X|]. destruct (b4 i J1 J2). lia.
        -- change (bk d2) with (bk d). lia.
        -- change (plimit d2) with (plimit d). lia.
        -- change (bk d2) with (bk d). intros j J1 J2. unfold d2. rewrite (T_set d i x j IL).
           destruct (N.eqb_spec j i) as [->|NE]; [split; [exact X|lia]|]. apply a4; lia.
        -- unfold d2. cbn. rewrite upd_length. lia.
        -- exists d'. split; [exact E'|]. unfold d2 in s3. cbn in s1, s2, s3. rewrite upd_length in s3.
           split; [unfold sameshape; auto|]. split; [exact A'|].
           assert (PP : Permutation (T d i :: keys d2) (x :: keys d)).
           { unfold keys, d2. cbn. apply filter_upd_nz; auto. unfold len in IL. lia. }
           destruct K' as [[K1 K2]|(y & K1 & K2)].
           ++ left. split; [|exact K2]. rewrite K1. exact PP.
           ++ right. exists y. split; [|exact K2]. rewrite K1. exact PP.
      * apply IH; auto; try lia. intros j J1 J2. destruct (N.eq_dec j i) as [->|NE]; [split; [exact E|lia]|]. apply FL; lia.
Qed.

Definition dinv (d : dset) : Prop :=
  shape d /\ A d /\ NoDup (keys d) /\ dsize d = N.of_nat (length (keys d)).

Lemma keys_len d : length (keys d) <= length (tab d).
Proof. unfold keys. induction (tab d) as [|x l IH]; cbn; [lia|]. destruct (nz x); cbn; lia. Qed.
Lemma keys_T d k : k <> 0%N -> In k (keys d) <-> exists i, (i < len d)%N /\ T d i = k.
Proof.
  intros K. unfold keys. rewrite filter_In. unfold nz. split.
  - intros [I _]. apply (In_nth _ _ 0%N) in I as (n & N1 & N2). exists (N.of_nat n).
    unfold len, T. rewrite Nat2N.id. split; [lia|exact N2].
  - intros (i & I & E). split; [|destruct (N.eqb_spec k 0); [contradiction|reflexivity]].
    unfold T in E. rewrite <- E. apply nth_In. unfold len in I. lia.
Qed.
Lemma keys_range d k : A d -> In k (keys d) -> (0 < k < two32)%N.
Proof.
  intros HA K. assert (K0 : k <> 0%N).
  { unfold keys in K. apply filter_In in K as [_ K]. unfold nz in K. intros ->. discriminate. }
  apply keys_T in K as (i & I & E); auto. subst. destruct (HA i I K0). lia.
Qed.

Lemma sameshape_shape d d' : shape d -> sameshape d d' -> shape d'.
Proof. unfold shape, sameshape, len. intros (a & b & c & e) (-> & -> & ->). auto. Qed.

Lemma insertNoResize_ok d x : dinv d -> x <> 0%N -> (x < two32)%N -> ~ In x (keys d) ->
  exists d', insertNoResize d x = Some d' /\ dinv d' /\
    (Permutation (keys d') (x :: keys d) \/ exists y, Permutation (y :: keys d') (x :: keys d)).
Proof.
  intros (S0 & HA & ND & SZ) X XB NI. unfold insertNoResize.
  destruct (bucketOf_bk d x S0 XB) as [E Q]. rewrite E.
  destruct (insFrom_ok (S (length (tab d))) d x (bk d x) 0) as (d' & E' & SS & A' & K'); auto; try lia.
  exists d'. split; [exact E'|]. pose proof (sameshape_shape d d' S0 SS) as S'.
  assert (NDX : NoDup (x :: keys d)) by (constructor; auto).
  destruct K' as [[K1 K2]|(y & K1 & K2)].
  - split; [|left; exact K1]. split; [exact S'|]. split; [exact A'|].
    split; [eapply Permutation_NoDup; [symmetry; exact K1|exact NDX]|].
    rewrite K2, SZ. rewrite (Permutation_length K1). cbn [length]. rewrite Nat2N.inj_succ.
    pose proof (keys_len d). destruct S0 as (_ & C2 & C3 & C4). unfold len in C4. unfold wrap32. rewrite N.mod_small; [lia|].
    unfold two32. lia.
  - split; [|right; exists y; exact K1]. split; [exact S'|]. split; [exact A'|].
    assert (ND' : NoDup (y :: keys d')) by (eapply Permutation_NoDup; [symmetry; exact K1|exact NDX]).
    split; [inversion ND'; auto|]. rewrite K2, SZ. apply Permutation_length in K1. cbn [length] in K1. lia.
Qed.

Lemma newD_inv pl c : (0 < c)%N -> (c <= 2147483648)%N -> (pl < 1000000)%N -> dinv (newD pl c) /\ keys (newD pl c) = [].
Proof.
  intros C1 C2 P. assert (W : wrap32 (c + pl) = (c + pl)%N) by (apply N.mod_small; unfold two32; lia).
  assert (K : forall n, filter nz (repeat 0%N n) = []) by (induction n; auto).
  assert (TZ : forall i, T (newD pl c) i = 0%N).
  { intros i. unfold T, newD. cbn. rewrite nth_repeat. reflexivity. }
  split; [|unfold keys; cbn; apply K].
  split; [unfold shape, len; cbn; rewrite repeat_length, W; lia|].
  split; [intros i _ H; exfalso; apply H, TZ|].
  unfold keys. cbn. rewrite K. split; [constructor|reflexivity].
Qed.

Lemma reinsert_ok : forall l dst, dinv dst -> (forall k, In k l -> (k < two32)%N) -> NoDup (filter nz l) ->
  (forall k, In k l -> k <> 0%N -> ~ In k (keys dst)) ->
  exists d', reinsert dst l = Some d' /\ dinv d' /\
    forall k, In k (keys d') -> In k (keys dst) \/ In k (filter nz l).
Proof.
  induction l as [|v r IH]; intros dst DI B ND NI.
  - exists dst. split; [reflexivity|]. split; [exact DI|]. auto.
  - cbn [reinsert]. destruct (N.eqb_spec v 0) as [->|V].
    + destruct (IH dst) as (d' & E & D' & K); auto.
      { intros k K. apply B. right; auto. }
      { intros k K. apply NI. right; auto. }
      exists d'. auto.
    + cbn in ND. assert (NV : nz v = true) by (unfold nz; destruct (N.eqb_spec v 0); [contradiction|reflexivity]).
      rewrite NV in ND. inversion ND; subst.
      destruct (insertNoResize_ok dst v) as (d1 & E1 & D1 & K1); auto.
      { apply B. left; auto. }
      { apply NI; [left; auto|auto]. }
      assert (SUB : forall k, In k (keys d1) -> k = v \/ In k (keys dst)).
      { intros k K. destruct K1 as [K1|(y & K1)].
        - apply (Permutation_in _ K1) in K. destruct K; auto.
        - assert (K' : In k (y :: keys d1)) by (right; auto). apply (Permutation_in _ K1) in K'. destruct K'; auto. }
      rewrite E1. destruct (IH d1) as (d' & E & D' & K); auto.
      { intros k K. apply B. right; auto. }
      { intros k K K0 IN. apply SUB in IN as [->|IN].
        - apply H1. apply filter_In. split; auto.
        - revert IN. apply NI; [right; auto|auto]. }
      exists d'. split; [exact E|]. split; [exact D'|]. intros k IN. cbn [filter]. rewrite NV.
      apply K in IN as [IN|IN]; [apply SUB in IN as [->|IN]; [right; left; auto|auto]|right; right; auto].
Qed.

Lemma filter_firstn_nodup {B} (f : B -> bool) n l : NoDup (filter f l) -> NoDup (filter f (firstn n l)).
Proof.
  intros H. rewrite <- (firstn_skipn n l), filter_app in H.
  assert (G : forall a b : list B, NoDup (a ++ b) -> NoDup a).
  { induction a as [|x a IH]; intros b N0; [constructor|]. inversion N0; subst.
    constructor; [intros I; apply H2, in_or_app; auto|eauto]. }
  eapply G; exact H.
Qed.
Lemma firstn_In {B} (x : B) n l : In x (firstn n l) -> In x l.
Proof. intros H. rewrite <- (firstn_skipn n l). apply in_or_app; auto. Qed.

Lemma insertD_ok d x : dinv d -> x <> 0%N -> (x < two32)%N -> ~ In x (keys d) ->
  exists d', insertD d x = Some d' /\ dinv d' /\
    (forall k, In k (keys d') -> k = x \/ In k (keys d)) /\
    (dsize d' <= dsize d + 1)%N /\
    ((dsize d < rehashSize d)%N -> (dsize d <= dsize d')%N).
Proof.
  intros DI X XB NI. unfold insertD. pose proof DI as ((s1 & s2 & s3 & s4) & HA & ND & SZ).
  assert (SUBL : forall a, incl (keys a) (x :: keys d) -> NoDup (keys a) -> (N.of_nat (length (keys a)) <= dsize d + 1)%N).
  { intros a I1 I2. pose proof (NoDup_incl_length I2 I1) as G. cbn in G. lia. }
  destruct (N.leb_spec (rehashSize d) (dsize d)) as [R|R].
  - assert (RC : (0 < rehashCapacity d)%N /\ (rehashCapacity d <= 2147483648)%N).
    { unfold rehashCapacity, wrap32. pose proof (N.mod_lt (cap d * 3) two32) as M. unfold two32 in *. split; [lia|].
      apply N.max_lub; [|lia]. apply N.div_le_upper_bound; [lia|]. assert (4294967296 <> 0)%N by lia. specialize (M H). lia. }
    destruct (newD_inv (plimit d) (rehashCapacity d)) as [NI0 NK]; try tauto.
    destruct (reinsert_ok (firstn (N.to_nat (cap d)) (tab d)) (newD (plimit d) (rehashCapacity d)))
      as (d1 & E1 & D1 & K1).
    + exact NI0.
    + intros k K. destruct (N.eq_dec k 0) as [->|K0]; [unfold two32; lia|].
      apply firstn_In in K. apply (keys_range d k HA). unfold keys. apply filter_In. split; auto.
      unfold nz. destruct (N.eqb_spec k 0); [contradiction|reflexivity].
    + apply filter_firstn_nodup. exact ND.
    + rewrite NK. auto.
    + rewrite E1. assert (SUB : forall k, In k (keys d1) -> In k (keys d)).
      { intros k K. apply K1 in K as [K|K]; [rewrite NK in K; contradiction|].
        unfold keys. apply filter_In in K as [K Z]. apply filter_In. split; [eapply firstn_In; exact K|exact Z]. }
      destruct (insertNoResize_ok d1 x) as (d' & E' & D' & K'); auto.
      exists d'. split; [exact E'|]. split; [exact D'|].
      assert (SUB' : forall k, In k (keys d') -> k = x \/ In k (keys d)).
      { intros k K. destruct K' as [P|(y & P)].
        - apply (Permutation_in _ P) in K. destruct K; auto.
        - assert (K2 : In k (y :: keys d')) by (right; auto). apply (Permutation_in _ P) in K2. destruct K2; auto. }
      split; [exact SUB'|]. split; [|lia].
      destruct D' as (_ & _ & ND' & ->). apply SUBL; auto. intros k K. destruct (SUB' k K); [left; auto|right; auto].
  - destruct (insertNoResize_ok d x) as (d' & E' & D' & K'); auto.
    exists d'. split; [exact E'|]. split; [exact D'|].
    assert (SUB' : forall k, In k (keys d') -> k = x \/ In k (keys d)).
    { intros k K. destruct K' as [P|(y & P)].
      - apply (Permutation_in _ P) in K. destruct K; auto.
      - assert (K2 : In k (y :: keys d')) by (right; auto). apply (Permutation_in _ P) in K2. destruct K2; auto. }
    split; [exact SUB'|]. destruct D' as (_ & _ & ND' & SZ').
    assert (LL : length (keys d') = S (length (keys d)) \/ length (keys d') = length (keys d)).
    { destruct K' as [P|(y & P)]; apply Permutation_length in P; cbn [length] in P; lia. }
    split; lia.
Qed.

Lemma lookFrom_ok : forall fuel d k i dist, shape d -> A d -> k <> 0%N -> (k < two32)%N ->
  i = (bk d k + dist)%N -> (dist + N.of_nat fuel = plimit d)%N ->
  exists b, lookFrom fuel d k i dist = Some b /\
    (b = true -> In k (keys d)) /\
    (forall p, (i <= p)%N -> (p < len d)%N -> T d p = k -> b = true).
Proof.
  induction fuel as [|f IH]; intros d k i dist S0 HA K KB I F.
  - exists false. split; [reflexivity|]. split; [discriminate|]. intros p P1 P2 P3. exfalso.
    subst k. destruct (HA p P2 K) as (_ & _ & G & _). lia.
  - destruct (bucketOf_bk d k S0 KB) as [_ Q]. pose proof S0 as (C1 & C2 & C3 & C4).
    cbn [lookFrom]. assert (IL : (i < len d)%N) by lia. rewrite rdT_ok by auto.
    destruct (N.eqb_spec (T d i) k) as [E|NE].
    + exists true. split; [reflexivity|]. split; [|auto]. intros _. apply keys_T; auto. exists i. auto.
    + destruct (N.eqb_spec (T d i) 0) as [Z|NZ].
      * exists false. split; [reflexivity|]. split; [discriminate|]. intros p P1 P2 P3. exfalso.
        destruct (N.eq_dec p i) as [->|NP]; [contradiction|]. subst k.
        destruct (HA p P2 K) as (_ & G0 & _ & G). destruct (G i) as [G1 _]; [lia|lia|]. exact (G1 Z).
      * destruct (HA i IL NZ) as (a1 & a2 & a3 & a4). rewrite probe_ok by auto. cbn [orb].
        destruct (N.ltb_spec (i - bk d (T d i)) dist) as [LT|GE].
        -- exists false. split; [reflexivity|]. split; [discriminate|]. intros p P1 P2 P3. exfalso.
           destruct (N.eq_dec p i) as [->|NP]; [contradiction|]. subst k.
           destruct (HA p P2 K) as (_ & _ & _ & G). destruct (G i); lia.
        -- destruct (IH d k (i + 1)%N (dist + 1)%N) as (b & E & B1 & B2); auto; try lia.
           exists b. split; [exact E|]. split; [exact B1|]. intros p P1 P2 P3.
           apply (B2 p); auto. destruct (N.eq_dec p i) as [->|]; [contradiction|lia].
Qed.

Lemma lookupD_ok d k : dinv d -> k <> 0%N -> (k < two32)%N ->
  exists b, lookupD d k = Some b /\ (b = true <-> In k (keys d)).
Proof.
  intros (S0 & HA & _) K KB. unfold lookupD. destruct (bucketOf_bk d k S0 KB) as [E Q]. rewrite E.
  destruct (lookFrom_ok (N.to_nat (plimit d)) d k (bk d k) 0 S0 HA K KB) as (b & E' & B1 & B2); [lia|lia|].
  exists b. split; [exact E'|]. split; [exact B1|]. intros IN. apply keys_T in IN as (p & P & TP); auto.
  apply (B2 p); auto. subst k. apply (HA p P K).
Qed.

(** ** Splits *)
Definition allkeys (l : list dset) : list N := flat_map keys l.

Definition sinv (s : sset) : Prop :=
  (0 < numSplits s)%N /\ (numSplits s < two32)%N /\ splits s <> [] /\ (N.of_nat (length (splits s)) <= numSplits s)%N /\
  Forall dinv (splits s) /\ Forall (fun d => (dsize d <= N.max 1 (maxSplit s))%N) (splits s) /\
  NoDup (allkeys (splits s)).

Lemma lookupAll_ok l k : Forall dinv l -> usable k ->
  exists b, lookupAll l k = Some b /\ (b = true <-> In (wrap32 k) (allkeys l)).
Proof.
  intros F U. assert (KB : (wrap32 k < two32)%N) by (apply N.mod_lt; unfold two32; lia).
  induction F as [|d r D F IH]; cbn [lookupAll].
  - exists false. split; [reflexivity|]. split; [discriminate|intros []].
  - destruct (lookupD_ok d (wrap32 k) D U KB) as (b & E & B). rewrite E. cbn [allkeys flat_map].
    destruct b.
    + exists true. split; [reflexivity|]. split; [|auto]. intros _. apply in_or_app. left. apply B; auto.
    + destruct IH as (b & E2 & B2). exists b. split; [exact E2|]. rewrite in_app_iff. fold (allkeys r).
      rewrite B2. split; [auto|]. intros [G|G]; [apply B in G; discriminate|exact G].
Qed.

Lemma lastD_app l x : lastD (l ++ [x]) = Some x.
Proof. induction l as [|y l IH]; [reflexivity|]. cbn. destruct (l ++ [x]) eqn:E; [destruct l; discriminate|exact IH]. Qed.
Lemma split_last (l : list dset) : l <> [] -> exists p x, l = p ++ [x].
Proof. intros H. destruct (exists_last H) as (p & x & E). eauto. Qed.

Lemma allkeys_app a b : allkeys (a ++ b) = allkeys a ++ allkeys b.
Proof. apply flat_map_app. Qed.

Lemma addNewSplit_ok s : (0 < numSplits s)%N -> (numSplits s < two32)%N ->
  (N.of_nat (length (splits s)) <= numSplits s)%N ->
  Forall dinv (splits s) -> Forall (fun d => (dsize d <= N.max 1 (maxSplit s))%N) (splits s) ->
  NoDup (allkeys (splits s)) ->
  exists s' p x, addNewSplit s = Some s' /\ sinv s' /\ splits s' = p ++ [x] /\ keys x = [] /\
    numSplits s' = numSplits s /\ maxSplit s' = maxSplit s /\ incl (allkeys (splits s')) (allkeys (splits s)).
Proof.
  intros H1 H2 H3 H4 H5 H6. unfold addNewSplit.
  destruct (N.ltb_spec (N.of_nat (length (splits s))) (numSplits s)) as [L|L].
  - destruct (newD_inv kProbeLimit kInitialCapacity) as [NI NK]; [reflexivity|discriminate|reflexivity|].
    do 3 eexists. split; [reflexivity|].
    split; [|split; [reflexivity|split; [exact NK|split; [reflexivity|split; [reflexivity|]]]]].
    + unfold sinv. cbn. split; [exact H1|]. split; [exact H2|]. split; [destruct (splits s); discriminate|].
      split; [rewrite app_length; cbn; lia|]. split; [apply Forall_app; split; [auto|constructor; auto]|].
      split; [apply Forall_app; split; [auto|constructor; [cbn; lia|auto]]|].
      rewrite allkeys_app. cbn [allkeys flat_map]. rewrite NK. cbn. rewrite app_nil_r. exact H6.
    + cbn. rewrite allkeys_app. cbn [allkeys flat_map]. rewrite NK. cbn. rewrite app_nil_r. intros x X; exact X.
  - destruct (splits s) as [|f r] eqn:E; [cbn in L; lia|].
    inversion H4; subst. inversion H5; subst.
    assert (RK : forall n, filter nz (repeat 0%N n) = []) by (induction n; auto).
    assert (RDK : keys (resetD f) = []) by (unfold keys; cbn; apply RK).
    assert (RD : dinv (resetD f)).
    { destruct H7 as ((s1 & s2 & s3 & s4) & HA & ND & SZ). split; [unfold shape, len; cbn; rewrite repeat_length; auto|].
      split; [intros i _ G; exfalso; apply G; unfold T; cbn; apply nth_repeat|].
      unfold keys. cbn. rewrite RK. split; [constructor|reflexivity]. }
    cbn [allkeys flat_map] in H6.
    do 3 eexists. split; [reflexivity|].
    split; [|split; [reflexivity|split; [unfold keys; cbn; apply RK|split; [reflexivity|split; [reflexivity|]]]]].
    + unfold sinv. cbn. split; [exact H1|]. split; [exact H2|]. split; [destruct r; discriminate|].
      split; [rewrite app_length; cbn in *; lia|]. split; [apply Forall_app; split; [auto|constructor; auto]|].
      split; [apply Forall_app; split; [auto|constructor; [cbn; lia|auto]]|].
      rewrite allkeys_app. cbn [allkeys flat_map]. rewrite RDK. rewrite !app_nil_r.
      clear -H6. revert H6. generalize (keys f). intros l. induction l; cbn; auto. intros G. inversion G; auto.
    + cbn. rewrite allkeys_app. cbn [allkeys flat_map]. rewrite RDK. rewrite !app_nil_r.
      intros x X. apply in_or_app; auto.
Qed.

Lemma NoDup_app_i {B} (a b : list B) : NoDup a -> NoDup b -> (forall x, In x a -> ~ In x b) -> NoDup (a ++ b).
Proof.
  induction a as [|x a IH]; intros H1 H2 H3; [exact H2|]. inversion H1; subst. cbn. constructor.
  - rewrite in_app_iff. intros [G|G]; [auto|]. apply (H3 x); [left; auto|auto].
  - apply IH; auto. intros y Y. apply H3. right; auto.
Qed.
Lemma NoDup_app_e {B} (a b : list B) : NoDup (a ++ b) -> NoDup a /\ NoDup b /\ (forall x, In x a -> ~ In x b).
Proof.
  induction a as [|x a IH]; intros H; [repeat split; [constructor|auto|intros x []]|]. cbn in H. inversion H; subst.
  destruct (IH H3) as (a1 & a2 & a3). rewrite in_app_iff in H2. split; [constructor; tauto|]. split; [auto|].
  intros y [->|Y]; [tauto|auto].
Qed.

Lemma insertS_ok s k : sinv s -> usable k ->
  exists s' b, insertS s k = Some (s', b) /\ sinv s' /\ numSplits s' = numSplits s /\ maxSplit s' = maxSplit s /\
    (b = true <-> In (wrap32 k) (allkeys (splits s))) /\
    (b = true -> s' = s) /\
    incl (allkeys (splits s')) (wrap32 k :: allkeys (splits s)) /\
    (b = false -> forall p x, splits s = p ++ [x] -> (dsize x < maxSplit s)%N -> (dsize x < rehashSize x)%N ->
       length (allkeys (splits s)) <= length (allkeys (splits s'))).
Proof.
  intros SI U. pose proof SI as (i1 & i2 & i3 & i4 & i5 & i6 & i7). unfold insertS, lookupS.
  destruct (lookupAll_ok (splits s) k i5 U) as (b & E & B). rewrite E. destruct b.
  - exists s, true. split; [reflexivity|]. split; [exact SI|]. split; [reflexivity|]. split; [reflexivity|].
    split; [exact B|]. split; [reflexivity|]. split; [intros x X; right; exact X|discriminate].
  - assert (NI : ~ In (wrap32 k) (allkeys (splits s))) by (intros G; apply B in G; discriminate).
    assert (KB : (wrap32 k < two32)%N) by (apply N.mod_lt; unfold two32; lia).
    destruct (split_last (splits s) i3) as (p & x & SP). replace (lastD (splits s)) with (Some x) by (rewrite SP, lastD_app; reflexivity).
    assert (P1 : exists s1 q y, (if (maxSplit s <=? dsize x)%N then addNewSplit s else Some s) = Some s1 /\ sinv s1 /\
       splits s1 = q ++ [y] /\ numSplits s1 = numSplits s /\ maxSplit s1 = maxSplit s /\
       incl (allkeys (splits s1)) (allkeys (splits s)) /\ (dsize y + 1 <= N.max 1 (maxSplit s))%N /\
       ((dsize x < maxSplit s)%N -> s1 = s /\ y = x)).
    { destruct (N.leb_spec (maxSplit s) (dsize x)) as [L|L].
      - destruct (addNewSplit_ok s i1 i2 i4 i5 i6 i7) as (s1 & q & y & Q1 & Q2 & Q3 & Q4 & Q5 & Q6 & Q7).
        exists s1, q, y. split; [exact Q1|]. split; [exact Q2|]. split; [exact Q3|]. split; [exact Q5|].
        split; [exact Q6|]. split; [exact Q7|]. split; [|lia].
        destruct Q2 as (_ & _ & _ & _ & D & _). rewrite Q3 in D. apply Forall_app in D as [_ D]. inversion D; subst.
        destruct H1 as (_ & _ & _ & ->). rewrite Q4. cbn. lia.
      - exists s, p, x. split; [reflexivity|]. split; [exact SI|]. split; [exact SP|]. split; [reflexivity|].
        split; [reflexivity|]. split; [intros z Z; exact Z|]. split; [lia|auto]. }
    destruct P1 as (s1 & q & y & E1 & SI1 & SP1 & N1 & M1 & INC & SZ & SAME). rewrite E1.
    replace (lastD (splits s1)) with (Some y) by (rewrite SP1, lastD_app; reflexivity).
    destruct SI1 as (j1 & j2 & j3 & j4 & j5 & j6 & j7). rewrite SP1 in j5, j6, j7.
    apply Forall_app in j5 as [j5 j5y]. inversion j5y; subst. apply Forall_app in j6 as [j6 j6y]. inversion j6y; subst.
    rewrite allkeys_app in j7. cbn [allkeys flat_map] in j7. rewrite app_nil_r in j7.
    apply NoDup_app_e in j7 as (j7 & j8 & j9).
    assert (NI1 : ~ In (wrap32 k) (allkeys (splits s1))) by (intros G; apply NI, INC, G).
    rewrite SP1, allkeys_app in NI1. cbn [allkeys flat_map] in NI1. rewrite app_nil_r, in_app_iff in NI1.
    destruct (insertD_ok y (wrap32 k) H1 U KB) as (y' & E2 & D2 & K2 & S2 & S3); [tauto|].
    rewrite E2. exists (setSplits s1 (removelast (splits s1) ++ [y'])), false.
    split; [reflexivity|]. rewrite SP1, removelast_last. cbn [splits setSplits].
    split; [|split; [exact N1|split; [exact M1|split; [exact B|split; [discriminate|]]]]].
    + unfold sinv. cbn. split; [exact j1|]. split; [exact j2|]. split; [destruct q; discriminate|].
      split; [rewrite SP1, app_length in j4; rewrite app_length; exact j4|].
      split; [apply Forall_app; split; [auto|constructor; auto]|].
      split; [apply Forall_app; split; [auto|constructor; [lia|auto]]|].
      rewrite allkeys_app. cbn [allkeys flat_map]. rewrite app_nil_r. apply NoDup_app_i; [exact j7|apply D2|].
      intros z Z1 Z2. apply K2 in Z2 as [->|Z2]; [tauto|]. apply (j9 z Z1 Z2).
    + split.
      * intros z Z. cbn in Z. rewrite allkeys_app in Z. cbn [allkeys flat_map] in Z. rewrite app_nil_r in Z.
        apply in_app_or in Z as [Z|Z].
        -- right. apply INC. rewrite SP1, allkeys_app. apply in_or_app; auto.
        -- apply K2 in Z as [->|Z]; [left; auto|]. right. apply INC. rewrite SP1, allkeys_app. apply in_or_app. right.
           cbn. rewrite app_nil_r. exact Z.
      * intros _ p' x' SP' L1 L2. rewrite SP in SP'. apply app_inj_tail in SP' as [-> ->].
        destruct (SAME L1) as [-> ->]. rewrite SP in SP1. apply app_inj_tail in SP1 as [-> _].
        rewrite SP. cbn. rewrite !allkeys_app, !app_length. cbn [allkeys flat_map]. rewrite !app_nil_r.
        specialize (S3 L2). destruct D2 as (_ & _ & _ & D2). destruct H1 as (_ & _ & _ & H1). lia.
Qed.

Lemma createS_ok n ns s : (ns < two32)%N -> createS n ns = Some s ->
  sinv s /\ allkeys (splits s) = [] /\ numSplits s = ns /\ maxSplit s = wrap32 (n / ns).
Proof.
  intros B. unfold createS. destruct (N.eqb_spec ns 0); [discriminate|]. destruct (N.eqb_spec n 0); [discriminate|].
  intros E. destruct (addNewSplit_ok {| numSplits := ns; maxSplit := wrap32 (n / ns); splits := [] |})
    as (s' & p & x & E' & SI & _ & _ & N1 & M1 & INC); [cbn; lia|cbn; auto|cbn; lia|constructor|constructor|constructor|].
  rewrite E in E'. inversion E'; subst s'. split; [exact SI|]. split; [|auto].
  destruct (allkeys (splits s)) as [|z r]; [reflexivity|]. exfalso. apply (INC z). left; auto.
Qed.

Lemma resetS_ok s : sinv s -> exists s', resetS s = Some s' /\ sinv s' /\ allkeys (splits s') = [] /\
  numSplits s' = numSplits s /\ maxSplit s' = maxSplit s.
Proof.
  intros (i1 & i2 & _). unfold resetS.
  destruct (addNewSplit_ok (setSplits s [])) as (s' & p & x & E' & SI & _ & _ & N1 & M1 & INC); [cbn; lia|cbn; auto|cbn; lia|constructor|constructor|constructor|].
  exists s'. split; [exact E'|]. split; [exact SI|]. split; [|auto].
  destruct (allkeys (splits s')) as [|z r]; [reflexivity|]. exfalso. apply (INC z). left; auto.
Qed.

Lemma runS_ok : forall cs s acc, sinv s -> Forall usable_call cs ->
  incl (allkeys (splits s)) (map wrap32 acc) ->
  exists s' bs, runS s cs = Some (s', bs) /\ sinv s' /\ numSplits s' = numSplits s /\ maxSplit s' = maxSplit s /\
    incl (allkeys (splits s')) (map wrap32 (inserted acc cs)).
Proof.
  induction cs as [|c r IH]; intros s acc SI F INC.
  - exists s, []. auto.
  - inversion F; subst. destruct c as [k|]; cbn [runS inserted].
    + destruct (insertS_ok s k SI H1) as (s1 & b & E & SI1 & N1 & M1 & _ & _ & INC1 & _). rewrite E.
      destruct (IH s1 (acc ++ [k])) as (s2 & bs & E2 & SI2 & N2 & M2 & INC2); auto.
      { intros z Z. rewrite map_app, in_app_iff. apply INC1 in Z as [<-|Z]; [right; left; auto|left; apply INC; auto]. }
      rewrite E2. exists s2, (b :: bs). split; [reflexivity|]. split; [auto|]. split; [congruence|]. split; [congruence|auto].
    + destruct (resetS_ok s SI) as (s1 & E & SI1 & AK & N1 & M1). rewrite E.
      destruct (IH s1 []) as (s2 & bs & E2 & SI2 & N2 & M2 & INC2); auto.
      { rewrite AK. intros z []. }
      rewrite E2. exists s2, bs. split; [reflexivity|]. split; [auto|]. split; [congruence|]. split; [congruence|auto].
Qed.

Lemma tracks_all s : sinv s -> tracks s (allkeys (splits s)).
Proof.
  intros (i1 & i2 & i3 & i4 & i5 & i6 & i7). split; [exact i7|]. split.
  - intros k K. apply in_flat_map in K as (d & D & K). rewrite Forall_forall in i5. destruct (i5 d D) as (_ & HA & _).
    eapply keys_range; eauto.
  - intros k U. apply lookupAll_ok; auto.
Qed.
Lemma tracks_unique s l l' : tracks s l -> tracks s l' -> Permutation l l'.
Proof.
  intros (N1 & R1 & T1) (N2 & R2 & T2). apply NoDup_Permutation; auto.
  assert (G : forall k, (0 < k < two32)%N -> wrap32 k = k) by (intros k K; apply N.mod_small; lia).
  intros k. split; intros K.
  - pose proof (R1 k K) as R. assert (U : usable k) by (unfold usable; rewrite G; lia).
    destruct (T1 k U) as (b & E & B). destruct (T2 k U) as (b' & E' & B'). rewrite G in B, B' by auto.
    rewrite E in E'. inversion E'; subst. apply B', B, K.
  - pose proof (R2 k K) as R. assert (U : usable k) by (unfold usable; rewrite G; lia).
    destruct (T1 k U) as (b & E & B). destruct (T2 k U) as (b' & E' & B'). rewrite G in B, B' by auto.
    rewrite E in E'. inversion E'; subst. apply B, B', K.
Qed.

Lemma count_ok s : sinv s -> numKeysTracked s = N.of_nat (length (allkeys (splits s))) /\
  (N.of_nat (length (allkeys (splits s))) <= numSplits s * N.max 1 (maxSplit s))%N.
Proof.
  intros (i1 & i2 & i3 & i4 & i5 & i6 & i7). unfold numKeysTracked.
  assert (SUM : forall l a, Forall dinv l -> (a + N.of_nat (length l) * two32 < two64)%N ->
     fold_left (fun a d => wrap64 (a + dsize d)) l a = (a + N.of_nat (length (allkeys l)))%N).
  { induction l as [|d r IH]; intros a F B; cbn [fold_left allkeys flat_map]; [cbn; lia|].
    inversion F; subst. destruct H1 as ((s1 & s2 & s3 & s4) & _ & _ & SZ). pose proof (keys_len d) as KL. unfold len in s4.
    assert (SB : (dsize d < two32)%N) by (unfold two32; lia). cbn [length] in B. rewrite Nat2N.inj_succ in B.
    unfold wrap64 at 2. rewrite N.mod_small by (unfold two64, two32 in *; lia).
    rewrite IH by (auto; unfold two64, two32 in *; lia). fold (allkeys r). rewrite app_length. lia. }
  split.
  - rewrite SUM; auto. unfold two32, two64 in *. nia.
  - assert (SUMB : forall l m, Forall dinv l -> Forall (fun d => (dsize d <= m)%N) l ->
      (N.of_nat (length (allkeys l)) <= N.of_nat (length l) * m)%N).
    { induction l as [|d r IH]; intros m F G; [cbn; lia|]. inversion F; inversion G; subst.
      cbn [allkeys flat_map length]. fold (allkeys r). rewrite app_length. destruct H1 as (_ & _ & _ & SZ).
      specialize (IH m H2 H6). nia. }
    specialize (SUMB _ _ i5 i6). nia.
Qed.
