From Coq Require Import ZifyBool ZifyNat ZifyN.
From Verif Require Import Bytes BucketStorage_model BucketStorage_proofs Bucket_model Bucket_spec
  Bucket_proofs BloomFilter_model BloomFilter_spec BloomFilter_client BloomFilter_proofs
  BigHash_model BigHash_spec BigHash_client BigHash_proofs.
Local Open Scope N_scope.

Section Q.
Variable comb : N -> N -> N.
Variable csum : N -> storage -> N.
Variables bucketSize base nb : N.
Variable chk : option (list byte -> bool).
Variable cap : nat.
Hypothesis HC : conf_ok bucketSize base nb cap.

Lemma new_ok bloom gen dev : init_ok bucketSize base nb cap bloom gen dev ->
  exists s, newBH nb bloom gen dev = Some s /\ SIM comb csum base nb cap bucketSize s empty_eng.
Proof.
  destruct HC as [H1 H2 H3 H4]. intros [Hd Hb]. unfold newBH, resetBH. cbn [bbloom bdev].
  assert (Hsim : forall ob, BL comb nb ob (fun _ _ => False) ->
    SIM comb csum base nb cap bucketSize
        {| bgen := gen; bbloom := ob; bvalid := repeat 0 (N.to_nat (vbcBytes nb)); bdev := dev |} empty_eng).
  { intros ob HO. constructor; cbn [bbloom bvalid bdev bgen alist adis empty_eng].
    - eapply BL_mono; [|exact HO]. unfold need; cbn. tauto.
    - apply (vb_zero comb csum base nb cap bucketSize); [assumption|lia|assumption|assumption].
    - intros i Hi. now apply Hd.
    - intros i Hi _. unfold goodBlock.
      destruct (N.eqb_spec (bk_gen (dev (bucketOffset bucketSize base i))) gen); [|reflexivity].
      exfalso. now apply (Hd i).
    - intros i Hi _. split; [constructor|intros ? []]. }
  destruct bloom as [f|].
  - destruct Hb as (hint & nh & ht & Hp & E).
    destruct (make_ok comb hint nb nh ht Hp) as (f0 & E0 & I0). rewrite E in E0. inversion E0; subst f0.
    destruct (reset_ok comb f nb _ ht [] I0) as (f' & -> & I' & _).
    eexists. split; [reflexivity|]. apply Hsim. do 3 eexists. split; [exact I'|]. intros ? ? ? [].
  - eexists. split; [reflexivity|]. apply Hsim. exact Logic.I.
Qed.

Lemma refines_l bloom gen dev es : init_ok bucketSize base nb cap bloom gen dev ->
  exists s0, newBH nb bloom gen dev = Some s0 /\
   (evs_ok comb csum base nb chk cap bucketSize s0 es ->
    exists s os a, execs comb csum bucketSize base nb chk s0 es = Some (s, os)
      /\ atrace cap nb (opt_expired chk) empty_eng es os a).
Proof.
  intros Hi. destruct (new_ok bloom gen dev Hi) as (s0 & E & S). exists s0. split; [assumption|].
  intros Hok. destruct HC as [H1 H2 H3 H4].
  destruct (run_ok comb csum base nb chk cap bucketSize H2 ltac:(lia) H3 H4 es s0 empty_eng S Hok)
    as (s & os & a & E2 & T & _). eauto 6.
Qed.
End Q.

(** ** The client's view, on the specification only *)
Section L.
Variable cap : nat.
Variable nb : N.
Variable ex : list byte -> bool.

Definition GOOD (a : aeng) (cur : hkey -> option (list byte)) : Prop :=
  forall i, adis a i = false -> NoDup (map ekey (alist a i)) /\
    forall e, In e (alist a i) -> bucket_of nb (ekey e) = i /\ cur (ekey e) = Some (eval e).

Lemma hkey_eqb_refl k : hkey_eqb k k = true.
Proof. now apply hkey_eqb_eq. Qed.
Lemma hkey_eqb_neq a b : a <> b -> hkey_eqb a b = false.
Proof. intros H. destruct (hkey_eqb a b) eqn:E; [|reflexivity]. apply hkey_eqb_eq in E. congruence. Qed.

Lemma seen_sub a i r cur : GOOD a cur -> adis a i = false ->
  NoDup (map ekey (seen a i r)) /\ forall e, In e (seen a i r) -> In e (alist a i).
Proof.
  intros G Hd. destruct (G i Hd) as [Hn Hb]. destruct r; cbn [seen]; split; auto; [constructor|intros ? []].
Qed.

(** last_value with the "current" value of every key *)
Definition nxt (cur : hkey -> option (list byte)) (e : event) (o : eout) : hkey -> option (list byte) :=
  fun k => last_after k (cur k) e o.

Lemma good_same a cur e o : GOOD a cur -> (forall k, adis a (bucket_of nb k) = false ->
    In k (map ekey (alist a (bucket_of nb k))) -> nxt cur e o k = cur k) -> GOOD a (nxt cur e o).
Proof.
  intros G H i Hd. destruct (G i Hd) as [Hn Hb]. split; [assumption|].
  intros x Hx. destruct (Hb x Hx) as [B C]. split; [assumption|]. rewrite <- C. apply H.
  - now rewrite B.
  - rewrite B. now apply in_map.
Qed.
Lemma good_disable a cur i : GOOD a cur -> GOOD {| alist := alist a; adis := disable (adis a) i |} cur.
Proof. intros G j Hj. cbn in *. apply disable_false in Hj as [Hj _]. auto. Qed.

Lemma aspec_good a cur e o a' : GOOD a cur -> not_corrupt_remove e -> aspec cap nb ex a e o a' ->
  GOOD a' (nxt cur e o).
Proof.
  intros G Hnc H. inversion H; subst; clear H.
  - (* ins disabled *)
    apply good_same; [assumption|]. intros k0 Hd Hin. unfold nxt. cbn [last_after].
    destruct (hkey_eqb k k0) eqn:E; [|reflexivity]. apply hkey_eqb_eq in E. congruence.
  - (* ins readfail *)
    intros j Hj. cbn in Hj. apply disable_false in Hj as [Hj Hne]. cbn [alist].
    destruct (G j Hj) as [Hn Hb]. split; [assumption|]. intros x Hx. destruct (Hb x Hx) as [B C].
    split; [assumption|]. unfold nxt. cbn [last_after]. destruct (hkey_eqb k (ekey x)) eqn:E; [|assumption].
    apply hkey_eqb_eq in E. congruence.
  - (* ins ok *)
    destruct (seen_sub a (bucket_of nb k) r cur G H0) as [Hnd Hsub].
    pose proof (remove_spec_nodup _ k Hnd) as [Hn1 Hk1]. pose proof (remove_spec_incl (seen a (bucket_of nb k) r) k) as Hinc.
    rewrite H2 in *. cbn [fst] in *.
    destruct (insert_spec_keys _ _ _ _ _ _ _ H3 Hn1 Hk1) as [Hn2 Hin2].
    intros j Hj. cbn [alist adis] in *. unfold setl. destruct (N.eqb_spec j (bucket_of nb k)) as [->|Hne].
    + split; [assumption|]. intros x Hx. destruct (Hin2 x Hx) as [->|Hx2]; cbn [ekey eval].
      * split; [reflexivity|]. unfold nxt. cbn [last_after]. rewrite hkey_eqb_refl. reflexivity.
      * destruct (G _ Hj) as [_ Hb]. destruct (Hb x) as [B C]; [auto|]. split; [assumption|].
        unfold nxt. cbn [last_after]. rewrite hkey_eqb_neq; [assumption|].
        intros ->. apply Hk1. now apply in_map.
    + destruct (G _ Hj) as [Hn Hb]. split; [assumption|]. intros x Hx. destruct (Hb x Hx) as [B C].
      split; [assumption|]. unfold nxt. cbn [last_after]. rewrite hkey_eqb_neq; [assumption|]. congruence.
  - (* ins writefail *)
    intros j Hj. cbn in Hj. apply disable_false in Hj as [Hj Hne]. cbn [alist]. unfold setl.
    destruct (N.eqb_spec j (bucket_of nb k)); [congruence|].
    destruct (G j Hj) as [Hn Hb]. split; [assumption|]. intros x Hx. destruct (Hb x Hx) as [B C].
    split; [assumption|]. unfold nxt. cbn [last_after]. rewrite hkey_eqb_neq; [assumption|]. congruence.
  - apply good_same; [assumption|]. reflexivity.
  - apply good_same; [assumption|]. reflexivity.
  - apply good_disable. apply good_same; [assumption|]. reflexivity.
  - apply good_same; [assumption|]. reflexivity.
  - apply good_same; [assumption|]. reflexivity.
  - (* rem disabled *)
    apply good_same; [assumption|]. intros k0 Hd Hin. unfold nxt. cbn [last_after].
    destruct (hkey_eqb k k0) eqn:E; [|reflexivity]. apply hkey_eqb_eq in E. congruence.
  - (* rem filtered *)
    apply good_same; [assumption|]. intros k0 Hd Hin. unfold nxt. cbn [last_after].
    destruct (hkey_eqb k k0) eqn:E; [|reflexivity]. apply hkey_eqb_eq in E. subst k0.
    apply lookup_none_iff in H1. contradiction.
  - (* rem readfail *)
    intros j Hj. cbn in Hj. apply disable_false in Hj as [Hj Hne]. cbn [alist].
    destruct (G j Hj) as [Hn Hb]. split; [assumption|]. intros x Hx. destruct (Hb x Hx) as [B C].
    split; [assumption|]. unfold nxt. cbn [last_after]. rewrite hkey_eqb_neq; [assumption|]. congruence.
  - (* rem miss *)
    apply good_same; [assumption|]. intros k0 Hd Hin. unfold nxt. cbn [last_after].
    destruct (hkey_eqb k k0) eqn:E; [|reflexivity]. apply hkey_eqb_eq in E. subst k0.
    apply remove_none_iff in H2. exfalso. apply H2.
    destruct r; cbn [seen] in *; [assumption|congruence|destruct Hnc].
  - (* rem ok *)
    destruct (seen_sub a (bucket_of nb k) r cur G H0) as [Hnd Hsub].
    pose proof (remove_spec_nodup _ k Hnd) as [Hn1 Hk1]. pose proof (remove_spec_incl (seen a (bucket_of nb k) r) k) as Hinc.
    rewrite H2 in *. cbn [fst] in *.
    intros j Hj. cbn [alist adis] in *. unfold setl. destruct (N.eqb_spec j (bucket_of nb k)) as [->|Hne].
    + split; [assumption|]. intros x Hx. destruct (G _ Hj) as [_ Hb]. destruct (Hb x) as [B C]; [auto|].
      split; [assumption|]. unfold nxt. cbn [last_after]. rewrite hkey_eqb_neq; [assumption|].
      intros ->. apply Hk1. now apply in_map.
    + destruct (G _ Hj) as [Hn Hb]. split; [assumption|]. intros x Hx. destruct (Hb x Hx) as [B C].
      split; [assumption|]. unfold nxt. cbn [last_after]. rewrite hkey_eqb_neq; [assumption|]. congruence.
  - (* rem writefail *)
    intros j Hj. cbn in Hj. apply disable_false in Hj as [Hj Hne]. cbn [alist]. unfold setl.
    destruct (N.eqb_spec j (bucket_of nb k)); [congruence|].
    destruct (G j Hj) as [Hn Hb]. split; [assumption|]. intros x Hx. destruct (Hb x Hx) as [B C].
    split; [assumption|]. unfold nxt. cbn [last_after]. rewrite hkey_eqb_neq; [assumption|]. congruence.
  - apply good_same; [assumption|]. reflexivity.
  - intros j Hj. cbn. split; [constructor|intros ? []].
  - intros j Hj. cbn [alist adis] in *. unfold setl. destruct (N.eqb_spec j i) as [->|Hne].
    + split; [constructor|intros ? []].
    + destruct (G _ Hj) as [Hn Hb]. split; [assumption|]. exact Hb.
  - apply good_same; [assumption|]. reflexivity.
Qed.

Lemma atrace_app a es1 es2 os a' : atrace cap nb ex a (es1 ++ es2) os a' ->
  exists os1 os2 a1, os = os1 ++ os2 /\ length os1 = length es1 /\
    atrace cap nb ex a es1 os1 a1 /\ atrace cap nb ex a1 es2 os2 a'.
Proof.
  revert a os. induction es1 as [|e es1 IH]; intros a os H.
  - exists [], os, a. repeat split; auto. constructor.
  - cbn in H. inversion H; subst. match goal with T : atrace _ _ _ _ (es1 ++ es2) _ _ |- _ => destruct (IH _ _ T) as (os1 & os2 & a2 & -> & L & T1 & T2) end.
    exists (o :: os1), os2, a2. repeat split; auto; [cbn; congruence|]. econstructor; eauto.
Qed.

Lemma atrace_good : forall es os a a' cur, atrace cap nb ex a es os a' -> GOOD a cur ->
  Forall not_corrupt_remove es -> GOOD a' (fun k => last_value k (cur k) es os).
Proof.
  intros es os a a' cur T. revert cur. induction T as [a|a e o a1 es os a2 Hs T IH]; intros cur G Hn.
  - exact G.
  - inversion Hn; subst. pose proof (aspec_good a cur e o a1 G H1 Hs) as G1.
    specialize (IH _ G1 H2). exact IH.
Qed.

Lemma lookup_in l k v : lookup_spec l k = Some v -> exists e, In e l /\ ekey e = k /\ eval e = v.
Proof.
  induction l as [|x l IH]; cbn [lookup_spec]; [discriminate|].
  destruct (hkey_eqb k (ekey x)) eqn:E.
  - apply hkey_eqb_eq in E. intros [= <-]. exists x. cbn. auto.
  - intros H. destruct (IH H) as (e & He & ? & ?). exists e. cbn. auto.
Qed.

Lemma hit_is_last es os k r v tl a :
  atrace cap nb ex empty_eng (es ++ [ELookup k r]) (os ++ ORes {| rstat := SOk; rval := v; rcbs := tl |} :: nil) a ->
  length os = length es -> Forall not_corrupt_remove es ->
  exists x, v = Some x /\ last_value k None es os = Some x.
Proof.
  intros T L Hn. apply atrace_app in T as (os1 & os2 & a1 & E & L1 & T1 & T2).
  assert (os1 = os /\ os2 = [ORes {| rstat := SOk; rval := v; rcbs := tl |}]) as [-> ->].
  { apply app_eq_length in E as [-> <-]; [auto|congruence]. }
  assert (G0 : GOOD empty_eng (fun _ => None)).
  { intros i _. cbn. split; [constructor|intros ? []]. }
  pose proof (atrace_good es os empty_eng a1 _ T1 G0 Hn) as G.
  inversion T2 as [|? ? ? ? ? ? ? Hstep Hrest]; subst.
  inversion Hstep as [| | | | | | | |a0 k0 r0 v0 Hd Hnf Hlk| | | | | | | | | |]; subst.
  exists v0. split; [reflexivity|].
  destruct (seen_sub _ (bucket_of nb k) r _ G Hd) as [_ Hs].
  destruct (lookup_in _ _ _ Hlk) as (e & He & <- & <-). apply Hs in He.
  destruct (G _ Hd) as [_ Hb]. now apply Hb.
Qed.

Lemma could_false_miss a k r x a' :
  atrace cap nb ex a [ECouldExist k; ELookup k r] [OBool false; ORes x] a' -> rstat x <> SOk.
Proof.
  intros T. inversion T as [|? ? ? ? ? ? ? Hc T1]; subst. inversion T1 as [|? ? ? ? ? ? ? Hl _]; subst.
  inversion Hc as [| | | | | | | | | | | | | | |a0 k0 b Himp| | |]; subst.
  specialize (Himp eq_refl).
  inversion Hl; subst; try discriminate.
  destruct Himp as [H0|H0]; [congruence|].
  destruct r; cbn [seen] in *; try congruence; discriminate.
Qed.

Lemma lookup_last l e : ~ In (ekey e) (map ekey l) -> lookup_spec (l ++ [e]) (ekey e) = Some (eval e).
Proof.
  induction l as [|x l IH]; cbn; intros H; [now rewrite hkey_eqb_refl|].
  rewrite hkey_eqb_neq by (intros Hx; apply H; auto). apply IH. tauto.
Qed.

Lemma insert_then_hit a cur k v r x o2 a' : GOOD a cur ->
  atrace cap nb ex a [EInsert k v r WrOk; ELookup k RdOk] [ORes x; o2] a' -> rstat x = SOk ->
  o2 = ORes {| rstat := SOk; rval := Some v; rcbs := [] |}.
Proof.
  intros G T Hx. inversion T as [|? ? ? ? ? ? ? Hi0 T1]; subst. inversion T1 as [|? ? ? ? ? ? ? Hl _]; subst.
  inversion Hi0 as [| |a0 k0 v0 r0 rest old after dead ev Hd Hnf Hrem Hins| | | | | | | | | | | | | | | |];
    subst; try discriminate.
  destruct (seen_sub a (bucket_of nb k) r cur G Hd) as [Hnd _].
  pose proof (remove_spec_nodup _ k Hnd) as [Hn1 Hk1]. rewrite Hrem in *. cbn [fst] in *.
  destruct (insert_spec_shape _ _ _ _ _ _ _ Hins Hn1) as (kept & -> & Hi & _).
  assert (HL : lookup_spec (kept ++ [{| ekey := k; eval := v |}]) k = Some v).
  { apply (lookup_last kept {| ekey := k; eval := v |}). cbn. intros Hin. apply Hk1.
    apply in_map_iff in Hin as (y & <- & Hy). apply in_map. auto. }
  inversion Hl; subst; cbn [alist adis seen] in *; unfold setl in *; try rewrite N.eqb_refl in *; congruence.
Qed.
End L.
