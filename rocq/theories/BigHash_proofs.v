From Coq Require Import ZifyBool ZifyNat ZifyN.
From Verif Require Import Bytes BucketStorage_model BucketStorage_proofs Bucket_model Bucket_spec
  Bucket_proofs BloomFilter_model BloomFilter_spec BloomFilter_client BloomFilter_proofs
  BigHash_model BigHash_spec BigHash_client.
Local Open Scope N_scope.

(** ** facts about the list specification *)
Lemma remove_spec_incl l k : forall e, In e (fst (remove_spec l k)) -> In e l.
Proof.
  induction l as [|x l IH]; cbn [remove_spec]; intros e H; [destruct H|].
  destruct (hkey_eqb k (ekey x)); [right; exact H|].
  destruct (remove_spec l k) as [a b]. cbn [fst] in *. destruct H as [<-|H]; [now left|right; auto].
Qed.
Lemma remove_spec_nodup l k : NoDup (map ekey l) ->
  NoDup (map ekey (fst (remove_spec l k))) /\ ~ In k (map ekey (fst (remove_spec l k))).
Proof.
  induction l as [|x l IH]; cbn [remove_spec map]; intros H; [split; [constructor|intros []]|].
  inversion H as [|? ? Hn Hd]; subst.
  destruct (hkey_eqb k (ekey x)) eqn:E.
  - apply hkey_eqb_eq in E. subst k. cbn [fst]. auto.
  - specialize (IH Hd). pose proof (remove_spec_incl l k) as Hi.
    destruct (remove_spec l k) as [a b]. cbn [fst map] in *. destruct IH as [I1 I2]. split.
    + constructor; [|assumption]. intros Hin. apply Hn. apply in_map_iff in Hin as (y & <- & Hy).
      apply in_map. auto.
    + intros [Ek|Hin]; [|auto]. subst k. rewrite (proj2 (hkey_eqb_eq _ _) eq_refl) in E. discriminate.
Qed.
Lemma lookup_none_iff l k : lookup_spec l k = None <-> ~ In k (map ekey l).
Proof.
  induction l as [|x l IH]; cbn [lookup_spec map]; [tauto|].
  destruct (hkey_eqb k (ekey x)) eqn:E.
  - apply hkey_eqb_eq in E. subst k. split; [discriminate|]. intros H. exfalso. apply H. now left.
  - rewrite IH. split; intros H; [|intros Hin; apply H; now right].
    intros [Ek|Hin]; [|auto]. subst k. rewrite (proj2 (hkey_eqb_eq _ _) eq_refl) in E. discriminate.
Qed.
Lemma remove_none_iff l k : snd (remove_spec l k) = [] <-> ~ In k (map ekey l).
Proof.
  induction l as [|x l IH]; cbn [remove_spec map]; [tauto|].
  destruct (hkey_eqb k (ekey x)) eqn:E.
  - apply hkey_eqb_eq in E. subst k. split; [discriminate|]. intros H. exfalso. apply H. now left.
  - destruct (remove_spec l k) as [a b]. cbn [snd] in *. rewrite IH.
    split; intros H; [|intros Hin; apply H; now right].
    intros [Ek|Hin]; [|auto]. subst k. rewrite (proj2 (hkey_eqb_eq _ _) eq_refl) in E. discriminate.
Qed.
Lemma remove_at_most_one l k : (length (snd (remove_spec l k)) <= 1)%nat.
Proof.
  induction l as [|x l IH]; cbn [remove_spec]; [cbn; lia|].
  destruct (hkey_eqb k (ekey x)); [cbn; lia|].
  destruct (remove_spec l k). exact IH.
Qed.
Lemma remove_none_same l k : snd (remove_spec l k) = [] -> fst (remove_spec l k) = l.
Proof.
  induction l as [|x l IH]; cbn [remove_spec]; [reflexivity|].
  destruct (hkey_eqb k (ekey x)); [discriminate|].
  destruct (remove_spec l k). cbn [fst snd] in *. intros H. now rewrite IH.
Qed.

Lemma make_room_incl cap need l e : In e (snd (make_room cap need l)) -> In e l.
Proof.
  revert e. induction l as [|x l IH]; intros e; cbn [make_room].
  - destruct (_ <=? _)%nat; cbn; auto.
  - destruct (_ <=? _)%nat; cbn [snd]; [auto|].
    destruct (make_room cap need l). intros H. right. apply IH. exact H.
Qed.
Lemma make_room_suffix cap need l : exists p, l = p ++ snd (make_room cap need l).
Proof.
  induction l as [|x l [p IH]]; cbn [make_room].
  - destruct (_ <=? _)%nat; exists []; reflexivity.
  - destruct (_ <=? _)%nat; cbn [snd]; [exists []; reflexivity|].
    destruct (make_room cap need l). cbn [snd] in *. exists (x :: p). cbn. now rewrite <- IH.
Qed.
Lemma nodup_filter_map {A B} (g : A -> B) f l : NoDup (map g l) -> NoDup (map g (filter f l)).
Proof.
  induction l as [|x l IH]; cbn; intros H; [constructor|]. inversion H as [|? ? Hn Hd]; subst.
  destruct (f x); [|auto]. cbn. constructor; [|auto]. intros Hin. apply Hn.
  apply in_map_iff in Hin as (y & <- & Hy). apply filter_In in Hy as [Hy _]. now apply in_map.
Qed.
Lemma nodup_app_r {A} (a b : list A) : NoDup (a ++ b) -> NoDup b.
Proof. induction a; cbn; [auto|]. intros H. inversion H; auto. Qed.

Lemma insert_spec_shape cap ex l e after dead ev :
  insert_spec cap ex l e = (after, dead, ev) -> NoDup (map ekey l) ->
  exists kept, after = kept ++ [e] /\ (forall x, In x kept -> In x l) /\ NoDup (map ekey kept).
Proof.
  unfold insert_spec. intros H Hn. destruct (_ <=? _)%nat.
  - inversion H; subst. exists l. auto.
  - pose proof (make_room_incl cap (cost e) (filter (fun x => negb (ex (eval x))) l)) as Hi.
    destruct (make_room_suffix cap (cost e) (filter (fun x => negb (ex (eval x))) l)) as [p Hp].
    destruct (make_room _ _ _) as [ev' kept]. cbn [snd] in *. inversion H; subst.
    exists kept. split; [reflexivity|]. split.
    + intros x Hx. apply Hi in Hx. now apply filter_In in Hx.
    + apply (nodup_filter_map ekey (fun x => negb (ex (eval x)))) in Hn. rewrite Hp, map_app in Hn.
      now apply nodup_app_r in Hn.
Qed.
Lemma nodup_snoc {A} (l : list A) x : NoDup l -> ~ In x l -> NoDup (l ++ [x]).
Proof.
  induction l as [|y l IH]; cbn; intros H Hn; [constructor; [intros []|constructor]|].
  inversion H; subst. constructor; [|apply IH; tauto].
  intros Hin. apply in_app_iff in Hin as [Hin|[->|[]]]; tauto.
Qed.

Lemma insert_spec_keys cap ex l e after dead ev :
  insert_spec cap ex l e = (after, dead, ev) -> NoDup (map ekey l) -> ~ In (ekey e) (map ekey l) ->
  NoDup (map ekey after) /\ forall x, In x after -> x = e \/ In x l.
Proof.
  intros H Hn He. destruct (insert_spec_shape _ _ _ _ _ _ _ H Hn) as (kept & -> & Hi & Hk). split.
  - rewrite map_app. apply nodup_snoc; [assumption|]. intros Hin. apply He.
    apply in_map_iff in Hin as (y & <- & Hy). apply in_map. auto.
  - intros x Hx. apply in_app_iff in Hx as [Hx|[->|[]]]; auto.
Qed.

Section P.
Variable comb : N -> N -> N.
Variable csum : N -> storage -> N.
Variable base : N.
Variable nb : N.
Variable chk : option (list byte -> bool).
Variable cap : nat.
Variable bucketSize : N.
Hypothesis Hcap : N.of_nat cap < two32.
Hypothesis Hbs : 0 < bucketSize.
Hypothesis Hnb : 0 < nb /\ nb + 100 <= two32.
Hypothesis Hoff : base + bucketSize * nb < two64.

Notation off := (bucketOffset bucketSize base).
Notation good := (goodBlock csum).

(** bucket arithmetic *)
Lemma bucketId_eq k : bucketId nb k = bucket_of nb k.
Proof.
  unfold bucketId, bucket_of, wrap32. apply N.mod_small.
  pose proof (N.mod_lt (khash k) nb). lia.
Qed.
Lemma bucket_lt k : bucket_of nb k < nb.
Proof. unfold bucket_of. apply N.mod_lt. lia. Qed.
Lemma off_eq i : i < nb -> off i = base + bucketSize * i.
Proof. intros H. unfold bucketOffset, wrap64. rewrite (N.mod_small (bucketSize * i)), N.mod_small by nia. reflexivity. Qed.
Lemma off_inj i j : i < nb -> j < nb -> (off i =? off j) = (i =? j).
Proof.
  intros Hi Hj. rewrite !off_eq by assumption.
  destruct (N.eqb_spec i j) as [->|Hn]; [apply N.eqb_refl|]. apply N.eqb_neq. nia.
Qed.

(** ** bloom filter *)
Definition BL (ob : option bf) (P : N -> N -> Prop) : Prop :=
  match ob with
  | None => True
  | Some f => exists sds ht fh, Inv comb f nb sds ht fh /\
      forall i h, i < nb -> P i h -> In h (live i fh)
  end.

Lemma BL_mono ob (P Q : N -> N -> Prop) :
  (forall i h, i < nb -> Q i h -> P i h) -> BL ob P -> BL ob Q.
Proof.
  intros H. destruct ob as [f|]; [|auto]. cbn. intros (sds & ht & fh & I & Hp).
  exists sds, ht, fh. split; [assumption|]. auto.
Qed.

Lemma bfSet_ok s i h0 P : BL (bbloom s) P -> i < nb ->
  exists ob, bfSet comb s i h0 = Some (setBloom s ob) /\
    BL ob (fun j h => P j h \/ (j = i /\ h = h0)).
Proof.
  intros HB Hi. unfold bfSet. destruct (bbloom s) as [f|] eqn:E.
  - destruct HB as (sds & ht & fh & I & Hp).
    destruct (set_ok comb f nb sds ht fh i h0 I Hi) as (f' & -> & I' & _).
    exists (Some f'). split; [reflexivity|]. exists sds, ht, (FSet i h0 :: fh). split; [assumption|].
    intros j h Hj [HP|[-> ->]]; cbn [live].
    + destruct (N.eqb_spec i j); [right|]; auto.
    + rewrite N.eqb_refl. now left.
  - exists None. split; [|exact Logic.I]. destruct s; cbn in *. now subst.
Qed.

Lemma bfClear_ok s i P : BL (bbloom s) P -> i < nb ->
  exists ob, bfClear s i = Some (setBloom s ob) /\ BL ob (fun j h => P j h /\ j <> i).
Proof.
  intros HB Hi. unfold bfClear. destruct (bbloom s) as [f|] eqn:E.
  - destruct HB as (sds & ht & fh & I & Hp).
    destruct (clear_ok comb f nb sds ht fh i I Hi) as (f' & -> & I' & _).
    exists (Some f'). split; [reflexivity|]. exists sds, ht, (FClear i :: fh). split; [assumption|].
    intros j h Hj [HP Hne]; cbn [live].
    destruct (N.eqb_spec i j); [congruence|]; auto.
  - exists None. split; [|exact Logic.I]. destruct s; cbn in *. now subst.
Qed.

Lemma bfSetAll_ok f sds ht i : i < nb -> forall es fh, Inv comb f nb sds ht fh ->
  exists f' fh', bfSetAll comb f i es = Some f' /\ Inv comb f' nb sds ht fh' /\
   (forall j h, j <> i -> In h (live j fh) -> In h (live j fh')) /\
   (forall h, In h (live i fh) \/ In h (map (fun e => khash (ekey e)) es) -> In h (live i fh')).
Proof.
  intros Hi es. revert f. induction es as [|e es IH]; intros f fh I; cbn [bfSetAll map].
  - exists f, fh. repeat split; auto; try apply I. intros h [H|[]]; auto.
  - destruct (set_ok comb f nb sds ht fh i (khash (ekey e)) I Hi) as (f1 & -> & I1 & _).
    destruct (IH f1 _ I1) as (f2 & fh2 & E2 & I2 & A & B). exists f2, fh2.
    split; [assumption|]. split; [assumption|]. split.
    + intros j h Hne Hin. apply A; [assumption|]. cbn [live].
      destruct (N.eqb_spec i j); [congruence|assumption].
    + intros h Hin. apply B. cbn [live]. rewrite N.eqb_refl. cbn [In] in *. tauto.
Qed.

Lemma bfRebuild_ok s i st es P : BL (bbloom s) P -> i < nb -> RepB st es ->
  exists ob, bfRebuild comb s i st = Some (setBloom s ob) /\
    BL ob (fun j h => (j <> i /\ P j h) \/ (j = i /\ In h (map (fun e => khash (ekey e)) es))).
Proof.
  intros HB Hi HR. unfold bfRebuild. destruct (bbloom s) as [f|] eqn:E.
  - destruct HB as (sds & ht & fh & I & Hp).
    destruct (clear_ok comb f nb sds ht fh i I Hi) as (f' & -> & I' & _).
    rewrite (entries_spec st es HR).
    destruct (bfSetAll_ok f' sds ht i Hi es _ I') as (f2 & fh2 & -> & I2 & A & B).
    exists (Some f2). split; [reflexivity|]. exists sds, ht, fh2. split; [assumption|].
    intros j h Hj [[Hne HP]|[-> Hin]].
    + apply A; [assumption|]. cbn [live]. destruct (N.eqb_spec i j); [congruence|]; auto.
    + apply B. now right.
  - exists None. split; [|exact Logic.I]. destruct s; cbn in *. now subst.
Qed.

Lemma bfReject_ok s i h P : BL (bbloom s) P -> i < nb ->
  exists b, bfReject comb s i h = Some b /\ (b = true -> ~ P i h).
Proof.
  intros HB Hi. unfold bfReject. destruct (bbloom s) as [f|] eqn:E.
  - destruct HB as (sds & ht & fh & I & Hp).
    rewrite (exist_ok comb f nb sds ht fh i h I Hi). eexists. split; [reflexivity|].
    intros Hb HP. apply negb_true_iff in Hb.
    assert (forallb (fun sd => existsb (fun k => comb k sd mod ht =? comb h sd mod ht) (live i fh)) sds = true).
    { apply forallb_forall. intros sd _. apply existsb_exists. exists h. split; [auto|]. apply N.eqb_refl. }
    congruence.
  - exists false. split; [reflexivity|discriminate].
Qed.

(** ** disabled buckets *)
Definition VB (v : list byte) (D : N -> bool) : Prop :=
  N.of_nat (length v) = vbcBytes nb /\ forall i, i < nb -> gbit v (i / 100) = D i.

Lemma vbcBytes_eq : vbcBytes nb = ((nb + 99) / 100 + 7) / 8.
Proof.
  unfold vbcBytes, bucketsPerBit, wrap32. rewrite (N.mod_small (nb + 100 - 1)) by lia.
  rewrite N.mod_small by (assert (two32 = 4294967296) by reflexivity; lia).
  do 3 f_equal. lia.
Qed.

Lemma vb_range v D i : VB v D -> i < nb ->
  N.of_nat (N.to_nat (i / bucketsPerBit / 8)) + (i / bucketsPerBit) mod 8 / 8 < N.of_nat (length v).
Proof. intros [L _] Hi. rewrite L, vbcBytes_eq. unfold bucketsPerBit. lia. Qed.

Lemma vb_pos i : 8 * N.of_nat (N.to_nat (i / bucketsPerBit / 8)) + (i / bucketsPerBit) mod 8 = i / 100.
Proof. unfold bucketsPerBit. lia. Qed.

Lemma isBucketValid_ok s D i : VB (bvalid s) D -> i < nb ->
  isBucketValid s i = Some (negb (D i)).
Proof.
  intros H Hi. unfold isBucketValid. rewrite bitGet_spec by (apply (vb_range _ D); assumption).
  rewrite vb_pos. destruct H as [_ H]. now rewrite H.
Qed.

Lemma disableBucket_ok s D i : VB (bvalid s) D -> i < nb ->
  exists v, disableBucket s i = Some {| bgen := bgen s; bbloom := bbloom s; bvalid := v; bdev := bdev s |}
    /\ VB v (disable D i).
Proof.
  intros H Hi. unfold disableBucket.
  destruct (bitSet_spec (bvalid s) (N.to_nat (i / bucketsPerBit / 8)) ((i / bucketsPerBit) mod 8))
    as (v & -> & L & G); [apply (vb_range _ D); assumption|].
  exists v. split; [reflexivity|]. destruct H as [HL H]. split; [congruence|].
  intros j Hj. rewrite G, vb_pos, H by assumption. unfold disable. f_equal.
  rewrite N.eqb_sym. reflexivity.
Qed.

(** ** simulation *)
Definition need (a : aeng) (i h : N) : Prop :=
  adis a i = false /\ In h (map (fun e => khash (ekey e)) (alist a i)).

Record SIM (s : bighash) (a : aeng) : Prop := {
  sim_bl : BL (bbloom s) (need a);
  sim_vb : VB (bvalid s) (adis a);
  sim_len : forall i, i < nb -> length (sdata (bk_st (bdev s (off i)))) = cap;
  sim_dev : forall i, i < nb -> adis a i = false ->
     if good (bgen s) (bdev s (off i))
     then RepB (bk_st (bdev s (off i))) (alist a i) /\ scap (bk_st (bdev s (off i))) = cap
     else alist a i = [];
  sim_keys : forall i, i < nb -> adis a i = false ->
     NoDup (map ekey (alist a i)) /\ forall e, In e (alist a i) -> bucket_of nb (ekey e) = i
}.

Lemma readBucket_ok s a i r : SIM s a -> i < nb -> adis a i = false -> rd_ok csum cap s r -> r <> RdFail ->
  exists st, readBucket csum bucketSize base s i r = Some (s, Some st)
    /\ RepB st (seen a i r) /\ scap st = cap.
Proof.
  intros S Hi Hd Hr Hnf. unfold readBucket. destruct r as [| |b]; [|congruence|]; cbn [seen].
  - pose proof (sim_dev _ _ S i Hi Hd) as HD. pose proof (sim_len _ _ S i Hi) as HL.
    destruct (good (bgen s) (bdev s (off i))).
    + destruct HD. eauto.
    + eexists. split; [reflexivity|]. rewrite HD. split; [apply initB; rewrite HL; assumption|exact HL].
  - destruct Hr as [HL ->]. eexists. split; [reflexivity|].
    split; [apply initB; rewrite HL; assumption|exact HL].
Qed.

Lemma readBucket_fail s a i : SIM s a -> i < nb -> adis a i = false ->
  exists s', readBucket csum bucketSize base s i RdFail = Some (s', None)
    /\ SIM s' {| alist := alist a; adis := disable (adis a) i |} /\ bgen s' = bgen s /\ bdev s' = bdev s.
Proof.
  intros S Hi Hd. unfold readBucket.
  destruct (disableBucket_ok s (adis a) i (sim_vb _ _ S) Hi) as (v & -> & HV).
  eexists. split; [reflexivity|]. split; [|split; reflexivity].
  assert (HD : forall j, disable (adis a) i j = false -> adis a j = false).
  { unfold disable. intros j Hj. apply orb_false_iff in Hj. tauto. }
  constructor; cbn [bbloom bvalid bdev bgen alist adis].
  - eapply BL_mono; [|apply (sim_bl _ _ S)]. unfold need; cbn. intros j h _ [Hj Hin]. auto.
  - exact HV.
  - apply S.
  - intros j Hj Hj2. apply (sim_dev _ _ S j Hj). auto.
  - intros j Hj Hj2. apply (sim_keys _ _ S j Hj). auto.
Qed.

Lemma disable_self D i : disable D i i = true.
Proof. unfold disable. rewrite N.eqb_refl. apply orb_true_r. Qed.
Lemma disable_false D i j : disable D i j = false -> D j = false /\ j <> i.
Proof.
  intros H. unfold disable in H. apply orb_false_iff in H as [H1 H2]. split; [assumption|].
  intros ->. rewrite N.eqb_refl in H2. discriminate.
Qed.

(** Writing a bucket whose storage represents [es], bloom filter already updated. *)
Lemma writeBucket_good s a i st es ob :
  SIM s a -> i < nb -> adis a i = false -> RepB st es -> scap st = cap ->
  NoDup (map ekey es) -> (forall e, In e es -> bucket_of nb (ekey e) = i) ->
  BL ob (need {| alist := setl (alist a) i es; adis := adis a |}) ->
  exists s', writeBucket csum bucketSize base (setBloom s ob) i st WrOk = Some (s', true)
    /\ SIM s' {| alist := setl (alist a) i es; adis := adis a |}.
Proof.
  intros S Hi Hd HR Hc Hn Hb HB. unfold writeBucket. eexists. split; [reflexivity|].
  constructor; cbn [setBloom bbloom bvalid bdev bgen alist adis].
  - exact HB.
  - apply S.
  - intros j Hj. unfold updDev. rewrite off_inj by assumption.
    destruct (N.eqb_spec j i); [|now apply S]. cbn.
    rewrite <- Hc. apply (rep_len _ _ (repb_rep _ _ HR)).
  - intros j Hj Hj2. unfold updDev, setl. rewrite off_inj by assumption.
    destruct (N.eqb_spec j i) as [->|Hne].
    + unfold goodBlock. cbn [bk_gen bk_st bk_sum]. rewrite !N.eqb_refl. cbn [andb]. auto.
    + apply (sim_dev _ _ S); assumption.
  - intros j Hj Hj2. unfold setl. destruct (N.eqb_spec j i) as [->|Hne]; [auto|].
    apply (sim_keys _ _ S); assumption.
Qed.

Lemma writeBucket_fail s a i st b ob es' :
  SIM s a -> i < nb -> adis a i = false -> length (sdata (bk_st b)) = cap ->
  (exists P, BL ob P /\ forall j h, j < nb -> j <> i -> need a j h -> P j h) ->
  exists s3 s4, writeBucket csum bucketSize base (setBloom s ob) i st (WrFail b) = Some (s3, false)
    /\ bfClear s3 i = Some s4
    /\ SIM s4 {| alist := setl (alist a) i es'; adis := disable (adis a) i |}.
Proof.
  intros S Hi Hd Hl (P & HB & HP). unfold writeBucket.
  set (s1 := {| bgen := bgen (setBloom s ob); bbloom := bbloom (setBloom s ob);
                bvalid := bvalid (setBloom s ob);
                bdev := updDev (bdev (setBloom s ob)) (off i) b |}).
  destruct (disableBucket_ok s1 (adis a) i) as (v & E & HV); [apply S|assumption|].
  rewrite E.
  match goal with |- context[Some (?x, false)] => set (s2 := x) end.
  destruct (bfClear_ok s2 i P HB Hi) as (ob2 & E2 & HB2).
  exists s2, (setBloom s2 ob2). split; [reflexivity|]. split; [exact E2|].
  constructor; cbn [s1 s2 setBloom bbloom bvalid bdev bgen alist adis].
  - eapply BL_mono; [|exact HB2]. unfold need; cbn. intros j h Hj [Hdj Hin].
    apply disable_false in Hdj as [Hdj Hne]. split; [|assumption]. apply HP; [assumption|assumption|].
    split; [assumption|]. unfold setl in Hin. destruct (N.eqb_spec j i); [congruence|assumption].
  - exact HV.
  - intros j Hj. unfold updDev. rewrite off_inj by assumption.
    destruct (N.eqb_spec j i); [assumption|now apply S].
  - intros j Hj Hj2. apply disable_false in Hj2 as [Hj2 Hne]. unfold updDev, setl.
    rewrite off_inj by assumption. destruct (N.eqb_spec j i); [congruence|].
    apply (sim_dev _ _ S); assumption.
  - intros j Hj Hj2. apply disable_false in Hj2 as [Hj2 Hne]. unfold setl.
    destruct (N.eqb_spec j i); [congruence|]. apply (sim_keys _ _ S); assumption.
Qed.

Lemma seen_keys s a i r : SIM s a -> i < nb -> adis a i = false ->
  NoDup (map ekey (seen a i r)) /\ forall e, In e (seen a i r) -> In e (alist a i) /\ bucket_of nb (ekey e) = i.
Proof.
  intros S Hi Hd. destruct (sim_keys _ _ S i Hi Hd) as [Hn Hb].
  destruct r; cbn [seen]; split; auto; [constructor|intros ? []].
Qed.

Lemma insert_step s a k v r w : SIM s a -> ev_ok csum base nb cap bucketSize s (EInsert k v r w) ->
  exists s' o a', exec comb csum bucketSize base nb chk s (EInsert k v r w) = Some (s', o)
    /\ aspec cap nb (opt_expired chk) a (EInsert k v r w) o a' /\ SIM s' a'.
Proof.
  intros S (Hcost & Hh & Hr & Hw). cbn [exec]. unfold insertBH. rewrite bucketId_eq.
  set (i := bucket_of nb k). assert (Hi : i < nb) by apply bucket_lt.
  rewrite (isBucketValid_ok s (adis a) i (sim_vb _ _ S) Hi), negb_involutive.
  destruct (adis a i) eqn:Hd.
  { do 3 eexists. split; [reflexivity|]. split; [now constructor|assumption]. }
  assert (Hrf : r = RdFail \/ r <> RdFail) by (destruct r; (now left) || (right; discriminate)).
  destruct Hrf as [->|Hrf].
  { destruct (readBucket_fail s a i S Hi Hd) as (s1 & -> & S1 & _).
    do 3 eexists. split; [reflexivity|]. split; [now constructor|assumption]. }
  destruct (readBucket_ok s a i r S Hi Hd Hr Hrf) as (st & -> & HR & Hc).
  destruct (seen_keys s a i r S Hi Hd) as [Hnd Hbk].
  destruct (remove_ok st (seen a i r) k HR) as (st1 & -> & C1 & R1).
  pose proof (remove_spec_nodup (seen a i r) k Hnd) as [Hnd1 Hk1].
  pose proof (remove_spec_incl (seen a i r) k) as Hinc.
  pose proof (remove_none_same (seen a i r) k) as Hsame.
  destruct (remove_spec (seen a i r) k) as [rest old] eqn:ER. cbn [fst snd] in *.
  pose proof (insert_ok st1 rest {| ekey := k; eval := v |} chk R1) as HI.
  rewrite C1, Hc in HI. specialize (HI Hcost Hh).
  destruct (insert_spec cap (opt_expired chk) rest {| ekey := k; eval := v |}) as [[after dead] ev] eqn:EI.
  destruct HI as (st2 & -> & C2 & R2).
  destruct (insert_spec_keys _ _ _ _ _ _ _ EI Hnd1 Hk1) as [Hnd2 Hin2].
  assert (Hb2 : forall e, In e after -> bucket_of nb (ekey e) = i).
  { intros e He. apply Hin2 in He as [->|He]; [reflexivity|]. now apply Hbk, Hinc. }
  (* bloom update *)
  assert (HBF : exists ob, (if (length old + (length dead + length ev) =? 0)%nat
                            then bfSet comb s i (khash k) else bfRebuild comb s i st2) = Some (setBloom s ob)
            /\ BL ob (need {| alist := setl (alist a) i after; adis := adis a |})
            /\ exists P, BL ob P /\ forall j h, j < nb -> j <> i -> need a j h -> P j h).
  { destruct (Nat.eqb_spec (length old + (length dead + length ev)) 0) as [H0|H0].
    - destruct (bfSet_ok s i (khash k) (need a) (sim_bl _ _ S) Hi) as (ob & E & HB).
      exists ob. split; [assumption|]. split.
      + eapply BL_mono; [|exact HB]. unfold need; cbn. intros j h Hj [Hdj Hin]. unfold setl in Hin.
        destruct (N.eqb_spec j i) as [->|Hne]; [|left; auto].
        apply in_map_iff in Hin as (e & <- & He). apply Hin2 in He as [->|He]; [right; auto|].
        left. split; [assumption|]. apply (in_map (fun e => khash (ekey e))). apply Hbk. now apply Hinc.
      + exists (fun j h => need a j h \/ j = i /\ h = khash k). split; [exact HB|]. auto.
    - destruct (bfRebuild_ok s i st2 after (need a) (sim_bl _ _ S) Hi R2) as (ob & E & HB).
      exists ob. split; [assumption|]. split.
      + eapply BL_mono; [|exact HB]. unfold need; cbn. intros j h Hj [Hdj Hin]. unfold setl in Hin.
        destruct (N.eqb_spec j i) as [->|Hne]; [right|left]; auto.
      + eexists. split; [exact HB|]. intros j h Hj Hne Hx. left. split; assumption. }
  destruct HBF as (ob & -> & HB & HP).
  destruct w as [|b].
  - destruct (writeBucket_good s a i st2 after ob S Hi Hd R2 ltac:(congruence) Hnd2 Hb2 HB) as (s3 & -> & S3).
    do 3 eexists. split; [reflexivity|]. split; [|exact S3].
    eapply S_ins_ok; eauto.
  - destruct (writeBucket_fail s a i st2 b ob [] S Hi Hd Hw HP) as (s3 & s4 & -> & -> & S4).
    do 3 eexists. split; [reflexivity|]. split; [|exact S4]. now constructor.
Qed.

Lemma lookup_step s a k r : SIM s a -> ev_ok csum base nb cap bucketSize s (ELookup k r) ->
  exists s' o a', exec comb csum bucketSize base nb chk s (ELookup k r) = Some (s', o)
    /\ aspec cap nb (opt_expired chk) a (ELookup k r) o a' /\ SIM s' a'.
Proof.
  intros S Hr. cbn [exec ev_ok] in *. unfold lookupBH. rewrite bucketId_eq.
  set (i := bucket_of nb k). assert (Hi : i < nb) by apply bucket_lt.
  rewrite (isBucketValid_ok s (adis a) i (sim_vb _ _ S) Hi), negb_involutive.
  destruct (adis a i) eqn:Hd.
  { do 3 eexists. split; [reflexivity|]. split; [now constructor|assumption]. }
  destruct (bfReject_ok s i (khash k) (need a) (sim_bl _ _ S) Hi) as (rej & -> & Hrej).
  destruct rej.
  { do 3 eexists. split; [reflexivity|]. split; [|exact S]. apply S_look_filtered; [assumption|].
    apply lookup_none_iff. intros Hin. apply Hrej; [reflexivity|]. split; [assumption|].
    apply in_map_iff in Hin as (e & <- & He). apply (in_map (fun e => khash (ekey e))). exact He. }
  assert (Hrf : r = RdFail \/ r <> RdFail) by (destruct r; (now left) || (right; discriminate)).
  destruct Hrf as [->|Hrf].
  { destruct (readBucket_fail s a i S Hi Hd) as (s1 & -> & S1 & _).
    do 3 eexists. split; [reflexivity|]. split; [now constructor|assumption]. }
  destruct (readBucket_ok s a i r S Hi Hd Hr Hrf) as (st & -> & HR & Hc).
  rewrite (find_spec st _ k HR).
  destruct (lookup_spec (seen a i r) k) as [v|] eqn:EL.
  - do 3 eexists. split; [reflexivity|]. split; [|exact S]. now apply S_look_hit.
  - do 3 eexists. split; [reflexivity|]. split; [|exact S]. now apply S_look_miss.
Qed.

Lemma remove_step s a k r w : SIM s a -> ev_ok csum base nb cap bucketSize s (ERemove k r w) ->
  exists s' o a', exec comb csum bucketSize base nb chk s (ERemove k r w) = Some (s', o)
    /\ aspec cap nb (opt_expired chk) a (ERemove k r w) o a' /\ SIM s' a'.
Proof.
  intros S [Hr Hw]. cbn [exec]. unfold removeBH. rewrite bucketId_eq.
  set (i := bucket_of nb k). assert (Hi : i < nb) by apply bucket_lt.
  rewrite (isBucketValid_ok s (adis a) i (sim_vb _ _ S) Hi), negb_involutive.
  destruct (adis a i) eqn:Hd.
  { do 3 eexists. split; [reflexivity|]. split; [now constructor|assumption]. }
  destruct (bfReject_ok s i (khash k) (need a) (sim_bl _ _ S) Hi) as (rej & -> & Hrej).
  destruct rej.
  { do 3 eexists. split; [reflexivity|]. split; [|exact S]. apply S_rem_filtered; [assumption|].
    apply lookup_none_iff. intros Hin. apply Hrej; [reflexivity|]. split; [assumption|].
    apply in_map_iff in Hin as (e & <- & He). apply (in_map (fun e => khash (ekey e))). exact He. }
  assert (Hrf : r = RdFail \/ r <> RdFail) by (destruct r; (now left) || (right; discriminate)).
  destruct Hrf as [->|Hrf].
  { destruct (readBucket_fail s a i S Hi Hd) as (s1 & -> & S1 & _).
    do 3 eexists. split; [reflexivity|]. split; [now constructor|assumption]. }
  destruct (readBucket_ok s a i r S Hi Hd Hr Hrf) as (st & -> & HR & Hc).
  destruct (seen_keys s a i r S Hi Hd) as [Hnd Hbk].
  destruct (remove_ok st (seen a i r) k HR) as (st1 & -> & C1 & R1).
  pose proof (remove_spec_nodup (seen a i r) k Hnd) as [Hnd1 Hk1].
  pose proof (remove_spec_incl (seen a i r) k) as Hinc.
  pose proof (remove_at_most_one (seen a i r) k) as H1.
  destruct (remove_spec (seen a i r) k) as [rest old] eqn:ER. cbn [fst snd] in *.
  destruct old as [|e [|e2 old]]; [| |cbn in H1; lia]; cbn [length Nat.eqb].
  { do 3 eexists. split; [reflexivity|]. split; [|exact S]. apply S_rem_miss; auto.
    fold i. now rewrite ER. }
  destruct (bfRebuild_ok s i st1 rest (need a) (sim_bl _ _ S) Hi R1) as (ob & -> & HB).
  destruct w as [|b].
  - edestruct (writeBucket_good s a i st1 rest ob S Hi Hd R1) as (s3 & -> & S3); [congruence|assumption| | |].
    + intros x Hx. now apply Hbk, Hinc.
    + eapply BL_mono; [|exact HB]. unfold need; cbn. intros j h Hj [Hdj Hin]. unfold setl in Hin.
      destruct (N.eqb_spec j i) as [->|Hne]; [right|left]; auto.
    + do 3 eexists. split; [reflexivity|]. split; [|exact S3]. cbn [map]. now apply S_rem_ok.
  - edestruct (writeBucket_fail s a i st1 b ob [] S Hi Hd Hw) as (s3 & s4 & -> & -> & S4).
    { eexists. split; [exact HB|]. intros j h Hj Hne Hx. left. split; assumption. }
    do 3 eexists. split; [reflexivity|]. split; [|exact S4]. now constructor.
Qed.

Lemma reset_bl ob P : BL ob P ->
  match ob with
  | None => True
  | Some f => exists f', reset f = Some f' /\ BL (Some f') (fun _ _ => False)
      /\ filterByteSize f' = filterByteSize f
      /\ forall sds ht fh, Inv comb f nb sds ht fh -> Inv comb f' nb sds ht (FReset :: fh)
  end.
Proof.
  destruct ob as [f|]; [|auto]. intros (sds & ht & fh & I & _).
  destruct (reset_ok comb f nb sds ht fh I) as (f' & E & I' & B). exists f'. split; [assumption|].
  split; [exists sds, ht, (FReset :: fh); split; [assumption|]; intros ? ? ? []|].
  split; [assumption|]. intros sds2 ht2 fh2 I2.
  destruct (reset_ok comb f nb sds2 ht2 fh2 I2) as (f2 & E2 & I2' & _). congruence.
Qed.

Lemma vb_zero : VB (repeat 0 (N.to_nat (vbcBytes nb))) (fun _ => false).
Proof.
  split.
  - rewrite repeat_length. lia.
  - intros. apply gbit_repeat0.
Qed.

Lemma reset_step s a g : SIM s a -> ev_ok csum base nb cap bucketSize s (EReset g) ->
  exists s' o a', exec comb csum bucketSize base nb chk s (EReset g) = Some (s', o)
    /\ aspec cap nb (opt_expired chk) a (EReset g) o a' /\ SIM s' a'.
Proof.
  intros S Hg. cbn [exec ev_ok] in *. unfold resetBH.
  pose proof (reset_bl _ _ (sim_bl _ _ S)) as HB.
  assert (Hsim : forall ob, BL ob (fun _ _ => False) ->
    SIM {| bgen := g; bbloom := ob; bvalid := repeat 0 (N.to_nat (vbcBytes nb)); bdev := bdev s |}
        {| alist := fun _ => []; adis := fun _ => false |}).
  { intros ob HO. constructor; cbn [bbloom bvalid bdev bgen alist adis].
    - eapply BL_mono; [|exact HO]. unfold need; cbn. tauto.
    - apply vb_zero.
    - apply S.
    - intros i Hi _. unfold goodBlock. destruct (N.eqb_spec (bk_gen (bdev s (off i))) g); [|reflexivity].
      exfalso. now apply (Hg i).
    - intros i Hi _. split; [constructor|intros ? []]. }
  destruct (bbloom s) as [f|].
  - destruct HB as (f' & -> & HB & _). do 3 eexists. split; [reflexivity|]. split; [constructor|]. auto.
  - do 3 eexists. split; [reflexivity|]. split; [constructor|]. apply Hsim. exact Logic.I.
Qed.

Lemma restart_step s a g : SIM s a ->
  exec comb csum bucketSize base nb chk s (ERestart g) = Some (s, ONone).
Proof.
  intros S. cbn [exec]. unfold persistBH, resetBH, recoverBH.
  pose proof (reset_bl _ _ (sim_bl _ _ S)) as HB. pose proof (sim_bl _ _ S) as HB0.
  pose proof (sim_vb _ _ S) as [HL _].
  destruct s as [sg sb sv sd]; cbn [bbloom bgen bvalid bdev] in *.
  destruct sb as [f|]; cbn [bbloom bgen bvalid bdev pd_gen pd_bucketSize pd_base pd_numBuckets pd_vbBuckets pd_vbPerBit pd_vbBytes].
  - destruct HB as (f' & E & _ & EB & HI). destruct HB0 as (sds & ht & fh & I & _).
    destruct (persist_ok comb kPersistFragmentSize f f' nb sds ht fh (FReset :: fh)) as (h & recs & EP & ER);
      [reflexivity| |assumption|auto|assumption|].
    { assert (two32 < two64) by reflexivity. lia. }
    unfold persist, recover. rewrite EP, E. cbn [bbloom bdev].
    specialize (ER []). rewrite app_nil_r in ER. rewrite ER.
    cbn [bbloom bgen bvalid bdev pd_gen pd_bucketSize pd_base pd_numBuckets pd_vbBuckets pd_vbPerBit pd_vbBytes].
    rewrite !N.eqb_refl. cbn [andb negb]. rewrite HL, N.eqb_refl. reflexivity.
  - cbn [bbloom bgen bvalid bdev pd_gen pd_bucketSize pd_base pd_numBuckets pd_vbBuckets pd_vbPerBit pd_vbBytes].
    rewrite !N.eqb_refl. cbn [andb negb]. rewrite HL, N.eqb_refl. reflexivity.
Qed.

Lemma step_ok s a e : SIM s a -> ev_ok csum base nb cap bucketSize s e ->
  exists s' o a', exec comb csum bucketSize base nb chk s e = Some (s', o)
    /\ aspec cap nb (opt_expired chk) a e o a' /\ SIM s' a'.
Proof.
  intros S He. destruct e.
  - now apply insert_step.
  - now apply lookup_step.
  - now apply remove_step.
  - cbn [exec]. unfold couldExistBH. rewrite bucketId_eq.
    destruct (bfReject_ok s (bucket_of nb k) (khash k) (need a) (sim_bl _ _ S) (bucket_lt k)) as (rej & -> & Hrej).
    do 3 eexists. split; [reflexivity|]. split; [|exact S]. constructor. intros Hb.
    apply negb_false_iff in Hb. specialize (Hrej Hb).
    destruct (adis a (bucket_of nb k)) eqn:Hd; [now left|right].
    apply lookup_none_iff. intros Hin. apply Hrej. split; [assumption|].
    apply in_map_iff in Hin as (x & <- & He2). apply (in_map (fun e => khash (ekey e))). exact He2.
  - now apply reset_step.
  - destruct He as (Hi & Hl & Hg). cbn [exec].
    do 3 eexists. split; [reflexivity|]. split; [constructor|].
    constructor; cbn [bbloom bvalid bdev bgen alist adis].
    + eapply BL_mono; [|apply (sim_bl _ _ S)]. unfold need; cbn. intros j h Hj [Hd Hin]. split; [assumption|].
      unfold setl in Hin. destruct (N.eqb_spec j idx); [destruct Hin|assumption].
    + apply S.
    + intros j Hj. unfold updDev. rewrite off_inj by assumption.
      destruct (N.eqb_spec j idx); [assumption|now apply S].
    + intros j Hj Hj2. unfold updDev, setl. rewrite off_inj by assumption.
      destruct (N.eqb_spec j idx) as [->|Hne].
      * now rewrite Hg.
      * apply (sim_dev _ _ S); assumption.
    + intros j Hj Hj2. unfold setl. destruct (N.eqb_spec j idx) as [->|Hne].
      * split; [constructor|intros ? []].
      * apply (sim_keys _ _ S); assumption.
  - rewrite (restart_step s a gen S). do 3 eexists. split; [reflexivity|]. split; [constructor|exact S].
Qed.

Lemma run_ok : forall es s a, SIM s a -> evs_ok comb csum base nb chk cap bucketSize s es ->
  exists s' os a', execs comb csum bucketSize base nb chk s es = Some (s', os)
    /\ atrace cap nb (opt_expired chk) a es os a' /\ SIM s' a'.
Proof.
  induction es as [|e es IH]; intros s a S Hok; cbn [execs evs_ok] in *.
  - do 3 eexists. split; [reflexivity|]. split; [constructor|exact S].
  - destruct Hok as [He Hes]. destruct (step_ok s a e S He) as (s1 & o & a1 & E & T & S1).
    rewrite E in *. destruct (IH s1 a1 S1 Hes) as (s2 & os & a2 & -> & T2 & S2).
    do 3 eexists. split; [reflexivity|]. split; [|exact S2]. econstructor; eauto.
Qed.
End P.
