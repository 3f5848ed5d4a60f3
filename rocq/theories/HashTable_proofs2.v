(** Proofs for C03, continued: iteration. *)
From Coq Require FinFun.
From Verif Require Import Bytes HashTable_model HashTable_spec HashTable_proofs.

Lemma bucket_range hash power k : In (getBucket hash power k) (all_buckets power).
Proof.
  unfold all_buckets, getBucket, mask. rewrite N.shiftl_1_l.
  replace (2 ^ power - 1)%N with (N.ones power) by (rewrite N.ones_equiv, N.sub_1_r; reflexivity).
  rewrite N.land_ones.
  assert (hash k mod 2 ^ power < 2 ^ power)%N by (apply N.mod_lt; apply N.pow_nonzero; discriminate).
  apply in_map_iff. exists (N.to_nat (hash k mod 2 ^ power)). split; [apply N2Nat.id|].
  apply in_seq. lia.
Qed.
Lemma all_buckets_nodup power : NoDup (all_buckets power).
Proof.
  unfold all_buckets. apply FinFun.Injective_map_NoDup; [|apply seq_NoDup].
  intros a b. apply Nat2N.inj.
Qed.

Section P.
Variable hash : key -> N.
Variable power : N.
Notation bk := (getBucket hash power).

Definition exact (e : smap * N * list node) : Prop :=
  let '(s, b, l) := e in
  NoDup l /\ NoDup (map (keyof s) l) /\ forall n, In n l <-> indexed s n = true /\ bk (keyof s n) = b.

Lemma scanned_exact cs : forall t s m F t' outs, rel hash power t s m -> legals s cs -> m + length cs <= F ->
  execs hash power F t cs = Some (t', outs) -> Forall exact (scanned s cs outs).
Proof.
  induction cs as [|c r IH]; intros t s m F t' outs R Lg HF E.
  - constructor.
  - destruct Lg as [L1 L2]. simpl in HF. cbn [execs] in E.
    destruct (exec_ok hash power t s m F c R L1) as (t1 & o & E1 & R1 & A); [lia|].
    rewrite E1 in E. destruct (execs hash power F t1 r) as [[t2 os]|] eqn:E2; [|discriminate].
    inversion E; subst t2 outs. cbn [scanned].
    assert (G : Forall exact (scanned (fst (spec_exec s c)) r os)).
    { eapply (IH t1 _ (S m) F); eauto. lia. }
    destruct c; try exact G. destruct o; try exact G. constructor; [|exact G].
    assert (HF' : m <= F) by lia.
    destruct (bucket_ok hash power t s m F b R HF') as (l' & B & P1 & P2 & P3).
    cbn [exec] in E1. rewrite B in E1. inversion E1; subst. split; [auto|]. split; auto.
Qed.

Lemma count_notin (n : node) l : ~ In n l -> count_occ Nat.eq_dec l n = 0.
Proof. apply count_occ_not_In. Qed.
Lemma count_in (n : node) l : NoDup l -> In n l -> count_occ Nat.eq_dec l n = 1.
Proof. intros D I. pose proof (proj1 (NoDup_count_occ Nat.eq_dec l) D n). apply (count_occ_In Nat.eq_dec) in I. lia. Qed.

Lemma scan_count es n k : Forall exact es -> NoDup (map (fun e => snd (fst e)) es) ->
  (forall e, In e es -> indexed (fst (fst e)) n = true /\ keyof (fst (fst e)) n = k) ->
  count_occ Nat.eq_dec (concat (map snd es)) n =
    (if in_dec N.eq_dec (bk k) (map (fun e => snd (fst e)) es) then 1 else 0).
Proof.
  induction es as [|[[s b] l] es IH]; intros F ND H; [reflexivity|].
  inversion F as [|? ? X0 F']; subst; destruct X0 as (E1 & E2 & E3). inversion ND as [|? ? N1 N2]; subst.
  cbn [map concat]. change (snd (s, b, l)) with l. rewrite count_occ_app.
  pose proof (IH F' N2 (fun e I => H e (or_intror I))) as Q. unfold node in *. rewrite Q. clear Q.
  destruct (H (s, b, l) (or_introl eq_refl)) as [H1 H2]. cbn [fst snd] in *.
  destruct (N.eq_dec (bk k) b) as [Eb|Eb].
  - rewrite (count_in n l); [|auto|apply E3; rewrite H2; auto].
    destruct (in_dec N.eq_dec (bk k) (map _ es)) as [I|I]; [rewrite Eb in I; contradiction|].
    destruct (in_dec N.eq_dec (bk k) (b :: _)) as [J|J]; [reflexivity|]. exfalso. apply J. left. auto.
  - rewrite (count_notin n l); [|rewrite E3, H2; tauto].
    destruct (in_dec N.eq_dec (bk k) (map _ es)) as [I|I];
    destruct (in_dec N.eq_dec (bk k) (b :: _)) as [J|J]; auto.
    + exfalso. apply J. right. exact I.
    + exfalso. destruct J as [J|J]; [congruence|contradiction].
Qed.

Lemma NoDup_app2 {A} (a b : list A) : NoDup a -> NoDup b -> (forall x, In x a -> ~ In x b) -> NoDup (a ++ b).
Proof.
  induction a as [|x a IH]; intros H1 H2 H3; [exact H2|]. inversion H1; subst. simpl. constructor.
  - intros X. apply in_app_or in X as [X|X]; [auto|]. apply (H3 x); [left; auto|auto].
  - apply IH; auto. intros y Y. apply H3. right; auto.
Qed.

Lemma scan_keys_nodup es : Forall exact es -> NoDup (map (fun e => snd (fst e)) es) ->
  NoDup (concat (map (fun e => map (keyof (fst (fst e))) (snd e)) es)).
Proof.
  assert (B : forall es, Forall exact es -> forall k, In k (concat (map (fun e => map (keyof (fst (fst e))) (snd e)) es)) ->
     In (bk k) (map (fun e => snd (fst e)) es)).
  { induction es0 as [|[[s b] l] es0 IH]; intros F k I; [destruct I|].
    inversion F as [|? ? X0 F']; subst; destruct X0 as (E1 & E2 & E3). cbn [map concat fst snd] in *.
    apply in_app_or in I as [I|I]; [|right; auto]. apply in_map_iff in I as (n & <- & I). apply E3 in I as [_ <-]. left; auto. }
  induction es as [|[[s b] l] es IH]; intros F ND; [constructor|].
  inversion F as [|? ? X0 F']; subst; destruct X0 as (E1 & E2 & E3). inversion ND as [|? ? N1 N2]; subst.
  cbn [map concat fst snd]. apply NoDup_app2; auto.
  intros k I J. apply B in J; auto. apply in_map_iff in I as (n & <- & I). apply E3 in I as [_ Ib].
  rewrite Ib in J. contradiction.
Qed.
End P.

(** Lock groups. *)
Lemma groupBuckets_spec nb nl : (0 < nl)%N -> forall fuel b, (nb <= b + N.of_nat fuel * nl)%N ->
  NoDup (groupBuckets fuel nb nl b) /\
  forall x, In x (groupBuckets fuel nb nl b) <-> (x < nb)%N /\ exists j, x = (b + j * nl)%N.
Proof.
  intros P. induction fuel as [|f IH]; intros b H.
  - split; [constructor|]. intros x. simpl. split; [tauto|]. intros (X & j & ->). lia.
  - cbn [groupBuckets]. destruct (N.ltb_spec b nb) as [L|L].
    + destruct (IH (b + nl)%N) as [N M]; [lia|]. split.
      * constructor; auto. rewrite M. intros (_ & j & E). lia.
      * intros x. simpl. rewrite M. split.
        -- intros [<-|(X & j & ->)]; [split; [auto|exists 0%N; lia]|]. split; auto. exists (j + 1)%N. lia.
        -- intros (X & j & ->). destruct (N.eq_dec j 0); [left; subst; lia|]. right. split; auto. exists (j - 1)%N.
           replace j with (1 + (j - 1))%N at 1 by lia. lia.
    + split; [constructor|]. intros x. simpl. split; [tauto|]. intros (X & j & ->). lia.
Qed.
Lemma lock_group power lp i : (i < 2 ^ lp)%N ->
  let g := groupBuckets (N.to_nat (2 ^ power)) (2 ^ power) (2 ^ lp) i in
  NoDup g /\ forall b, In b g <-> (b < 2 ^ power)%N /\ lockOf lp b = i.
Proof.
  intros Hi g. assert (P : (0 < 2 ^ lp)%N) by (apply N.neq_0_lt_0, N.pow_nonzero; discriminate).
  destruct (groupBuckets_spec (2 ^ power) (2 ^ lp) P (N.to_nat (2 ^ power)) i) as [N M].
  - rewrite N2Nat.id. nia.
  - split; [exact N|]. intros b. unfold g. rewrite M. unfold lockOf. rewrite N.shiftl_1_l.
    replace (2 ^ lp - 1)%N with (N.ones lp) by (rewrite N.ones_equiv, N.sub_1_r; reflexivity).
    rewrite N.land_ones. split; intros [H1 H2]; split; auto.
    + destruct H2 as (j & ->). rewrite N.mod_add by lia. apply N.mod_small. auto.
    + exists (b / 2 ^ lp)%N. rewrite <- H2. rewrite (N.div_mod b (2 ^ lp)) at 1 by lia. lia.
Qed.
