From Verif Require Import CCache_model CCache_spec.

Definition keys (l : list entry) := map fst l.

Lemma lookup_split l k v : lookup l k = Some v ->
  exists a b, l = a ++ (k, v) :: b /\ ~ In k (keys a).
Proof.
  induction l as [|[k' v'] r IH]; cbn; [discriminate|].
  destruct (N.eqb_spec k' k) as [->|Hne].
  - intros H. injection H as ->. exists [], r. auto.
  - intros H. apply IH in H as (a & b & -> & Hn). exists ((k', v') :: a), b. cbn. intuition.
Qed.
Lemma lookup_none l k : lookup l k = None -> ~ In k (keys l).
Proof.
  induction l as [|[k' v'] r IH]; cbn; [intuition|].
  destruct (N.eqb_spec k' k) as [->|Hne]; [discriminate|]. intuition.
Qed.
Lemma without_notin l k : ~ In k (keys l) -> without k l = l.
Proof.
  induction l as [|[k' v'] r IH]; cbn; intros H; [reflexivity|].
  destruct (N.eqb_spec k' k) as [->|Hne]; [intuition|]. cbn. f_equal. apply IH. intuition.
Qed.
Lemma without_mid a k v b : NoDup (keys (a ++ (k, v) :: b)) -> without k (a ++ (k, v) :: b) = a ++ b.
Proof.
  unfold keys. rewrite map_app. cbn. intros H. apply NoDup_remove_2 in H. rewrite in_app_iff in H.
  unfold without. rewrite filter_app. cbn. rewrite N.eqb_refl. cbn.
  fold (without k a) (without k b). rewrite !without_notin; auto.
Qed.
Lemma keys_app a b : keys (a ++ b) = keys a ++ keys b. Proof. apply map_app. Qed.
Lemma NoDup_mid a k v b : NoDup (keys (a ++ (k, v) :: b)) -> NoDup (keys (a ++ b)) /\ ~ In k (keys (a ++ b)).
Proof.
  rewrite !keys_app. cbn. intros H. split; [now apply NoDup_remove_1 in H|now apply NoDup_remove_2 in H].
Qed.
Lemma setInPlace_mid a k v v' b : NoDup (keys (a ++ (k, v) :: b)) ->
  setInPlace k v' (a ++ (k, v) :: b) = a ++ (k, v') :: b.
Proof.
  intros H. apply NoDup_mid in H as [_ H]. rewrite keys_app, in_app_iff in H.
  assert (E : forall l, ~ In k (keys l) -> map (fun e => if (fst e =? k)%N then (k, v') else e) l = l).
  { induction l as [|[x y] l IH]; cbn; intros Hn; [reflexivity|].
    destruct (N.eqb_spec x k); [intuition|]. f_equal. apply IH. intuition. }
  unfold setInPlace. rewrite map_app. cbn. rewrite N.eqb_refl, !E; auto.
Qed.
Lemma behind_mid n a k v b : ~ In k (keys a) -> behind n k (a ++ (k, v) :: b) = (n <=? length a).
Proof.
  intros H. unfold behind. destruct (Nat.leb_spec n (length a)) as [L|L].
  - rewrite firstn_app. replace (n - length a) with 0 by lia. cbn. rewrite app_nil_r.
    assert (E : existsb (fun e => (fst e =? k)%N) (firstn n a) = false).
    { apply Bool.not_true_is_false. intros C. apply existsb_exists in C as ([x y] & HI & HE).
      apply N.eqb_eq in HE. cbn in HE. subst x. apply H. apply in_map_iff. exists (k, y). split; [reflexivity|].
      rewrite <- (firstn_skipn n a). apply in_or_app. now left. }
    now rewrite E.
  - rewrite firstn_app. destruct (n - length a) as [|m] eqn:E; [lia|]. cbn.
    rewrite existsb_app. cbn. rewrite N.eqb_refl, orb_true_r. reflexivity.
Qed.

(** ** The fixed layout *)
Record FRep (cap vsz : nat) (b : fbucket) (l : list entry) : Prop := {
  fr_b : b = l ++ repeat (zeroEntry vsz) (cap - length l);
  fr_len : length l <= cap;
  fr_nz : ~ In 0%N (keys l);
  fr_nd : NoDup (keys l);
  fr_sz : Forall (fun e => length (snd e) = vsz) l
}.

Lemma ffind_mid a k v b : ~ In 0%N (keys a) -> ~ In k (keys a) -> k <> 0%N ->
  ffind (a ++ (k, v) :: b) k = Some (length a).
Proof.
  induction a as [|[x y] a IH]; cbn; intros H0 Hk Hz.
  - destruct (N.eqb_spec k 0); [congruence|]. now rewrite N.eqb_refl.
  - destruct (N.eqb_spec x 0); [intuition|]. destruct (N.eqb_spec x k); [intuition|].
    rewrite IH; auto.
Qed.
Lemma ffind_none l vsz n k : ~ In 0%N (keys l) -> ~ In k (keys l) ->
  ffind (l ++ repeat (zeroEntry vsz) n) k = None.
Proof.
  induction l as [|[x y] l IH]; cbn; intros H0 Hk.
  - destruct n; reflexivity.
  - destruct (N.eqb_spec x 0); [intuition|]. destruct (N.eqb_spec x k); [intuition|].
    rewrite IH; auto.
Qed.
Lemma nth_mid {A} (a : list A) x b : nth_error (a ++ x :: b) (length a) = Some x.
Proof. rewrite nth_error_app2, Nat.sub_diag; auto. Qed.
Lemma firstn_mid {A} (a : list A) b : firstn (length a) (a ++ b) = a.
Proof. rewrite firstn_app, firstn_all, Nat.sub_diag. cbn. apply app_nil_r. Qed.
Lemma skipn_mid {A} (a : list A) x b : skipn (length a + 1) (a ++ x :: b) = b.
Proof. rewrite skipn_app, skipn_all2 by lia. replace (length a + 1 - length a) with 1 by lia. reflexivity. Qed.
Lemma repeat_snoc {A} (x : A) n : repeat x n ++ [x] = repeat x (S n).
Proof. induction n; cbn; [reflexivity|]. f_equal. exact IHn. Qed.

Lemma fstep_ok cap vsz b l o : 0 < cap -> FRep cap vsz b l -> fLegal vsz o ->
  exists b' l' r ev, fstep vsz b o = Some (b', r, ev) /\ fspec cap l o = (l', r, ev) /\ FRep cap vsz b' l'.
Proof.
  intros Hc [Eb Hl Hz Hd Hs] Ho.
  assert (Lb : length b = cap) by (rewrite Eb, app_length, repeat_length; lia).
  destruct o as [k v|k|k|k]; cbn in Ho; cbn [fstep fspec].
  - destruct Ho as [Hk Hv]. destruct (lookup l k) as [w|] eqn:E.
    + apply lookup_split in E as (a & c & -> & Hn).
      assert (Eb' : b = a ++ (k, w) :: (c ++ repeat (zeroEntry vsz) (cap - length (a ++ (k, w) :: c))))
        by (rewrite Eb, <- app_assoc; reflexivity).
      rewrite Eb', ffind_mid; [|rewrite keys_app, in_app_iff in Hz; intuition|assumption|assumption].
      unfold fupdate. rewrite nth_mid. cbn [fst]. rewrite firstn_mid, skipn_mid.
      rewrite setInPlace_mid by assumption.
      do 4 eexists. split; [reflexivity|]. split; [reflexivity|]. constructor.
      * rewrite <- app_assoc. cbn. rewrite !app_length in *. cbn in *. reflexivity.
      * rewrite !app_length in *. cbn in *. lia.
      * rewrite keys_app in *. exact Hz.
      * rewrite keys_app in *. exact Hd.
      * apply Forall_app in Hs as [S1 S2]. inversion S2 as [|? ? SA SB]; clear S2. apply Forall_app. split; [assumption|].
        constructor; assumption.
    + apply lookup_none in E. assert (FN : ffind b k = None) by (rewrite Eb; now apply ffind_none). rewrite FN.
      unfold finsert. rewrite Lb.
      destruct (Nat.eq_dec (length l) cap) as [HF|HF].
      * (* full *)
        rewrite HF, Nat.sub_diag in Eb. cbn in Eb. rewrite app_nil_r in Eb. subst b.
        destruct (exists_last (l := l)) as (l0 & [kx vx] & ->); [destruct l; [cbn in HF; lia|discriminate]|].
        rewrite app_length in *. cbn [length] in *.
        replace (cap - 1) with (length l0) by lia. rewrite nth_mid. cbn [fst].
        destruct (N.eqb_spec kx 0) as [->|Hx].
        { exfalso. apply Hz. rewrite keys_app, in_app_iff. cbn. auto. }
        rewrite firstn_mid.
        do 4 eexists. split; [reflexivity|]. split.
        { rewrite ?firstn_mid, skipn_app, skipn_all, Nat.sub_diag. reflexivity. }
        rewrite keys_app in *. apply Forall_app in Hs as [S1 S2]. constructor; cbn.
        -- replace (cap - S (length l0)) with 0 by lia. rewrite ?app_nil_r. reflexivity.
        -- lia.
        -- rewrite in_app_iff in Hz. intuition.
        -- constructor; [rewrite in_app_iff in E; intuition|].
           apply NoDup_remove_1 in Hd. now rewrite app_nil_r in Hd.
        -- constructor; assumption.
      * assert (exists m, cap - length l = S m) as (m & Em) by (exists (cap - length l - 1); lia).
        assert (Eb' : b = (l ++ repeat (zeroEntry vsz) m) ++ [zeroEntry vsz]).
        { rewrite Eb, Em, <- app_assoc, repeat_snoc. reflexivity. }
        assert (Lm : cap - 1 = length (l ++ repeat (zeroEntry vsz) m)).
        { rewrite app_length, repeat_length. lia. }
        rewrite Lm, Eb', nth_mid, firstn_mid. cbn [fst zeroEntry].
        change (0 =? 0)%N with true. cbn match.
        do 4 eexists. split; [reflexivity|]. split.
        { rewrite firstn_all2, skipn_all2 by (rewrite app_length; lia). reflexivity. }
        constructor; cbn.
        -- replace (cap - S (length l)) with m by lia. reflexivity.
        -- lia.
        -- intuition.
        -- constructor; assumption.
        -- constructor; assumption.
  - destruct (lookup l k) as [w|] eqn:E.
    + apply lookup_split in E as (a & c & -> & Hn).
      assert (Eb' : b = a ++ (k, w) :: (c ++ repeat (zeroEntry vsz) (cap - length (a ++ (k, w) :: c))))
        by (rewrite Eb, <- app_assoc; reflexivity).
      assert (FN : ffind b k = Some (length a)) by (rewrite Eb'; apply ffind_mid; [rewrite keys_app, in_app_iff in Hz; intuition|assumption|assumption]). rewrite FN.
      assert (NM : nth_error b (length a) = Some (k, w)) by (rewrite Eb'; apply nth_mid). rewrite NM. do 4 eexists. split; [reflexivity|]. split; [reflexivity|]. now constructor.
    + apply lookup_none in E. assert (FN : ffind b k = None) by (rewrite Eb; now apply ffind_none). rewrite FN.
      do 4 eexists. split; [reflexivity|]. split; [reflexivity|]. now constructor.
  - destruct (lookup l k) as [w|] eqn:E.
    + apply lookup_split in E as (a & c & -> & Hn).
      set (z := repeat (zeroEntry vsz) (cap - length (a ++ (k, w) :: c))) in *.
      assert (Eb' : b = a ++ (k, w) :: (c ++ z)) by (rewrite Eb, <- app_assoc; reflexivity).
      assert (FN : ffind b k = Some (length a)) by (rewrite Eb'; apply ffind_mid; [rewrite keys_app, in_app_iff in Hz; intuition|assumption|assumption]). rewrite FN.
      rewrite behind_mid by assumption. unfold fneeds. rewrite Lb.
      assert (EQ : (cap / 4 + 1 <=? length a) = (cap / 4 <? length a)).
      { destruct (Nat.ltb_spec (cap / 4) (length a)), (Nat.leb_spec (cap / 4 + 1) (length a)); try reflexivity; lia. }
      rewrite EQ. destruct (Nat.ltb_spec (cap / 4) (length a)) as [L|L].
      * unfold fpromote. destruct (Nat.eqb_spec (length a) 0); [lia|].
        rewrite Eb', nth_mid, firstn_mid, skipn_mid.
        do 4 eexists. split; [reflexivity|]. split; [reflexivity|].
        rewrite without_mid by assumption.
        pose proof (NoDup_mid _ _ _ _ Hd) as [Hd1 Hd2].
        rewrite app_length in Hl. cbn in Hl.
        constructor; cbn.
        -- rewrite app_assoc. unfold z. rewrite !app_length. cbn.
           replace (length a + S (length c)) with (S (length a + length c)) by lia. reflexivity.
        -- rewrite app_length. lia.
        -- rewrite keys_app, in_app_iff in *. cbn in Hz. intuition.
        -- now constructor.
        -- apply Forall_app in Hs as [S1 S2]. inversion S2 as [|? ? SA SB]; clear S2. constructor; [assumption|].
           apply Forall_app. auto.
      * do 4 eexists. split; [reflexivity|]. split; [reflexivity|]. now constructor.
    + apply lookup_none in E. assert (FN : ffind b k = None) by (rewrite Eb; now apply ffind_none). rewrite FN.
      do 4 eexists. split; [reflexivity|]. split; [reflexivity|]. now constructor.
  - destruct (lookup l k) as [w|] eqn:E.
    + apply lookup_split in E as (a & c & -> & Hn).
      set (z := repeat (zeroEntry vsz) (cap - length (a ++ (k, w) :: c))) in *.
      assert (Eb' : b = a ++ (k, w) :: (c ++ z)) by (rewrite Eb, <- app_assoc; reflexivity).
      rewrite Eb'. rewrite ffind_mid; [|rewrite keys_app, in_app_iff in Hz; intuition|assumption|assumption].
      rewrite nth_mid. unfold fdel. rewrite firstn_mid, skipn_mid.
      do 4 eexists. split; [reflexivity|]. split; [reflexivity|].
      rewrite without_mid by assumption.
      pose proof (NoDup_mid _ _ _ _ Hd) as [Hd1 Hd2].
      rewrite app_length in Hl. cbn in Hl.
      constructor.
      * unfold z. rewrite <- !app_assoc, repeat_snoc. do 3 f_equal. rewrite !app_length. cbn. lia.
      * rewrite app_length. lia.
      * rewrite keys_app, in_app_iff in *. cbn in Hz. intuition.
      * assumption.
      * apply Forall_app in Hs as [S1 S2]. inversion S2 as [|? ? SA SB]; clear S2. apply Forall_app. auto.
    + apply lookup_none in E. assert (FN : ffind b k = None) by (rewrite Eb; now apply ffind_none). rewrite FN.
      do 4 eexists. split; [reflexivity|]. split; [reflexivity|]. now constructor.
Qed.

Lemma fhist_ok cap vsz : 0 < cap -> forall os b l, FRep cap vsz b l -> Forall (fLegal vsz) os ->
  exists b', hist (fstep vsz) b os = Some (b', snd (shist (fspec cap) l os)) /\
    FRep cap vsz b' (fst (shist (fspec cap) l os)).
Proof.
  intros Hc. induction os as [|o os IH]; intros b l HR HF; cbn.
  - exists b. auto.
  - inversion HF; subst. destruct (fstep_ok cap vsz b l o) as (b' & l' & r & ev & E1 & E2 & HR'); auto.
    rewrite E1, E2. destruct (IH b' l' HR') as (b'' & E3 & HR''); [assumption|].
    rewrite E3. destruct (shist (fspec cap) l' os) as [l'' out]. cbn in *. eauto.
Qed.
Lemma finit_rep cap vsz : FRep cap vsz (finit cap vsz) [].
Proof. constructor; cbn; auto; try lia; constructor || now rewrite Nat.sub_0_r. Qed.
