(** Proofs about the sparse-map flash index. *)
From Verif Require Import Bytes SparseIndex_model SparseIndex_spec.
Open Scope N_scope.
Set Implicit Arguments. Unset Strict Implicit.
Ltac Zify.zify_post_hook ::= idtac.

(** * The association list *)
Definition keys (m : smap) := map fst m.
Definition rec_ok (r : irec) := irAddr r < two32 /\ irHint r < 65536 /\ irX r < 256 /\ irHits r < 256.
Definition map_ok (m : smap) := NoDup (keys m) /\ forall k r, In (k, r) m -> k < two32 /\ rec_ok r.

Lemma mfind_in : forall m k r, mfind m k = Some r -> In (k, r) m.
Proof.
  induction m as [|[k' r'] m IH]; simpl; intros k r H; [discriminate|].
  destruct (N.eqb_spec k k') as [->|E]; [injection H as ->; auto|]. right; auto.
Qed.
Lemma mfind_none : forall m k, mfind m k = None <-> ~ In k (keys m).
Proof.
  induction m as [|[k' r'] m IH]; simpl; intros k; [split; auto|].
  destruct (N.eqb_spec k k') as [->|E].
  - split; [discriminate|]. intros H; exfalso; auto.
  - rewrite IH. split; intros H; [intros [X|X]; auto|auto].
Qed.
Lemma in_mfind : forall m k r, NoDup (keys m) -> In (k, r) m -> mfind m k = Some r.
Proof.
  induction m as [|[k' r'] m IH]; simpl; intros k r ND H; [easy|].
  inversion ND as [|? ? N1 N2]; subst.
  destruct (N.eqb_spec k k') as [->|E].
  - destruct H as [H|H]; [injection H as ->; auto|].
    exfalso; apply N1. apply (in_map fst) in H; auto.
  - destruct H as [H|H]; [injection H as -> _; congruence|]. auto.
Qed.
Lemma mset_keys : forall m k r, keys (mset m k r) = keys m.
Proof.
  induction m as [|[k' r'] m IH]; simpl; intros; auto.
  destruct (k =? k'); simpl; [reflexivity|]. f_equal. apply IH.
Qed.
Lemma mset_find : forall m k r k' r0, mfind m k = Some r0 ->
  mfind (mset m k r) k' = if k' =? k then Some r else mfind m k'.
Proof.
  induction m as [|[k1 r1] m IH]; simpl; intros k r k' r0 H; [discriminate|].
  destruct (N.eqb_spec k k1) as [->|E]; simpl.
  - destruct (k' =? k1); auto.
  - destruct (N.eqb_spec k' k1) as [->|E2].
    + destruct (N.eqb_spec k1 k); [congruence|auto].
    + apply (IH k r k' r0 H).
Qed.
Lemma mset_in : forall m k r k' r', In (k', r') (mset m k r) -> (k' = k /\ r' = r) \/ In (k', r') m.
Proof.
  induction m as [|[k1 r1] m IH]; simpl; intros k r k' r' H; [easy|].
  destruct (N.eqb_spec k k1) as [->|E]; simpl in H.
  - destruct H as [H|H]; [injection H as -> ->; auto|auto].
  - destruct H as [H|H]; [auto|]. destruct (IH _ _ _ _ H); auto.
Qed.
Lemma merase_in : forall m k k' r', In (k', r') (merase m k) -> In (k', r') m.
Proof.
  induction m as [|[k1 r1] m IH]; simpl; intros k k' r' H; [easy|].
  destruct (k =? k1); [auto|]. destruct H as [H|H]; [auto|]. right; eauto.
Qed.
Lemma merase_nodup : forall m k, NoDup (keys m) -> NoDup (keys (merase m k)).
Proof.
  induction m as [|[k1 r1] m IH]; simpl; intros k H; [constructor|].
  inversion H as [|? ? N1 N2]; subst.
  destruct (k =? k1); [auto|]. simpl; constructor; [|apply IH; auto].
  intros X; apply N1. unfold keys in X. apply in_map_iff in X. destruct X as [[a b] [<- X]].
  apply merase_in in X. apply (in_map fst) in X; auto.
Qed.
Lemma merase_find : forall m k k', NoDup (keys m) ->
  mfind (merase m k) k' = if k' =? k then None else mfind m k'.
Proof.
  induction m as [|[k1 r1] m IH]; simpl; intros k k' H.
  - destruct (k' =? k); auto.
  - inversion H as [|? ? N1 N2]; subst.
    destruct (N.eqb_spec k k1) as [->|E].
    + destruct (N.eqb_spec k' k1) as [->|E2]; [|auto]. apply mfind_none; auto.
    + simpl. destruct (N.eqb_spec k' k1) as [->|E2].
      * destruct (N.eqb_spec k1 k); [congruence|auto].
      * apply IH; auto.
Qed.
Lemma mapp_find : forall m k r k', mfind m k = None ->
  mfind (m ++ [(k, r)]) k' = if k' =? k then Some r else mfind m k'.
Proof.
  induction m as [|[k1 r1] m IH]; simpl; intros k r k' H.
  - reflexivity.
  - destruct (N.eqb_spec k k1) as [->|E]; [discriminate|].
    destruct (N.eqb_spec k' k1) as [->|E2].
    + destruct (N.eqb_spec k1 k); [congruence|auto].
    + apply IH; auto.
Qed.
Lemma mapp_nodup : forall m k r, mfind m k = None -> NoDup (keys m) -> NoDup (keys (m ++ [(k, r)])).
Proof.
  intros m k r H ND. unfold keys. rewrite map_app; simpl. apply mfind_none in H.
  apply (NoDup_Add (a := k) (l := keys m)); [|split; auto].
  rewrite <- (app_nil_r (keys m)) at 1. apply Add_app.
Qed.

Lemma ok_set : forall m k r, map_ok m -> k < two32 -> rec_ok r -> map_ok (mset m k r).
Proof.
  intros m k r [A B] K R. split; [rewrite mset_keys; auto|].
  intros k' r' H. apply mset_in in H. destruct H as [[-> ->]|H]; auto.
Qed.
Lemma ok_erase : forall m k, map_ok m -> map_ok (merase m k).
Proof.
  intros m k [A B]. split; [apply merase_nodup; auto|]. intros k' r' H.
  apply merase_in in H; auto.
Qed.
Lemma ok_app : forall m k r, map_ok m -> mfind m k = None -> k < two32 -> rec_ok r ->
  map_ok (m ++ [(k, r)]).
Proof.
  intros m k r [A B] H K R. split; [apply mapp_nodup; auto|].
  intros k' r' X. apply in_app_iff in X. destruct X as [X|X]; [auto|].
  destruct X as [X|[]]. injection X as <- <-; auto.
Qed.

(** * The array *)
Lemma lupd_len : forall A (l : list A) i x, length (lupd l i x) = length l.
Proof. induction l; destruct i; simpl; auto. Qed.
Lemma lupd_nth : forall A (l : list A) i x j, (i < length l)%nat ->
  nth_error (lupd l i x) j = if Nat.eqb j i then Some x else nth_error l j.
Proof.
  induction l as [|a l IH]; intros i x j H; [simpl in H; lia|].
  destruct i, j; simpl; auto. apply IH. simpl in H; lia.
Qed.

Definition tokw (n h : N) : N := h mod (two32 * n).
Definition abs (s : sidx) : imap := fun t =>
  match nth_error s (N.to_nat (t / two32)) with Some m => mfind m (t mod two32) | None => None end.
Definition st_ok (s : sidx) := (exists k, N.of_nat (length s) = 2 ^ k) /\ Forall map_ok s.

Lemma two32_pow : two32 = 2 ^ 32. Proof. reflexivity. Qed.
Lemma land_ones_pow : forall a k, N.land a (2 ^ k - 1) = a mod 2 ^ k.
Proof. intros. rewrite <- N.land_ones, N.ones_equiv, N.pred_sub. reflexivity. Qed.
Lemma bucketMap_eq : forall n k h, n = 2 ^ k -> bucketMap n h = (h / two32) mod n.
Proof. intros n k h ->. unfold bucketMap. rewrite land_ones_pow, N.shiftr_div_pow2. reflexivity. Qed.
Lemma subkey_eq : forall h, subkey h = h mod two32.
Proof. intros. unfold subkey. change 4294967295 with (2 ^ 32 - 1). rewrite land_ones_pow. reflexivity. Qed.
Lemma pow_pos' : forall k, 0 < 2 ^ k. Proof. intros. apply N.neq_0_lt_0, N.pow_nonzero; discriminate. Qed.
Lemma tok_split : forall n k h, n = 2 ^ k ->
  tokw n h / two32 = bucketMap n h /\ tokw n h mod two32 = subkey h.
Proof.
  intros n k h E. rewrite (bucketMap_eq h E), subkey_eq. unfold tokw.
  pose proof (pow_pos' k) as P. rewrite <- E in P.
  rewrite N.mod_mul_r; [|discriminate|lia].
  pose proof (N.mod_lt h two32 ltac:(discriminate)) as L.
  rewrite (N.mul_comm two32). rewrite N.div_add; [|discriminate].
  rewrite N.mod_add; [|discriminate].
  rewrite (N.div_small (h mod two32)), N.mod_mod; [split; reflexivity|discriminate|auto].
Qed.
Lemma bucketMap_lt : forall n k h, n = 2 ^ k -> bucketMap n h < n.
Proof. intros n k h E. rewrite (bucketMap_eq h E). apply N.mod_lt. subst. pose proof (pow_pos' k); lia. Qed.

Section Go.
Variable x : xfield.

Lemma getMap_ok : forall s h, st_ok s -> exists m, getMap s h = Some m /\ map_ok m /\
  nth_error s (N.to_nat (bucketMap (N.of_nat (length s)) h)) = Some m.
Proof.
  intros s h [[k E] F]. unfold getMap.
  pose proof (bucketMap_lt h E) as L.
  destruct (nth_error s (N.to_nat (bucketMap (N.of_nat (length s)) h))) eqn:G.
  - exists s0. split; auto. split; auto. rewrite Forall_forall in F. apply F.
    apply nth_error_In in G; auto.
  - apply nth_error_None in G. lia.
Qed.

Lemma abs_get : forall s h m, st_ok s -> getMap s h = Some m ->
  abs s (tokw (N.of_nat (length s)) h) = mfind m (subkey h).
Proof.
  intros s h m [[k E] F] G. unfold abs. destruct (tok_split h E) as [-> ->].
  unfold getMap in G. rewrite G. reflexivity.
Qed.

Lemma put_ok : forall s h m, st_ok s -> map_ok m -> st_ok (putMap s h m).
Proof.
  intros s h m [[k E] F] M. unfold putMap. split.
  - exists k. rewrite lupd_len; auto.
  - apply Forall_forall. intros y Y. apply In_nth_error in Y. destruct Y as [j J].
    rewrite lupd_nth in J by (pose proof (bucketMap_lt h E); lia).
    destruct (Nat.eqb j _); [injection J as <-; auto|].
    rewrite Forall_forall in F. apply F. apply nth_error_In in J; auto.
Qed.
Lemma abs_put : forall s h m m0 r, st_ok s -> getMap s h = Some m0 ->
  (forall k, mfind m k = if k =? subkey h then r else mfind m0 k) ->
  forall t, abs (putMap s h m) t = iset (abs s) (tokw (N.of_nat (length s)) h) r t.
Proof.
  intros s h m m0 r [[k E] F] G H t. unfold abs, putMap, iset.
  destruct (tok_split h E) as [A B].
  rewrite lupd_nth by (pose proof (bucketMap_lt h E); lia).
  unfold getMap in G.
  destruct (Nat.eqb_spec (N.to_nat (t / two32)) (N.to_nat (bucketMap (N.of_nat (length s)) h))) as [X|X].
  - rewrite X, G, H.
    destruct (N.eqb_spec (t mod two32) (subkey h)) as [Y|Y];
      destruct (N.eqb_spec t (tokw (N.of_nat (length s)) h)) as [Z|Z]; auto; exfalso.
    + apply Z. rewrite (N.div_mod t two32), (N.div_mod (tokw (N.of_nat (length s)) h) two32) by discriminate.
      rewrite A, B, Y. apply N2Nat.inj in X. rewrite X. reflexivity.
    + apply Y. rewrite Z. auto.
  - destruct (N.eqb_spec t (tokw (N.of_nat (length s)) h)) as [Z|Z]; auto.
    exfalso; apply X. rewrite Z, A. auto.
Qed.
Lemma put_len : forall s h m, length (putMap s h m) = length s.
Proof. intros. apply lupd_len. Qed.

(** * Size and iteration *)
Lemma lor_shift : forall b k, k < two32 -> N.lor (N.shiftl b 32) k = b * two32 + k.
Proof.
  intros b k K. rewrite N.shiftl_mul_pow2. change (2 ^ 32) with two32.
  assert (Z : N.land (b * two32) k = 0).
  { apply N.bits_inj. intros i. rewrite N.land_spec, N.bits_0.
    destruct (N.ltb_spec i 32) as [L|L].
    - change two32 with (2 ^ 32). rewrite N.mul_pow2_bits_low; auto.
    - destruct (N.eqb_spec k 0) as [->|NZ]; [rewrite N.bits_0, andb_false_r; auto|].
      rewrite (N.bits_above_log2 k i), andb_false_r; auto.
      apply N.lt_le_trans with 32; auto. apply N.log2_lt_pow2; [lia|exact K]. }
  rewrite <- N.lxor_lor by auto. symmetry. apply N.add_nocarry_lxor. auto.
Qed.

Lemma iter_from_entries : forall s b, Forall map_ok s ->
  NoDup (map fst (s_iter_from b s)) /\
  (forall t r, In (t, r) (s_iter_from b s) <->
     exists i m, nth_error s i = Some m /\ t / two32 = b + N.of_nat i /\ mfind m (t mod two32) = Some r).
Proof.
  induction s as [|m s IH]; intros b F.
  - simpl. split; [constructor|]. intros t r; split; [easy|].
    intros [i [m [H _]]]. destruct i; discriminate.
  - inversion F as [|? ? M F']; subst. destruct (IH (b + 1) F') as [ND IN]. destruct M as [MN MK].
    assert (HD : forall t r, In (t, r) (map (fun e => (N.lor (N.shiftl b 32) (fst e), snd e)) m) <->
               t / two32 = b /\ mfind m (t mod two32) = Some r).
    { intros t r. rewrite in_map_iff. split.
      - intros [[k0 r0] [H1 H2]]. simpl in H1. injection H1 as H1 <-.
        destruct (MK _ _ H2) as [K _]. rewrite lor_shift in H1 by auto. subst t.
        rewrite N.add_comm, N.div_add, N.mod_add by discriminate.
        rewrite N.div_small, N.mod_small by auto. split; auto. apply in_mfind; auto.
      - intros [H1 H2]. exists (t mod two32, r). simpl. apply mfind_in in H2. split; auto.
        rewrite lor_shift by (apply N.mod_lt; discriminate). f_equal.
        rewrite (N.div_mod t two32) at 2 by discriminate. rewrite H1. lia. }
    simpl. split.
    + rewrite map_app, map_map. simpl.
      assert (N1 : NoDup (map (fun e => N.lor (N.shiftl b 32) (fst e)) m)).
      { clear - MN MK. induction m as [|[k r] m IHm]; simpl; [constructor|].
        inversion MN as [|? ? A B]; subst. constructor.
        - intros H. apply in_map_iff in H. destruct H as [[k' r'] [H1 H2]]. simpl in H1.
          rewrite !lor_shift in H1; [|apply (MK k r); left; auto|apply (MK k' r'); right; auto].
          assert (k' = k) by lia. subst k'. apply A. apply (in_map fst) in H2. auto.
        - apply IHm; auto. intros; apply (MK k0 r0); right; auto. }
      revert N1 ND HD. generalize (s_iter_from (b + 1) s) IN.
      intros l IN1 N1 ND HD.
      assert (D : forall t, In t (map (fun e => N.lor (N.shiftl b 32) (fst e)) m) -> ~ In t (map fst l)).
      { intros t H1 H2. apply in_map_iff in H1. destruct H1 as [[k1 r1] [E1 H1]]. simpl in E1.
        apply in_map_iff in H2. destruct H2 as [[t' r'] [E2 H2]]. simpl in E2. subst t'.
        apply IN1 in H2. destruct H2 as [i [m' [_ [H2 _]]]].
        assert (X : In (t, r1) (map (fun e => (N.lor (N.shiftl b 32) (fst e), snd e)) m)).
        { apply in_map_iff. exists (k1, r1). simpl. rewrite E1; auto. }
        apply HD in X. lia. }
      clear - N1 ND D. revert N1 D. generalize (map (fun e : N * irec => N.lor (N.shiftl b 32) (fst e)) m).
      induction l0 as [|t l0 IHl]; simpl; intros N1 D; auto.
      inversion N1; subst. constructor; [|apply IHl; auto].
      rewrite in_app_iff. intros [X|X]; [auto|]. apply (D t); auto.
    + intros t r. rewrite in_app_iff, HD, IN. split.
      * intros [[H1 H2]|[i [m' [H1 [H2 H3]]]]].
        -- exists O, m. simpl. rewrite N.add_0_r; auto.
        -- exists (S i), m'. split; auto. split; auto. lia.
      * intros [[|i] [m' [H1 [H2 H3]]]]; simpl in H1.
        -- left. injection H1 as <-. split; auto. lia.
        -- right. exists i, m'. split; auto. split; auto. lia.
Qed.
Lemma iter_entries : forall s, st_ok s -> entries_of (abs s) (s_iter s).
Proof.
  intros s [_ F]. destruct (iter_from_entries 0 F) as [A B]. split; [exact A|].
  intros t r. unfold s_iter. rewrite B. unfold abs. split.
  - intros [i [m [H1 [H2 H3]]]]. replace (N.to_nat (t / two32)) with i by lia. rewrite H1; auto.
  - intros H. destruct (nth_error s (N.to_nat (t / two32))) eqn:E; [|discriminate].
    exists (N.to_nat (t / two32)), s0. split; auto. split; auto. lia.
Qed.
Lemma size_iter_from : forall s b, length (s_iter_from b s) = s_size s.
Proof.
  induction s as [|m s IH]; intros b; auto. simpl. rewrite app_length, map_length, IH. reflexivity.
Qed.

Lemma size_0 : forall s, s_size s = O -> s = repeat [] (length s).
Proof.
  induction s as [|m s IH]; simpl; auto. intros H. destruct m; simpl in H; [|lia]. f_equal. auto.
Qed.
Lemma reset_new : forall s, s_reset s = repeat [] (length s).
Proof. unfold s_reset. induction s; simpl; auto. f_equal; auto. Qed.
Lemma abs_new : forall n t, abs (repeat [] n) t = None.
Proof.
  intros n t. unfold abs. generalize (N.to_nat (t / two32)). induction n; intros [|i]; simpl; auto.
Qed.
Lemma new_ok : forall n k, N.of_nat n = 2 ^ k -> st_ok (s_new n).
Proof.
  intros n k E. unfold s_new. split; [exists k; rewrite repeat_length; auto|].
  apply Forall_forall. intros m M. apply repeat_spec in M. subst. split; [constructor|easy].
Qed.

(** * Warm restart *)
Lemma signed_rt : forall w v, 0 < w -> v < 2 ^ w -> of_signed w (to_signed w v) = v.
Proof.
  intros w v W V. unfold of_signed, to_signed.
  pose proof (pow_pos' w) as P.
  assert (Q : (Z.of_N v mod Z.of_N (2 ^ w) = Z.of_N v)%Z) by (apply Z.mod_small; lia).
  destruct (v <? 2 ^ (w - 1)).
  - rewrite Q. lia.
  - rewrite <- (Z.mod_add _ 1) by lia. replace (Z.of_N v - Z.of_N (2 ^ w) + 1 * Z.of_N (2 ^ w))%Z with (Z.of_N v) by lia.
    rewrite Q. lia.
Qed.
Lemma rec_pers_entry : forall m k r, k < two32 -> rec_ok r ->
  rec_entry m (pers_entry (k, r)) = fst (mtry m k r).
Proof.
  intros m k r K (A & B & C & D). unfold rec_entry, pers_entry; simpl.
  rewrite !signed_rt by (auto; lia). destruct r; reflexivity.
Qed.
Lemma rec_bucket : forall l m0, map_ok (m0 ++ l) ->
  fold_left rec_entry (map pers_entry l) m0 = m0 ++ l.
Proof.
  induction l as [|[k r] l IH]; intros m0 M; simpl; [rewrite app_nil_r; auto|].
  destruct M as [MN MK]. destruct (MK k r) as [K R]; [apply in_app_iff; right; left; auto|].
  rewrite rec_pers_entry by auto. unfold mtry.
  assert (X : mfind m0 k = None).
  { apply mfind_none. unfold keys in MN. rewrite map_app in MN. simpl in MN.
    apply NoDup_remove_2 in MN. intros H. apply MN. apply in_app_iff; auto. }
  rewrite X. simpl. rewrite IH; rewrite <- app_assoc; simpl; [reflexivity|].
  split; auto.
Qed.
Lemma rec_loop_pers : forall (s pre : list smap) rest, Forall map_ok s ->
  N.of_nat (length pre + length s) <= two32 ->
  rec_loop (length s) (pre ++ repeat [] (length s)) (pers_from (N.of_nat (length pre)) s ++ rest)
    = Some (pre ++ s, rest).
Proof.
  induction s as [|m s IH]; intros pre rest F L; [reflexivity|].
  inversion F as [|? ? M F']; subst.
  change (length (m :: s)) with (S (length s)) in *. cbn [rec_loop pers_from repeat app tbId tbEntries].
  rewrite signed_rt; [|lia|change (2 ^ 32) with two32; lia].
  rewrite Nat2N.id. rewrite nth_error_app2, Nat.sub_diag by lia. cbn [nth_error].
  match goal with |- rec_loop _ ?A _ = _ =>
    replace A with ((pre ++ [m]) ++ @repeat smap [] (length s)) end.
  - replace (N.of_nat (length pre) + 1) with (N.of_nat (length (pre ++ [m]))) by (rewrite app_length; simpl; lia).
    etransitivity; [apply (IH (pre ++ [m]) rest); auto|].
    + rewrite app_length; simpl; lia.
    + rewrite <- app_assoc; reflexivity.
  - rewrite rec_bucket by auto. simpl. rewrite <- app_assoc. simpl.
    clear. induction pre as [|a pre IHp]; simpl; auto. f_equal. auto.
Qed.
Lemma restart_ok : forall s, st_ok s -> N.of_nat (length s) <= two32 ->
  s_recover (s_new (length s)) (s_persist s) = Some (s, []).
Proof.
  intros s [_ F] L. unfold s_recover.
  replace (if Nat.ltb 0 (s_size (s_new (length s))) then s_reset (s_new (length s)) else s_new (length s))
    with (s_new (length s)).
  2:{ destruct (Nat.ltb 0 (s_size (s_new (length s)))); auto. rewrite reset_new.
      unfold s_new. rewrite repeat_length. auto. }
  unfold s_new at 1. rewrite repeat_length.
  rewrite <- (app_nil_r (s_persist s)). apply (@rec_loop_pers s [] [] F). simpl; auto.
Qed.

(** * One step *)
Lemma inc8_eq : forall v, v < 256 -> safeInc v = inc8 v /\ inc8 v < 256.
Proof. intros v V. unfold safeInc, inc8. destruct (N.ltb_spec v 255); lia. Qed.
Lemma hist_eq : forall e c, e < 256 ->
  (if 0 <? c then N.lor (N.shiftr e 1) 128 else N.shiftr e 1)
     = (if c =? 0 then 0 else 128) + e / 2 /\ (if c =? 0 then 0 else 128) + e / 2 < 256.
Proof.
  intros e c E. rewrite N.shiftr_div_pow2. change (2 ^ 1) with 2.
  assert (H : e / 2 < 128) by (apply N.div_lt_upper_bound; lia).
  destruct (N.eqb_spec c 0) as [->|C]; [simpl; lia|].
  replace (0 <? c) with true by (symmetry; apply N.ltb_lt; lia).
  split; [|lia].
  assert (Z : N.land (e / 2) 128 = 0).
  { apply N.bits_inj. intros i. rewrite N.land_spec, N.bits_0.
    destruct (N.eqb_spec (e / 2) 0) as [->|NZ]; [rewrite N.bits_0; auto|].
    destruct (N.ltb_spec i 7) as [L|L].
    - change 128 with (2 ^ 7). rewrite N.pow2_bits_false by lia. apply andb_false_r.
    - rewrite (N.bits_above_log2 (e / 2) i); auto.
      apply N.lt_le_trans with 7; auto. apply N.log2_lt_pow2; [lia|exact H]. }
  rewrite <- N.lxor_lor by auto. rewrite <- N.add_nocarry_lxor by auto. lia.
Qed.
Lemma iset_same : forall m t, forall t', iset m t (m t) t' = m t'.
Proof. intros. unfold iset. destruct (N.eqb_spec t' t); subst; auto. Qed.

Definition sok (s : sidx) (s' : sidx) := st_ok s' /\ length s' = length s.

Lemma rec_ok_new : forall a z, a < two32 -> z < 65536 -> rec_ok (mkIR a z 0 0).
Proof. intros; repeat split; simpl; auto; lia. Qed.

Lemma step_sim : forall s o, st_ok s -> N.of_nat (length s) <= two32 -> op_ok o ->
  exists s' r m', s_step x s o = Some (s', r) /\ st_ok s' /\ length s' = length s /\
    ispec (tokw (N.of_nat (length s))) x (abs s) o r m' /\ forall t, abs s' t = m' t.
Proof.
  intros s o S L O.
  assert (SK : forall h, subkey h < two32) by (intros h; rewrite subkey_eq; apply N.mod_lt; discriminate).
  destruct o as [h|h|h a z|h a z|h new old|h|h a| | | |]; simpl in O; cbn [s_step].
  - destruct (getMap_ok h S) as [m [G [M _]]]. pose proof (abs_get S G) as A.
    unfold s_lookup. rewrite G. destruct (mfind m (subkey h)) as [r|] eqn:E; simpl.
    + destruct (proj2 M _ _ (mfind_in E)) as [_ (R1 & R2 & R3 & R4)].
      destruct (inc8_eq R4) as [C1 C2]. destruct (inc8_eq R3) as [D1 D2].
      eexists _, _, _. split; [reflexivity|]. split; [|split; [apply put_len|split]].
      * apply put_ok; auto. apply ok_set; auto. repeat split; simpl; auto; [|lia].
        destruct x; lia.
      * apply I_look_hit; exact A.
      * intros t. rewrite (abs_put (m0 := m) (r := Some (read_mark x r)) S G); [reflexivity|].
        intros k. rewrite (mset_find _ _ E). unfold read_mark. rewrite C1, D1. reflexivity.
    + eexists _, _, _. split; [reflexivity|]. split; [auto|split; [auto|split]].
      * apply I_look_miss. auto.
      * auto.
  - destruct (getMap_ok h S) as [m [G [M _]]]. pose proof (abs_get S G) as A.
    unfold s_peek. rewrite G. eexists _, _, _. split; [reflexivity|]. split; [auto|split; [auto|split]].
    * rewrite <- A. apply I_peek.
    * auto.
  - destruct (getMap_ok h S) as [m [G [M _]]]. pose proof (abs_get S G) as A.
    unfold s_insert, mtry. rewrite G. destruct (mfind m (subkey h)) as [r|] eqn:E; simpl;
      eexists _, _, _; (split; [reflexivity|]; split; [|split; [apply put_len|split]]);
      [apply put_ok; auto; apply ok_set; auto; apply rec_ok_new; tauto
      |rewrite <- A; apply I_insert| |
       apply put_ok; auto; apply ok_app; auto; apply rec_ok_new; tauto
      |rewrite <- A; apply I_insert| ];
      intros t; rewrite (abs_put (m0 := m) (r := Some (mkIR a z 0 0)) S G); auto;
      intros k; [rewrite (mset_find _ _ E)|rewrite (mapp_find _ _ E)]; reflexivity.
  - destruct (getMap_ok h S) as [m [G [M _]]]. pose proof (abs_get S G) as A.
    unfold s_insertNew, mtry. rewrite G. destruct (mfind m (subkey h)) as [r|] eqn:E; simpl;
      eexists _, _, _; (split; [reflexivity|]; split; [|split; [apply put_len|split]]).
    + apply put_ok; auto.
    + rewrite E. apply I_insnew_hit. exact A.
    + intros t. rewrite (abs_put (m0 := m) (r := Some r) S G).
      * rewrite <- A. apply iset_same.
      * intros k. destruct (N.eqb_spec k (subkey h)); subst; auto.
    + apply put_ok; auto. apply ok_app; auto; apply rec_ok_new; tauto.
    + apply I_insnew. exact A.
    + intros t. rewrite (abs_put (m0 := m) (r := Some (mkIR a z 0 0)) S G); auto.
      intros k. rewrite (mapp_find _ _ E). reflexivity.
  - destruct (getMap_ok h S) as [m [G [M _]]]. pose proof (abs_get S G) as A.
    unfold s_replace. rewrite G. destruct (mfind m (subkey h)) as [r|] eqn:E; simpl.
    + destruct (proj2 M _ _ (mfind_in E)) as [_ (R1 & R2 & R3 & R4)].
      destruct (@hist_eq (irX r) (irHits r) R3) as [H1 H2].
      destruct (N.eqb_spec (irAddr r) old) as [AE|AE]; simpl; eexists _, _, _;
        (split; [reflexivity|]).
      * split; [|split; [apply put_len|split]].
        -- apply put_ok; auto. apply ok_set; auto. repeat split; simpl; try tauto; try lia.
           destruct x; auto. change (N.div2 (irX r)) with (N.shiftr (irX r) 1). rewrite H1; auto.
        -- eapply I_repl; eauto.
        -- intros t. rewrite (abs_put (m0 := m) (r := Some (rewrite_mark x new r)) S G); auto.
           intros k. rewrite (mset_find _ _ E). unfold rewrite_mark. rewrite <- H1. reflexivity.
      * split; [auto|split; [auto|split]]; [|reflexivity].
        apply I_repl_no. intros r' R'. rewrite A in R'. injection R' as <-. auto.
    + eexists _, _, _. split; [reflexivity|]. split; [auto|split; [auto|split]]; [|reflexivity].
      apply I_repl_no. intros r' R'. rewrite A in R'. discriminate.
  - destruct (getMap_ok h S) as [m [G [M _]]]. pose proof (abs_get S G) as A.
    unfold s_remove. rewrite G. destruct (mfind m (subkey h)) as [r|] eqn:E; simpl;
      eexists _, _, _; (split; [reflexivity|]).
    + split; [apply put_ok; auto; apply ok_erase; auto|split; [apply put_len|split]].
      * rewrite <- A. apply I_remove.
      * intros t. rewrite (abs_put (m0 := m) (r := None) S G); auto.
        intros k. apply merase_find. apply M.
    + split; [auto|split; [auto|split]].
      * rewrite <- A. apply I_remove.
      * intros t. rewrite <- A. symmetry. apply iset_same.
  - destruct (getMap_ok h S) as [m [G [M _]]]. pose proof (abs_get S G) as A.
    unfold s_removeIf. rewrite G. destruct (mfind m (subkey h)) as [r|] eqn:E; simpl.
    + destruct (N.eqb_spec (irAddr r) a) as [AE|AE]; simpl; eexists _, _, _; (split; [reflexivity|]).
      * split; [apply put_ok; auto; apply ok_erase; auto|split; [apply put_len|split]].
        -- eapply I_remif; eauto.
        -- intros t. rewrite (abs_put (m0 := m) (r := None) S G); auto.
           intros k. apply merase_find. apply M.
      * split; [auto|split; [auto|split]]; [|reflexivity].
        apply I_remif_no. intros r' R'. rewrite A in R'. injection R' as <-. auto.
    + eexists _, _, _. split; [reflexivity|]. split; [auto|split; [auto|split]]; [|reflexivity].
      apply I_remif_no. intros r' R'. rewrite A in R'. discriminate.
  - destruct S as [[k E] F]. rewrite reset_new. eexists _, _, _. split; [reflexivity|].
    split; [apply (@new_ok (length s) k); auto|split; [apply repeat_length|split]].
    + apply I_reset.
    + intros t. apply abs_new.
  - pose proof (iter_entries S) as IE. eexists _, _, _. split; [reflexivity|].
    split; [auto|split; [auto|split]]; [|reflexivity].
    rewrite <- (size_iter_from s 0). apply I_size. exact IE.
  - eexists _, _, _. split; [reflexivity|].
    split; [auto|split; [auto|split]]; [|reflexivity]. apply I_iter. apply iter_entries; auto.
  - rewrite restart_ok by auto. eexists _, _, _. split; [reflexivity|].
    split; [auto|split; [auto|split]]; [|reflexivity]. apply I_restart.
Qed.

Lemma run_sim : forall l s, st_ok s -> N.of_nat (length s) <= two32 -> Forall op_ok l ->
  exists s' rs, s_run x s l = Some (s', rs) /\
    exists m', ispecs (tokw (N.of_nat (length s))) x (abs s) l rs m' /\ forall t, m' t = abs s' t.
Proof.
  induction l as [|o l IH]; intros s S L F; simpl.
  - eexists _, _. split; [reflexivity|]. exists (abs s). split; [constructor|auto].
  - inversion F as [|? ? O F']; subst.
    destruct (step_sim S L O) as (s1 & r & m1 & E & S1 & L1 & SP & A1). rewrite E.
    assert (L1' : N.of_nat (length s1) <= two32) by (rewrite L1; auto).
    destruct (IH s1 S1 L1' F') as (s2 & rs & E2 & m2 & SP2 & A2). rewrite E2.
    eexists _, _. split; [reflexivity|]. exists m2. split; [|auto].
    rewrite L1 in SP2. eapply IS_cons; eauto.
Qed.
End Go.
