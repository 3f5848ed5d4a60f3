(** MemoryPoolManager arithmetic and class selection (C11, C12). *)
From Verif Require Import Bytes Compress_model AllocClass_model Pool_model Pool_spec.
From Coq Require Import Sorting.Sorted.
Local Open Scope N_scope.

(** ** Class selection *)
Lemma lowerBound_spec l x : (forall i, (i < lowerBound l x)%nat -> nth i l 0 < x) /\ (lowerBound l x <= length l)%nat /\ ((lowerBound l x < length l)%nat -> x <= nth (lowerBound l x) l 0).
Proof.
  induction l as [|y r (I1 & I2 & I3)]; cbn [lowerBound length].
  - split; [lia|]. split; lia.
  - destruct (N.ltb_spec y x) as [L|L].
    + split; [intros [|i] H; cbn [nth]; [lia|apply I1; lia]|]. split; [lia|]. intros H. cbn [nth]. apply I3. lia.
    + split; [intros i H; lia|]. split; [lia|]. intros _. cbn [nth]. lia.
Qed.
Lemma last_nth (l : list N) : l <> [] -> nth (length l - 1) l 0 = last l 0.
Proof. intros NE. destruct (exists_last NE) as (l' & x & ->). rewrite last_last, app_length. cbn [length]. rewrite app_nth2 by lia. replace (length l' + 1 - 1 - length l')%nat with 0%nat by lia. reflexivity. Qed.
Lemma lowerBound_lt l x : l <> [] -> x <= last l 0 -> (lowerBound l x < length l)%nat.
Proof.
  intros NE L. destruct (lowerBound_spec l x) as (A & B & _). destruct (Nat.eq_dec (lowerBound l x) (length l)) as [E|E]; [|lia]. exfalso.
  assert (P : (length l - 1 < length l)%nat) by (destruct l; [congruence|cbn; lia]). rewrite <- E in P at 2. apply A in P.
  rewrite last_nth in P by exact NE. lia.
Qed.
Lemma class_smallest sizes sz i : sizes <> [] -> StronglySorted N.lt sizes ->
  (classIdForSize sizes sz = Some i <-> (sz <> 0 /\ (i < length sizes)%nat /\ sz <= nth i sizes 0 /\ forall j, (j < length sizes)%nat -> sz <= nth j sizes 0 -> nth i sizes 0 <= nth j sizes 0)).
Proof.
  intros NE SO.
  assert (MON : forall i j, (i < j)%nat -> (j < length sizes)%nat -> nth i sizes 0 < nth j sizes 0).
  { clear -SO. induction SO as [|y r SR IH FA]; intros i j L1 L2; [cbn in L2; lia|]. destruct j; [lia|]. cbn [length] in L2. cbn [nth]. destruct i.
    - rewrite Forall_forall in FA. apply FA. apply nth_In. lia.
    - apply IH; lia. }
  assert (LST : forall j, (j < length sizes)%nat -> nth j sizes 0 <= last sizes 0).
  { intros j L. assert (E : nth (length sizes - 1) sizes 0 = last sizes 0).
    { apply last_nth. exact NE. }
    rewrite <- E. destruct (Nat.eq_dec j (length sizes - 1)) as [->|X]; [lia|]. specialize (MON j (length sizes - 1)%nat). lia. }
  unfold classIdForSize. destruct (lowerBound_spec sizes sz) as (A & B & D).
  destruct (N.ltb_spec (last sizes 0) sz) as [H|H]; cbn [orb].
  - split; [discriminate|]. intros (_ & L & X & _). specialize (LST i L). lia.
  - destruct (N.eqb_spec sz 0) as [E|E]; [split; [discriminate|intros (X & _); congruence]|].
    pose proof (lowerBound_lt sizes sz NE H) as LT. specialize (D LT). split.
    + intros Q. injection Q as <-. split; [exact E|]. split; [exact LT|]. split; [exact D|]. intros j L X.
      destruct (lt_eq_lt_dec j (lowerBound sizes sz)) as [[W|W]|W].
      * specialize (A j W). lia. * subst j. lia. * specialize (MON _ _ W L). lia.
    + intros (_ & L & X & M). f_equal. destruct (lt_eq_lt_dec (lowerBound sizes sz) i) as [[W|W]|W]; [|exact W|].
      * specialize (M _ LT D). specialize (MON _ _ W L). lia.
      * specialize (A i W). lia.
Qed.
Lemma class_throws sizes sz : sizes <> [] -> StronglySorted N.lt sizes -> (classIdForSize sizes sz = None <-> sz = 0 \/ forall x, In x sizes -> x < sz).
Proof.
  intros NE SO. split.
  - intros H. destruct (N.eq_dec sz 0) as [E|E]; [left; exact E|right]. intros x I. destruct (N.lt_ge_cases x sz) as [L|L]; [exact L|exfalso].
    unfold classIdForSize in H. destruct (N.ltb_spec (last sizes 0) sz) as [W|W]; [|cbn in H; destruct (N.eqb_spec sz 0); congruence].
    assert (x <= last sizes 0); [|lia]. clear -SO I. induction SO as [|y r SR IH FA]; [destruct I|]. destruct r as [|z r]; [destruct I as [->|[]]; cbn; lia|].
    change (last (y :: z :: r) 0) with (last (z :: r) 0). destruct I as [->|I]; [|apply IH; exact I]. rewrite Forall_forall in FA. specialize (FA z (or_introl eq_refl)). specialize (IH). 
    assert (z <= last (z :: r) 0); [|lia]. clear -SR. revert z SR. induction r as [|w r IH]; intros z SR; [cbn; lia|]. change (last (z :: w :: r) 0) with (last (w :: r) 0). inversion SR as [|? ? S1 F1]; subst. specialize (IH w S1). inversion F1; subst. lia.
  - intros [->|H]; unfold classIdForSize; [rewrite N.eqb_refl, orb_true_r; reflexivity|].
    assert (L : last sizes 0 < sz); [|apply N.ltb_lt in L; rewrite L; reflexivity]. apply H. clear -NE. induction sizes as [|y [|z r] IH]; [congruence|left; reflexivity|]. right. apply IH. discriminate.
Qed.

(** ** The manager *)
Arguments sumN : simpl never.
Lemma sumN_cons x l : sumN (x :: l) = x + sumN l. Proof. reflexivity. Qed.
Lemma sumN_nil : sumN [] = 0. Proof. reflexivity. Qed.
Lemma sumN_app l1 l2 : sumN (l1 ++ l2) = sumN l1 + sumN l2.
Proof. induction l1; cbn [app]; rewrite ?sumN_cons, ?sumN_nil; [reflexivity|]. rewrite IHl1. lia. Qed.
Lemma setNth_sum l i x y : nth_error l i = Some y -> sumN (setNth l i x) + y = sumN l + x.
Proof. revert i. induction l as [|z r IH]; intros [|i] H; cbn in *; try discriminate; rewrite ?sumN_cons, ?sumN_nil; [injection H as ->; lia|]. specialize (IH i H). lia. Qed.
Lemma setNth_get l i x j : nth_error (setNth l i x) j = if (j =? i)%nat then (match nth_error l i with Some _ => Some x | None => None end) else nth_error l j.
Proof.
  revert i j. induction l as [|z r IH]; intros [|i] [|j]; cbn; try reflexivity; [destruct (j =? i)%nat; reflexivity|]. rewrite IH. reflexivity.
Qed.
Lemma setNth_len l i x : length (setNth l i x) = length l.
Proof. revert i. induction l; intros [|i]; cbn; auto. Qed.

Lemma mstep_ok m o : sumN (mSizes m) <= mTotal m -> sumN (mSizes (mstep m o)) <= mTotal (mstep m o) /\ mTotal (mstep m o) = mTotal m.
Proof.
  intros H. destruct o; cbn [mstep].
  - unfold createPool, remaining. destruct (_ =? _)%nat; [auto|]. destruct (N.ltb_spec (mTotal m - sumN (mSizes m)) sz); [auto|]. cbn. rewrite sumN_app, sumN_cons, sumN_nil. split; [lia|reflexivity].
  - unfold resizePools. destruct (nth_error (mSizes m) s) eqn:E1; [|auto]. cbn. destruct (nth_error (mSizes m) d) eqn:E2; [|auto]. cbn.
    destruct (N.ltb_spec n b); [auto|]. cbn. destruct (nth_error (setNth (mSizes m) s (n - b)) d) eqn:E3; [|auto]. cbn.
    pose proof (setNth_sum _ _ (n1 + b) _ E3). pose proof (setNth_sum _ _ (n - b) _ E1). split; [lia|reflexivity].
  - unfold shrinkPool. destruct (nth_error (mSizes m) p) eqn:E1; [|auto]. cbn. destruct (N.ltb_spec n b); [auto|]. cbn. pose proof (setNth_sum _ _ (n - b) _ E1). split; [lia|reflexivity].
  - unfold growPool, remaining. destruct (nth_error (mSizes m) p) eqn:E1; [|auto]. cbn. destruct (N.ltb_spec (mTotal m - sumN (mSizes m)) b); [auto|]. cbn. pose proof (setNth_sum _ _ (n + b) _ E1). split; [lia|reflexivity].
Qed.
Lemma mrun_ok ops m : sumN (mSizes m) <= mTotal m -> sumN (mSizes (fold_left mstep ops m)) <= mTotal m /\ mTotal (fold_left mstep ops m) = mTotal m.
Proof.
  revert m. induction ops as [|o r IH]; intros m H; cbn [fold_left]; [auto|]. destruct (mstep_ok m o H) as [A B]. destruct (IH _ A) as [D E]. rewrite B in *. auto.
Qed.
Lemma resize_exact m s d b m' : resizePools m s d b = Some (m', true) -> s <> d ->
  exists x y, nth_error (mSizes m) s = Some x /\ nth_error (mSizes m) d = Some y /\ b <= x /\
    nth_error (mSizes m') s = Some (x - b) /\ nth_error (mSizes m') d = Some (y + b) /\
    forall p, p <> s -> p <> d -> nth_error (mSizes m') p = nth_error (mSizes m) p.
Proof.
  unfold resizePools. intros H NE. destruct (nth_error (mSizes m) s) as [x|] eqn:E1; [|discriminate]. cbn in H. destruct (nth_error (mSizes m) d) as [y|] eqn:E2; [|discriminate]. cbn in H.
  destruct (N.ltb_spec x b); [discriminate|]. rewrite setNth_get in H. destruct (Nat.eqb_spec d s); [congruence|]. rewrite E2 in H. cbn in H. injection H as <-. cbn.
  exists x, y. split; [reflexivity|]. split; [reflexivity|]. split; [lia|]. rewrite !setNth_get. apply Nat.eqb_neq in NE as NE'. rewrite NE', Nat.eqb_refl, E1.
  split; [reflexivity|]. destruct (Nat.eqb_spec d s) as [|_]; [congruence|]. rewrite E2, Nat.eqb_refl. split; [reflexivity|].
  intros p P1 P2. rewrite !setNth_get. apply Nat.eqb_neq in P1, P2. rewrite P1, P2. reflexivity.
Qed.
Lemma resize_self m s b m' r : resizePools m s s b = Some (m', r) -> forall p, nth_error (mSizes m') p = nth_error (mSizes m) p.
Proof.
  unfold resizePools. intros H p. destruct (nth_error (mSizes m) s) as [x|] eqn:E1; [|discriminate]. cbn in H. destruct (N.ltb_spec x b); [injection H as <- <-; reflexivity|].
  rewrite setNth_get, Nat.eqb_refl, E1 in H. cbn in H. injection H as <- <-. cbn. rewrite !setNth_get, Nat.eqb_refl, E1. destruct (Nat.eqb_spec p s) as [->|]; [|reflexivity]. rewrite E1. f_equal. lia.
Qed.

(** ** Advise targets *)
Lemma bump_spec n T : forall tu s ts s', bumpTargets n T s tu = (ts, s') ->
  length ts = length tu /\ s' + sumN (map fst tu) = s + sumN ts /\ (s <= n -> s' <= n) /\
  (s' < n -> forall i t u, nth_error tu i = Some (t, u) -> t * T / n < u -> nth_error ts i = Some (t + 1)) /\
  (forall i t u, nth_error tu i = Some (t, u) -> nth_error ts i = Some t \/ (nth_error ts i = Some (t + 1) /\ t * T / n < u)) /\ s <= s'.
Proof.
  induction tu as [|[t u] r IH]; intros s ts s' H.
  - cbn in H. injection H as <- <-. cbn. split; [reflexivity|]. split; [lia|]. split; [auto|]. split; [intros _ [|i]; discriminate|]. split; [intros [|i]; discriminate|lia].
  - cbn [bumpTargets] in H. destruct ((s <? n) && (t * T / n <? u)) eqn:B.
    + destruct (bumpTargets n T (s + 1) r) as [ts0 s0] eqn:R. injection H as <- <-. destruct (IH _ _ _ R) as (A1 & A2 & A3 & A4 & A5 & A6).
      apply andb_true_iff in B as [B1 B2]. apply N.ltb_lt in B1, B2.
      cbn [length map fst]. split; [lia|]. split; [rewrite ?sumN_cons, ?sumN_nil; lia|]. split; [intros; apply A3; lia|].
      split; [|split; [|lia]].
      * intros L [|i] t0 u0 E Q; cbn in E |- *; [injection E as <- <-; reflexivity|eapply A4; eauto].
      * intros [|i] t0 u0 E; cbn in E |- *; [injection E as <- <-; right; auto|apply A5; exact E].
    + destruct (bumpTargets n T s r) as [ts0 s0] eqn:R. injection H as <- <-. destruct (IH _ _ _ R) as (A1 & A2 & A3 & A4 & A5 & A6).
      cbn [length map fst]. split; [lia|]. split; [rewrite ?sumN_cons, ?sumN_nil; lia|]. split; [exact A3|].
      split; [|split; [|exact A6]].
      * intros L [|i] t0 u0 E Q; cbn in E |- *; [injection E as <- <-|eapply A4; eauto]. exfalso. apply andb_false_iff in B as [B|B]; [apply N.ltb_ge in B; lia|apply N.ltb_ge in B; lia].
      * intros [|i] t0 u0 E; cbn in E |- *; [injection E as <- <-; left; reflexivity|apply A5; exact E].
Qed.
Lemma div_lt_iff a n u : 0 < n -> (a / n < u <-> a < u * n).
Proof.
  intros P. split; intros H.
  - apply N.nle_gt. intros L. assert (u <= a / n) by (apply N.div_le_lower_bound; lia). lia.
  - apply N.div_lt_upper_bound; lia.
Qed.
Lemma targets_exact n us ts s : 0 < sumN us -> adviseTargets n us = (ts, s) ->
  length ts = length us /\ sumN ts = n /\ s = n /\ (n <= sumN us -> forall i t u, nth_error ts i = Some t -> nth_error us i = Some u -> t <= u).
Proof.
  unfold adviseTargets. set (T := sumN us). intros P H. set (f := fun u => u * n / T) in H.
  destruct (bump_spec _ _ _ _ _ _ H) as (A1 & A2 & A3 & A4 & A5 & A6).
  assert (LEN : length (combine (map f us) us) = length us) by (rewrite combine_length, map_length; lia).
  assert (MF : map fst (combine (map f us) us) = map f us) by (generalize f; clear; intros f; induction us; cbn; congruence).
  assert (NE : forall i u, nth_error us i = Some u -> nth_error (combine (map f us) us) i = Some (f u, u)) by (generalize f; clear; intros f; induction us; intros [|i] u H; cbn in *; try discriminate; [injection H as ->; reflexivity|auto]).
  rewrite MF in A2. rewrite LEN in A1.
  assert (LO : T * sumN (map f us) <= n * T).
  { clear -P. assert (X : forall l, T * sumN (map f l) <= n * sumN l).
    { induction l as [|u r IH]; cbn [map]; rewrite ?sumN_cons, ?sumN_nil; [lia|]. assert (T * f u <= u * n) by (unfold f; apply N.mul_div_le; lia). lia. } apply X. }
  assert (LN : sumN (map f us) <= n) by nia.
  assert (SE : sumN ts = s) by lia.
  assert (SN : s = n).
  { specialize (A3 LN). destruct (N.lt_ge_cases s n) as [L|L]; [exfalso|lia]. specialize (A4 L).
    (* every pool with a remainder was bumped *)
    assert (HI : forall l tl, length tl = length l -> (forall i t u, nth_error tl i = Some t -> nth_error l i = Some u -> u * n <= t * T) -> n * sumN l <= sumN tl * T).
    { clear. induction l as [|u r IH]; intros [|t tr] E Q; try discriminate; [rewrite !sumN_nil; lia|]. rewrite ?sumN_cons, ?sumN_nil.
      specialize (IH tr ltac:(cbn in E; lia) (fun i => Q (S i))). specialize (Q 0%nat t u eq_refl eq_refl). lia. }
    assert (n * T <= sumN ts * T); [|nia]. apply HI; [exact A1|]. intros i t u E1 E2.
    destruct (N.lt_ge_cases (f u * T) (u * n)) as [Q|Q].
    - assert (f u * T / n < u) by (apply div_lt_iff; [lia|exact Q]). specialize (A4 i (f u) u (NE _ _ E2) H0). rewrite E1 in A4. injection A4 as ->.
      pose proof (N.mul_succ_div_gt (u * n) T ltac:(lia)). fold (f u) in *. unfold f in *. lia.
    - destruct (A5 i (f u) u (NE _ _ E2)) as [X|[X _]]; rewrite E1 in X; injection X as ->; lia. }
  split; [exact A1|]. split; [lia|]. split; [exact SN|]. intros LT i t u E1 E2.
  destruct (A5 i (f u) u (NE _ _ E2)) as [X|[X Q]]; rewrite E1 in X; injection X as ->.
  - unfold f. apply N.div_le_upper_bound; [lia|]. fold T in LT. nia.
  - fold T in LT. destruct (N.eq_dec n 0) as [Z|Z]; [assert (FZ : f u = 0) by (unfold f; cbv beta; rewrite Z, N.mul_0_r; apply N.div_0_l; lia); rewrite FZ, N.mul_0_l, Z in Q; change (0 / 0) with 0 in Q; lia|]. apply div_lt_iff in Q; [|lia]. assert (f u < u); [|lia]. nia.
Qed.
Lemma spread_spec ws d : length (spread d ws) = length ws /\ sumN (spread d ws) = N.min d (sumN ws) /\ forall i x w, nth_error (spread d ws) i = Some x -> nth_error ws i = Some w -> x <= w.
Proof.
  revert d. induction ws as [|w r IH]; intros d; cbn [spread length]; rewrite ?sumN_cons, ?sumN_nil; [split; [reflexivity|]; split; [lia|intros [|i]; discriminate]|].
  fold (sumN (spread (d - N.min w d) r)). destruct (IH (d - N.min w d)) as (A1 & A2 & A3). split; [lia|]. split; [rewrite A2; lia|].
  intros [|i] x w0 E1 E2; cbn in *; [injection E1 as <-; injection E2 as <-; lia|eapply A3; eauto].
Qed.
Lemma sum_sub ts as_ : length ts = length as_ -> sumN ts - sumN as_ <= sumN (map (fun ta => fst ta - snd ta) (combine ts as_)) /\ sumN as_ - sumN ts <= sumN (map (fun ta => snd ta - fst ta) (combine ts as_)).
Proof.
  revert as_. induction ts as [|t r IH]; intros [|a ra] E; try discriminate; cbn [combine map fst snd]; rewrite ?sumN_cons, ?sumN_nil; [lia|].
  specialize (IH ra ltac:(cbn in E; lia)).
  lia.
Qed.
Lemma calc_exact n us as_ b r : length us = length as_ -> calcAdviseReclaim n us as_ = Some (b, r) ->
  length r = length us /\
  (b = true -> sumN as_ + sumN r = n) /\
  (b = false -> sumN r + n = sumN as_ /\ forall i x a, nth_error r i = Some x -> nth_error as_ i = Some a -> x <= a) /\
  (b = true -> n <= sumN us -> forall i x a u, nth_error r i = Some x -> nth_error as_ i = Some a -> nth_error us i = Some u -> x = 0 \/ a + x <= u).
Proof.
  unfold calcAdviseReclaim. intros LE H. destruct (N.eqb_spec (sumN us) 0) as [Z|Z]; [discriminate|]. cbn [orb] in H.
  destruct ((n =? 0) && (sumN as_ =? 0)); [discriminate|].
  destruct (adviseTargets n us) as [ts s] eqn:AT. destruct (targets_exact n us ts s ltac:(lia) AT) as (T1 & T2 & T3 & T4). cbn [fst] in H.
  destruct (sum_sub ts as_ ltac:(lia)) as [S1 S2].
  assert (NTH : forall (g : N * N -> N) i a, nth_error as_ i = Some a -> exists t, nth_error ts i = Some t /\ nth_error (map g (combine ts as_)) i = Some (g (t, a))).
  { assert (LT : length ts = length as_) by lia. clear -LT. revert as_ LT. induction ts as [|t r0 IH]; intros [|a ra] LT g [|i] a0 E; cbn in *; try discriminate.
    - injection E as ->. exists t. auto.
    - apply IH; [lia|exact E]. }
  destruct (N.ltb_spec (sumN as_) n) as [L|L]; injection H as <- <-.
  - destruct (spread_spec (map (fun ta : N * N => fst ta - snd ta) (combine ts as_)) (n - sumN as_)) as (P1 & P2 & P3).
    rewrite map_length, combine_length in P1. split; [lia|]. split; [intros _; lia|]. split; [discriminate|]. intros _ LT i x a u E1 E2 E3.
    destruct (NTH (fun ta : N * N => fst ta - snd ta) i a E2) as (t & E4 & E5). specialize (P3 i x _ E1 E5). cbn in P3. specialize (T4 LT i t u E4 E3). lia.
  - destruct (spread_spec (map (fun ta : N * N => snd ta - fst ta) (combine ts as_)) (sumN as_ - n)) as (P1 & P2 & P3).
    rewrite map_length, combine_length in P1. split; [lia|]. split; [discriminate|]. split; [|discriminate]. intros _. split; [lia|]. intros i x a E1 E2.
    destruct (NTH (fun ta : N * N => snd ta - fst ta) i a E2) as (t & E4 & E5). specialize (P3 i x _ E1 E5). cbn in P3. lia.
Qed.
