From Verif Require Import Rebalance_spec Rebalance_proofs.
Local Open Scope N_scope.

Lemma totalSlabsPick_sane : sane_fallback (fun _ s => totalSlabsPick s).
Proof.
  intros e s c H. unfold totalSlabsPick in H. destruct (maxElement _ _) as [r|] eqn:E; [|discriminate].
  apply maxElement_In in E. destruct (N.eqb_spec (totalSlabs s r) 0); [discriminate|]. injection H as <-.
  split; [exact E|lia].
Qed.
Lemma totalSlabsPick_max s c : totalSlabsPick s = Some (Some c) ->
  forall d, In d (classIds s) -> totalSlabs s d <= totalSlabs s c.
Proof.
  unfold totalSlabsPick. destruct (maxElement _ _) as [r|] eqn:E; [|discriminate].
  destruct (_ =? _); [discriminate|]. intros [= <-]. exact (maxElement_key (totalSlabs s) _ _ E).
Qed.

Lemma insertBySize_In s c l x : In x (insertBySize s c l) <-> x = c \/ In x l.
Proof.
  induction l as [|y l IH]; cbn [insertBySize]; [cbn; intuition|].
  destruct (_ <? _); cbn [In]; [intuition|]. rewrite IH. intuition.
Qed.
Lemma sortBySize_In s l x : In x (sortBySize s l) <-> In x l.
Proof.
  unfold sortBySize. induction l as [|y l IH]; cbn [fold_right]; [tauto|].
  rewrite insertBySize_In, IH. cbn [In]. intuition.
Qed.
Lemma insertBySize_length s c l : length (insertBySize s c l) = S (length l).
Proof. induction l as [|y l IH]; cbn [insertBySize]; [reflexivity|]. destruct (_ <? _); cbn [length]; [|rewrite IH]; reflexivity. Qed.
Lemma sortBySize_length s l : length (sortBySize s l) = length l.
Proof. unfold sortBySize. induction l as [|y l IH]; cbn [fold_right]; [reflexivity|]. rewrite insertBySize_length, IH. reflexivity. Qed.

Lemma allocationSize_spec m n e s c : allocationSizePick m n (e_random e 2%nat) s = Some (Some c) ->
  In c (classIds s) /\
  (m <= totalSlabs s c \/
   (forall d, In d (classIds s) -> totalSlabs s d < m) /\ 0 < totalSlabs s c /\
   forall d, In d (classIds s) -> totalSlabs s d <= totalSlabs s c).
Proof.
  unfold allocationSizePick. set (el := filter _ _).
  assert (I : forall c, In c el <-> In c (classIds s) /\ m <= totalSlabs s c).
  { intros d. unfold el. rewrite filter_In, N.leb_le. tauto. }
  clearbody el. intros H. destruct el as [|w el].
  - destruct (totalSlabsPick_sane e s c H) as [A B]. split; [exact A|]. right.
    split. { intros d Hd. destruct (N.lt_ge_cases (totalSlabs s d) m); [assumption|]. exfalso. apply (proj2 (I d)). auto. }
    split; [exact B|]. apply totalSlabsPick_max. exact H.
  - destruct (nth_error _ _) as [d|] eqn:E; [|discriminate]. injection H as <-.
    apply nth_error_In in E. apply (proj1 (sortBySize_In s (w :: el) d)) in E. apply I in E as [A B]. auto.
Qed.
Lemma allocationSize_sane m n : 0 < m -> sane_fallback (fun e s => allocationSizePick m n (e_random e 2%nat) s).
Proof.
  intros Hm e s c H. apply allocationSize_spec in H as [A [B|(_ & B & _)]]; split; [exact A|lia|exact A|exact B].
Qed.
Lemma allocationSize_def m n r s : classIds s <> [] -> allocationSizePick m n r s <> None.
Proof.
  intros Hne. unfold allocationSizePick. set (el := filter _ _). clearbody el. destruct el as [|w el].
  - unfold totalSlabsPick. destruct (classIds s); [congruence|]. cbn [maxElement]. destruct (_ =? _); discriminate.
  - set (i := if _ =? 0 then _ else _).
    assert (Hi : (N.to_nat i < length (sortBySize s (w :: el)))%nat).
    { rewrite sortBySize_length. unfold i. cbn [length].
      set (k := N.min n _). assert (k <= N.of_nat (S (length el))) by (unfold k; cbn [length]; lia).
      destruct (N.eqb_spec k 0); [lia|]. pose proof (N.mod_lt r k ltac:(assumption)). lia. }
    apply nth_error_Some in Hi. destruct (nth_error _ _); [discriminate|congruence].
Qed.

Lemma recvFail_spec p s r : pickReceiverWithAllocFailures p s = Some r ->
  In r (classIds s) /\ 0 < deltaAllocFailures p s r /\
  forall c, In c (classIds s) -> deltaAllocFailures p s c <= deltaAllocFailures p s r.
Proof.
  unfold pickReceiverWithAllocFailures. intros H. pose proof (maxElement_In _ _ _ H) as I.
  apply allocFail_In in I as [A B]. split; [exact A|]. split; [exact B|].
  intros c Hc. destruct (N.eq_dec (deltaAllocFailures p s c) 0) as [->|Hn]; [lia|].
  refine (maxElement_key (deltaAllocFailures p s) _ _ H c _). apply allocFail_In. split; [exact Hc|lia].
Qed.
Lemma recvFail_None p s : no_new_failures p s -> pickReceiverWithAllocFailures p s = None.
Proof.
  intros H. unfold pickReceiverWithAllocFailures. destruct (filterByAllocFailure _ _ _) as [|w l] eqn:E; [reflexivity|].
  exfalso. assert (I : In w (filterByAllocFailure p s (classIds s))) by (rewrite E; left; reflexivity).
  apply allocFail_In in I as [A B]. unfold deltaAllocFailures in B. specialize (H w A).
  destruct (N.leb_spec (c_allocFailures (cs s w)) (allocFailures (p w))); lia.
Qed.

Lemma pickRandom_In r l c : pickRandom r l = Some c -> In c l.
Proof. unfold pickRandom. destruct (Nat.eqb _ _); [discriminate|]. apply nth_error_In. Qed.

(** every library strategy: both virtual functions *)
Lemma both_ok X st m ok : library_strategy X st m ok ->
  forall x p e s c p' x', ok x s -> pickBoth st x p e s = Some (c, p', x') ->
  same_counts p p' /\ ok x' s /\
  forall v, victim c = Some v -> In v (classIds s) /\ m < totalSlabs s v /\ receiver c <> Some v /\
                                 forall r, receiver c = Some r -> In r (classIds s).
Proof.
  intros L. destruct L as [g|m|m|F fo g|F fo g|F fo g m1 sorted]; intros x p e s c p' x' Hok H.
  - destruct x. cbn [pickBoth freeMemStrategy] in H.
    assert (Q : p' = p /\ (c = kNoOp \/ exists v, c = {| victim := Some v; receiver := None |} /\
                In v (filterByNumEvictableSlabs s (classIds s) (fm_minSlabs g)))).
    { destruct (_ <? _); [injection H as <- <- <-; auto|].
      destruct (filterByNumEvictableSlabs _ _ _) as [|w l]; [injection H as <- <- <-; auto|].
      destruct (pickVictimByFreeMem _ _ _ _) as [[v|]|] eqn:E; [| |discriminate].
      - injection H as <- <- <-. apply freeMem_spec in E as (A & _). split; [reflexivity|]. right. eauto.
      - injection H as <- <- <-. auto. }
    destruct Q as [-> [->|(v & -> & Hv)]].
    + split; [apply sc_refl|]. split; [exact I|]. discriminate.
    + split; [apply sc_refl|]. split; [exact I|]. intros v' [= <-]. apply evictable_In in Hv as [A B].
      split; [exact A|]. split; [exact B|]. split; discriminate.
  - cbn [pickBoth randomStrategy] in H. injection H as <- <- <-. split; [apply sc_refl|]. split; [exact I|].
    intros v Hv. cbn [victim] in Hv. rewrite Hv. cbn [receiver].
    pose proof (pickRandom_In _ _ _ Hv) as Iv. apply evictable_In in Iv as [A B].
    split; [exact A|]. split; [exact B|]. split.
    + intros E. apply pickRandom_In, eraseId_In in E as [_ E]. congruence.
    + intros r E. apply pickRandom_In, eraseId_In in E as [E _]. exact E.
  - injection H as <- <- <-. split; [apply sc_refl|]. split; [exact I|]. discriminate.
  - destruct x. apply lru_both in H as (A & B & _). split; [apply sbh_counts, A|]. split; [exact I|].
    destruct B as [->|(v & r & -> & B1 & B2 & B3 & B4 & _)]; [discriminate|].
    intros v' [= <-]. split; [exact B2|]. split; [exact B3|]. split; cbn [receiver]; [congruence|]. intros r' [= <-]. exact B4.
  - destruct x. apply hits_both in H as (A & B & _). split; [exact A|]. split; [exact I|].
    destruct B as [->|(v & r & vx & rx & -> & B1 & B2 & B3 & B4 & _)]; [discriminate|].
    intros v' [= <-]. split; [exact B2|]. split; [exact B3|]. split; cbn [receiver]; [congruence|]. intros r' [= <-]. exact B4.
  - apply mh_both in H as (-> & A & B); [|exact Hok]. split; [apply sc_refl|]. split; [exact A|].
    destruct B as [->|(v & r & -> & B1 & B2 & B3 & B4 & _)]; [discriminate|].
    intros v' [= <-]. split; [exact B2|]. split; [exact B3|]. split; cbn [receiver]; [congruence|]. intros r' [= <-]. exact B4.
Qed.

Lemma one_ok X st m ok : library_strategy X st m ok ->
  forall x p e s v p' x', ok x s -> pickOne st x p e s = Some (v, p', x') ->
  same_counts p p' /\ ok x' s /\
  forall c, v = Some c -> In c (classIds s) /\ m < totalSlabs s c.
Proof.
  intros L. destruct L as [g|m|m|F fo g|F fo g|F fo g m1 sorted]; intros x p e s v p' x' Hok H.
  - injection H as <- <- <-. split; [apply sc_refl|]. split; [exact I|]. discriminate.
  - injection H as <- <- <-. split; [apply sc_refl|]. split; [exact I|]. discriminate.
  - cbn [pickOne poolResizeStrategy] in H. injection H as <- <- <-. split; [apply sc_refl|]. split; [exact I|].
    intros c Hc. apply maxElement_In, evictable_In in Hc. exact Hc.
  - cbn [pickOne lruTailAgeStrategy] in H. destruct (lruPickVictim _ _ _ _ _) as [[w q]|] eqn:E; [|discriminate].
    injection H as <- <- <-. apply lruVictim_spec in E as (A & B & _). split; [apply sbh_counts, A|]. split; [exact I|]. exact B.
  - cbn [pickOne hitsPerSlabStrategy] in H. destruct (hitsPickVictim _ _ _ _) as [[w q]|] eqn:E; [|discriminate].
    injection H as <- <- <-. apply hitsVictim_spec in E as (A & B & _).
    split; [eapply sc_trans; [apply sbh_counts, A|apply sc_updateHits]|]. split; [exact I|]. exact B.
  - change (pickOne (marginalHitsStrategy fo g m1 sorted) x p e s) with
      (let* (c, p', rk') := pickBoth (marginalHitsStrategy fo g m1 sorted) x p e s in Some (victim c, p', rk')) in H.
    destruct (pickBoth _ _ _ _ _) as [[[c q] rk]|] eqn:E; [|discriminate]. injection H as <- <- <-.
    apply mh_both in E as (-> & A & B); [|exact Hok]. split; [apply sc_refl|]. split; [exact A|].
    destruct B as [->|(v & r & -> & B1 & B2 & B3 & _)]; [discriminate|]. intros c [= <-]. auto.
Qed.

(** ** the main theorem *)
Lemma choice_legal X st m ok fb : library_strategy X st m ok -> sane_fallback fb ->
  forall x po e s c po' x' v, ok x s -> pickVictimAndReceiver st fb x po e s = Some (c, po', x') ->
  victim c = Some v ->
  ok x' s /\ In v (classIds s) /\ receiver c <> Some v /\
  (forall r, receiver c = Some r -> In r (classIds s)) /\
  exists p, po = Some p /\
  (m < totalSlabs s v \/
   exists r, receiver c = Some r /\ 0 < deltaAllocFailures p s r /\
     (forall d, In d (classIds s) -> deltaAllocFailures p s d <= deltaAllocFailures p s r) /\
     1 < nSlabs (p v) /\ 0 < totalSlabs s v).
Proof.
  intros L SF x po e s c po' x' v Hok H Hv. unfold pickVictimAndReceiver in H.
  destruct po as [p|]; [|injection H as <- <- <-; discriminate].
  destruct (pickVictimAndReceiverLambda st fb x p e s) as [[[c0 p0] x0]|] eqn:E; [|discriminate].
  injection H as -> <- ->.
  assert (GB : forall y q d q' y', ok y s -> pickBoth st y q e s = Some (d, q', y') -> d = c -> y' = x' ->
     ok x' s /\ In v (classIds s) /\ receiver c <> Some v /\
     (forall r, receiver c = Some r -> In r (classIds s)) /\
     exists p1, Some p = Some p1 /\ (m < totalSlabs s v \/
       exists r, receiver c = Some r /\ 0 < deltaAllocFailures p1 s r /\
       (forall d, In d (classIds s) -> deltaAllocFailures p1 s d <= deltaAllocFailures p1 s r) /\
       1 < nSlabs (p1 v) /\ 0 < totalSlabs s v)).
  { intros y q d q' y' Hy Hb -> ->. destruct (both_ok _ _ _ _ L _ _ _ _ _ _ _ Hy Hb) as (_ & B & C).
    destruct (C v Hv) as (C1 & C2 & C3 & C4). split; [exact B|]. split; [exact C1|]. split; [exact C3|]. split; [exact C4|].
    exists p. split; [reflexivity|]. left. exact C2. }
  unfold pickVictimAndReceiverLambda in E.
  destruct (pickReceiverWithAllocFailures p s) as [r|] eqn:R; [|exact (GB _ _ _ _ _ Hok E eq_refl eq_refl)].
  apply recvFail_spec in R as (R1 & R2 & R3).
  destruct (pickOne st x p e s) as [[[v0 p1] x1]|] eqn:O; [|discriminate].
  destruct (one_ok _ _ _ _ L _ _ _ _ _ _ _ Hok O) as (O1 & O2 & O3).
  destruct (match v0 with Some v => Some (Some v) | None => fb e s end) as [[vc|]|] eqn:W; [| |discriminate].
  - destruct (negb (Nat.eqb vc r) && (1 <? nSlabs (p1 vc))) eqn:T; [|exact (GB _ _ _ _ _ O2 E eq_refl eq_refl)].
    injection E as <- <- <-. cbn [victim] in Hv. injection Hv as ->.
    apply andb_true_iff in T as [T1 T2]. apply negb_true_iff, Nat.eqb_neq in T1. apply N.ltb_lt in T2.
    destruct (O1 v) as (O4 & _). rewrite O4 in T2.
    assert (Q : In v (classIds s) /\ 0 < totalSlabs s v).
    { destruct v0 as [w|].
      - injection W as ->. destruct (O3 v eq_refl). split; [assumption|lia].
      - exact (SF _ _ _ W). }
    destruct Q as [Q1 Q2]. split; [exact O2|]. split; [exact Q1|]. cbn [receiver]. split; [congruence|].
    split; [intros r' [= <-]; exact R1|].
    exists p. split; [reflexivity|]. right. exists r. auto 8.
  - exact (GB _ _ _ _ _ O2 E eq_refl eq_refl).
Qed.

Lemma resize_legal X st m ok fb : library_strategy X st m ok -> sane_fallback fb ->
  forall x po e s s2 v po' x', ok x s -> classIds s2 = classIds s ->
  pickVictimForResizing st fb x po e s s2 = Some (Some v, po', x') ->
  In v (classIds s) /\ (m < totalSlabs s v \/ 0 < totalSlabs s2 v).
Proof.
  intros L SF x po e s s2 v po' x' Hok Hc H. unfold pickVictimForResizing in H.
  destruct po as [p|].
  - destruct (pickOne st x p e s) as [[[w p1] x1]|] eqn:O; [|discriminate].
    destruct (one_ok _ _ _ _ L _ _ _ _ _ _ _ Hok O) as (O1 & O2 & O3). destruct w as [w|].
    + injection H as -> <- <-. destruct (O3 v eq_refl). auto.
    + destruct (fb e s2) as [u|] eqn:E; [|discriminate]. injection H as -> <- <-.
      destruct (SF _ _ _ E) as [A B]. rewrite Hc in A. auto.
  - destruct (fb e s2) as [u|] eqn:E; [|discriminate]. injection H as -> <- <-.
    destruct (SF _ _ _ E) as [A B]. rewrite Hc in A. auto.
Qed.

(** ** thresholds *)
Lemma no_fail_impl X (st : strategy X) fb x p e s c po' x' :
  no_new_failures p s -> pickVictimAndReceiver st fb x (Some p) e s = Some (c, po', x') ->
  exists p', pickBoth st x p e s = Some (c, p', x') /\ po' = Some (recordCurrentState p' s).
Proof.
  intros H. unfold pickVictimAndReceiver, pickVictimAndReceiverLambda. rewrite (recvFail_None _ _ H).
  destruct (pickBoth st x p e s) as [[[c0 p0] x0]|]; [|discriminate]. intros [= <- <- <-]. eauto.
Qed.

Lemma lru_threshold F (fo : float_ops F) g fb p e s c po' v r :
  no_new_failures p s -> l_weight g = None -> (forall k, e_projected e k < 2 ^ 64) ->
  pickVictimAndReceiver (lruTailAgeStrategy fo g) fb tt (Some p) e s = Some (c, po', tt) ->
  c = {| victim := Some v; receiver := r |} ->
  exists rc, r = Some rc /\ e_oldest e rc + l_minDiff g <= e_projected e v /\
    below fo (l_ratio g) (ofN fo (e_projected e v)) (ofN fo (e_projected e v - e_oldest e rc)) = false /\
    c_freeSlabs (cs s rc) = 0 /\ deltaEvictions p s rc <> 0%Z.
Proof.
  intros Hf Hw Hb H Hc. apply no_fail_impl in H as (p' & H & _); [|exact Hf].
  apply lru_both in H as (_ & [->|(v' & r' & -> & _ & _ & _ & _ & A & B & _ & _ & T)] & _); [discriminate|].
  injection Hc as <- <-. exists r'. destruct (T Hw (Hb _)) as [T1 T2]. auto.
Qed.

Lemma hits_threshold F (fo : float_ops F) g fb p e s c po' v r :
  no_new_failures p s ->
  pickVictimAndReceiver (hitsPerSlabStrategy fo g) fb tt (Some p) e s = Some (c, po', tt) ->
  c = {| victim := Some v; receiver := r |} ->
  exists rc vx rx, r = Some rc /\
    projectedDeltaHitsPerSlab p s v = Some vx /\ deltaHitsPerSlab p s rc = Some rx /\
    (let vd := mul fo (ofN fo vx) (weightOf fo (h_weight g) v) in
     let rd := mul fo (ofN fo rx) (weightOf fo (h_weight g) rc) in
     flt fo rd vd = false /\ flt fo (sub fo rd vd) (ofN fo (h_minDiff g)) = false /\
     below fo (h_ratio g) vd (sub fo rd vd) = false) /\
    c_freeSlabs (cs s rc) = 0 /\ deltaEvictions p s rc <> 0%Z.
Proof.
  intros Hf H Hc. apply no_fail_impl in H as (p' & H & _); [|exact Hf].
  apply hits_both in H as (_ & [->|(v' & r' & vx & rx & -> & _ & _ & _ & _ & A & B & _ & _ & _ & C & D & T)] & _); [discriminate|].
  injection Hc as <- <-. exists r', vx, rx. auto 8.
Qed.

Lemma hits_threshold_exact F (fo : float_ops F) B g fb p e s c po' v r :
  no_new_failures p s -> h_weight g = None -> exact_below fo B -> h_minDiff g < B ->
  (forall k, In k (classIds s) -> deltaHits p s k < B) -> 1 <= h_minSlabs g ->
  pickVictimAndReceiver (hitsPerSlabStrategy fo g) fb tt (Some p) e s = Some (c, po', tt) ->
  c = {| victim := Some v; receiver := Some r |} ->
  deltaHits p s v / (totalSlabs s v - 1) + h_minDiff g <= deltaHits p s r / totalSlabs s r.
Proof.
  intros Hf Hw (X1 & X2 & X3) Hm Hk Hs H Hc. apply no_fail_impl in H as (p' & H & _); [|exact Hf].
  apply hits_both in H as (_ & [->|(v' & r' & vx & rx & -> & _ & V1 & V2 & R1 & A & A2 & A3 & _ & _ & C & D & T1 & T2 & T3)] & _); [discriminate|].
  injection Hc as <- <-.
  assert (L : forall k d, In k (classIds s) -> d <> 0 -> deltaHits p s k / d < B).
  { intros k d Hk' Hd. specialize (Hk k Hk'). eapply N.le_lt_trans; [|exact Hk]. apply N.div_le_upper_bound; [exact Hd|]. nia. }
  unfold projectedDeltaHitsPerSlab in C.
  destruct (N.eqb_spec (totalSlabs s v') 1) as [|Hv1]; [lia|].
  destruct (N.eqb_spec (totalSlabs s v') 0) as [|Hv0]; [lia|]. injection C as <-.
  unfold deltaHitsPerSlab in D. destruct (N.eqb_spec (totalSlabs s r') 0) as [|Hr0]; [lia|]. injection D as <-.
  pose proof (L v' (totalSlabs s v' - 1) V1 ltac:(lia)) as Lv. pose proof (L r' (totalSlabs s r') R1 Hr0) as Lr.
  set (a := deltaHits p s v' / (totalSlabs s v' - 1)) in *. set (b := deltaHits p s r' / totalSlabs s r') in *.
  rewrite Hw in T1, T2. cbn [weightOf] in T1, T2. rewrite !X2 in T1, T2 by assumption.
  rewrite X1 in T1 by assumption. apply N.ltb_ge in T1. rewrite X3 in T2 by assumption.
  rewrite X1 in T2 by lia. apply N.ltb_ge in T2. lia.
Qed.

(** ** undefined behaviour *)
Lemma lru_defined F (fo : float_ops F) g p e s :
  (forall c, In c (classIds s) -> l_minSlabs g < totalSlabs s c -> (deltaEvictions p s c <= 0)%Z) \/
  l_numSlabsFreeMem g = 0 -> pickBoth (lruTailAgeStrategy fo g) tt p e s <> None.
Proof.
  intros H. cbn [pickBoth lruTailAgeStrategy]. destruct (negb _); [discriminate|].
  destruct (lruPickVictim fo g p e s) as [[v p1]|] eqn:E.
  - destruct v as [v|]; [|discriminate]. destruct (lruPickReceiver _ _ _ _ _ _) as [r|]; [|discriminate].
    destruct (Nat.eqb v r); [discriminate|]. destruct (match l_weight g with Some _ => false | None => _ end); discriminate.
  - exfalso. apply lru_ub in E as (A & c & C1 & C2 & C3). destruct H as [H|H]; [|rewrite H in A; lia].
    specialize (H c C1 C2). lia.
Qed.
Lemma hits_defined F (fo : float_ops F) g p e s :
  (forall c, In c (classIds s) -> h_minSlabs g < totalSlabs s c -> (deltaEvictions p s c <= 0)%Z) \/
  h_numSlabsFreeMem g = 0 \/ h_byFreeMem g = false -> pickBoth (hitsPerSlabStrategy fo g) tt p e s <> None.
Proof.
  intros H. cbn [pickBoth hitsPerSlabStrategy]. destruct (negb _); [discriminate|].
  destruct (hitsPickVictim fo g p s) as [[v p1]|] eqn:E.
  - destruct (hitsPickReceiver fo g p1 s v) as [r|] eqn:R; [|exfalso; revert R; apply hitsReceiver_def].
    destruct v as [v|]; [|discriminate]. destruct r as [r|]; [|discriminate].
    destruct (Nat.eqb v r); [discriminate|].
    pose proof (proj_def p1 s v) as Pv. destruct (projectedDeltaHitsPerSlab p1 s v); [|congruence].
    apply hitsReceiver_spec in R as (_ & _ & _ & _ & R5).
    unfold deltaHitsPerSlab. destruct (N.eqb_spec (totalSlabs s r) 0); [lia|].
    destruct (_ || _); discriminate.
  - exfalso. apply hits_ub in E as (A & A2 & c & C1 & C2 & C3). destruct H as [H|[H|H]]; [|rewrite H in A2; lia|congruence].
    specialize (H c C1 C2). lia.
Qed.

(** ** hold-off *)
Lemma existsb_In x l : existsb (Nat.eqb x) l = true <-> In x l.
Proof. rewrite existsb_exists. split; [intros (y & A & B); apply Nat.eqb_eq in B; subst; exact A|intros H; exists x; split; [exact H|apply Nat.eqb_refl]]. Qed.

(** Both strategies with a hold-off. *)
Inductive hold_strategy : strategy unit -> Prop :=
| hs_lru F fo (g : lruCfg F) : hold_strategy (lruTailAgeStrategy fo g)
| hs_hits F fo (g : hitsCfg F) : hold_strategy (hitsPerSlabStrategy fo g).

Lemma hold_both st p e s c p' x : hold_strategy st -> NoDup (classIds s) ->
  pickBoth st tt p e s = Some (c, p', x) ->
  same_counts p p' /\
  (forall r, receiver c = Some r -> holdOff (p' r) = kNumHoldOffRounds) /\
  (forall r, deltaEvictions p s r = 0%Z ->
     (0 < holdOff (p r) -> victim c <> Some r) /\ holdOff (p r) - 1 <= holdOff (p' r)).
Proof.
  intros L ND H. destruct x. destruct L as [F fo g|F fo g].
  - apply lru_both in H as (A & B & D). split; [apply sbh_counts, A|]. split.
    + intros r Hr. destruct B as [->|(v & r' & -> & B)]; [discriminate|]. injection Hr as ->. apply B.
    + intros r Hr. split; [|exact (D ND r Hr)]. intros Hp Hc.
      destruct B as [->|(v & r' & -> & B1 & B2 & B3 & B4 & B5 & B6 & B7 & B8 & _)]; [discriminate|].
      injection Hc as ->. exact (B8 ND Hp Hr).
  - apply hits_both in H as (A & B & D). split; [exact A|]. split.
    + intros r Hr. destruct B as [->|(v & r' & vx & rx & -> & B)]; [discriminate|]. injection Hr as ->. apply B.
    + intros r Hr. split; [|exact (D ND r Hr)]. intros Hp Hc.
      destruct B as [->|(v & r' & vx & rx & -> & B1 & B2 & B3 & B4 & B5 & B6 & B7 & B8 & B9 & _)]; [discriminate|].
      injection Hc as ->. exact (B9 ND Hp Hr).
Qed.

Lemma hold_run st fb ids r n f : hold_strategy st -> NoDup ids -> In r ids ->
  forall (l : list (env * stats)) p out,
  (forall e s, In (e, s) l -> classIds s = ids /\ c_evictions (cs s r) = n /\
      forall k, In k ids -> c_allocFailures (cs s k) = f k) ->
  evictions (p r) = n -> (forall k, In k ids -> allocFailures (p k) = f k) ->
  N.of_nat (length l) <= holdOff (p r) ->
  calls st fb tt (Some p) l = Some out ->
  Forall (fun c => victim c <> Some r) (fst (fst out)).
Proof.
  intros L ND Hr. induction l as [|[e s] l IH]; intros p out Hl He Hf Hh H; cbn [calls] in H.
  - injection H as <-. constructor.
  - destruct (Hl e s (or_introl eq_refl)) as (H1 & H2 & H3).
    destruct (pickVictimAndReceiver st fb tt (Some p) e s) as [[[c po1] []]|] eqn:E; [|discriminate].
    apply no_fail_impl in E as (p' & E & ->).
    2:{ intros k Hk. rewrite H1 in Hk. rewrite (H3 k Hk), (Hf k Hk). lia. }
    apply hold_both in E as (S1 & _ & K1); [|exact L|rewrite H1; exact ND].
    assert (D0 : deltaEvictions p s r = 0%Z) by (unfold deltaEvictions; rewrite H2, He; lia).
    destruct (K1 r D0) as [K2 K3]. cbn [length] in Hh.
    destruct (calls st fb tt (Some (recordCurrentState p' s)) l) as [[[cs' po2] x2]|] eqn:E2; [|discriminate].
    injection H as <-. cbn [fst]. constructor.
    + apply K2. lia.
    + refine (IH _ (cs', po2, x2) _ _ _ _ E2).
      * intros e' s' Hin. apply (Hl e' s'). right; exact Hin.
      * unfold recordCurrentState. rewrite H1, (proj2 (existsb_In r ids) Hr). cbn. exact H2.
      * intros k Hk. unfold recordCurrentState. rewrite H1, (proj2 (existsb_In k ids) Hk). cbn. exact (H3 k Hk).
      * unfold recordCurrentState. rewrite H1, (proj2 (existsb_In r ids) Hr). cbn. lia.
Qed.

Lemma hold_off st fb ids r p e s c po1 l out :
  hold_strategy st -> NoDup ids -> classIds s = ids ->
  pickVictimAndReceiver st fb tt (Some p) e s = Some (c, po1, tt) -> receiver c = Some r -> In r ids ->
  (length l <= 10)%nat ->
  (forall e' s', In (e', s') l -> classIds s' = ids /\ c_evictions (cs s' r) = c_evictions (cs s r) /\
      forall k, In k ids -> c_allocFailures (cs s' k) = c_allocFailures (cs s k)) ->
  calls st fb tt po1 l = Some out ->
  Forall (fun c => victim c <> Some r) (fst (fst out)).
Proof.
  intros L ND Hi H Hc Hr Hlen Hl Hrun. unfold pickVictimAndReceiver in H.
  destruct (pickVictimAndReceiverLambda st fb tt p e s) as [[[c0 p0] []]|] eqn:E; [|discriminate].
  injection H as -> <-.
  assert (HO : holdOff (p0 r) = kNumHoldOffRounds).
  { unfold pickVictimAndReceiverLambda in E.
    destruct (pickReceiverWithAllocFailures p s) as [q|].
    - destruct (pickOne st tt p e s) as [[[v0 p1] []]|]; [|discriminate].
      destruct (match v0 with Some v => Some (Some v) | None => fb e s end) as [[vc|]|]; [| |discriminate].
      + destruct (_ && _).
        * injection E as <- <-. cbn in Hc. injection Hc as ->. unfold startHoldOff, setHoldOff, updInfo.
          rewrite Nat.eqb_refl. reflexivity.
        * apply hold_both in E as (_ & E & _); [exact (E r Hc)|exact L|rewrite Hi; exact ND].
      + apply hold_both in E as (_ & E & _); [exact (E r Hc)|exact L|rewrite Hi; exact ND].
    - apply hold_both in E as (_ & E & _); [exact (E r Hc)|exact L|rewrite Hi; exact ND]. }
  refine (hold_run st fb ids r (c_evictions (cs s r)) (fun k => c_allocFailures (cs s k)) L ND Hr l
            (recordCurrentState p0 s) out Hl _ _ _ Hrun).
  - unfold recordCurrentState. rewrite Hi, (proj2 (existsb_In r ids) Hr). reflexivity.
  - intros k Hk. unfold recordCurrentState. rewrite Hi, (proj2 (existsb_In k ids) Hk). reflexivity.
  - unfold recordCurrentState. rewrite Hi, (proj2 (existsb_In r ids) Hr). cbn. rewrite HO. unfold kNumHoldOffRounds. lia.
Qed.

(** ** pickVictimByFreeAlloc *)
Lemma freeAllocLoop_spec s t : forall l best ret c,
  freeAllocLoop s t l best ret = Some (Some c) ->
  (ret = Some c /\ forall d, In d l -> c_freeAllocs (cs s d) / c_perSlab (cs s d) <= N.max t best) \/
  (In c l /\ N.max t best < c_freeAllocs (cs s c) / c_perSlab (cs s c) /\
   forall d, In d l -> c_freeAllocs (cs s d) / c_perSlab (cs s d) <= c_freeAllocs (cs s c) / c_perSlab (cs s c)).
Proof.
  induction l as [|x l IH]; intros best ret c H; cbn [freeAllocLoop] in H.
  - injection H as ->. left. split; [reflexivity|]. intros d [].
  - destruct (_ =? 0); [discriminate|]. set (n := c_freeAllocs (cs s x) / c_perSlab (cs s x)) in *.
    destruct (N.ltb_spec t n) as [T|T]; destruct (N.ltb_spec best n) as [B|B]; cbn [andb] in H.
    1:{ apply IH in H as [[E H]|(H1 & H2 & H3)].
        - injection E as <-. right. split; [left; reflexivity|]. fold n. split; [lia|].
          intros d [<-|Hd]; [fold n; lia|]. specialize (H d Hd). lia.
        - right. split; [right; exact H1|]. split; [lia|]. intros d [<-|Hd]; [fold n; lia|auto]. }
    all: apply IH in H as [[E H]|(H1 & H2 & H3)];
      [left; split; [exact E|]; intros d [<-|Hd]; [fold n; lia|auto]
      |right; split; [right; exact H1|]; split; [lia|]; intros d [<-|Hd]; [fold n; lia|auto]].
Qed.

Lemma freeMem_threshold g fb p e s c po' x' v : no_new_failures p s ->
  pickVictimAndReceiver (freeMemStrategy g) fb tt (Some p) e s = Some (c, po', x') -> victim c = Some v ->
  receiver c = None /\ e_unallocated e <= fm_maxUnalloc g * kSlabSize /\
  (deltaEvictions p s v <= 0)%Z /\ fm_numFreeSlabs g * kSlabSize < totalFreeMemory s v /\
  fm_minSlabs g < totalSlabs s v.
Proof.
  intros Hn H Hv. unfold pickVictimAndReceiver, pickVictimAndReceiverLambda in H.
  rewrite (recvFail_None p s Hn) in H. cbn [pickBoth freeMemStrategy] in H.
  destruct (N.ltb_spec (fm_maxUnalloc g * kSlabSize) (e_unallocated e)); [injection H as <- _ _; discriminate|].
  destruct (filterByNumEvictableSlabs s (classIds s) (fm_minSlabs g)) as [|w l] eqn:F; [injection H as <- _ _; discriminate|].
  destruct (pickVictimByFreeMem p s (w :: l) (fm_numFreeSlabs g * kSlabSize)) as [[u|]|] eqn:E; [| |discriminate].
  - injection H as <- _ _. cbn in Hv. injection Hv as ->.
    apply freeMem_spec in E as (A & B & C & _). rewrite <- F in A. apply evictable_In in A as [_ A]. auto.
  - injection H as <- _ _. discriminate.
Qed.
