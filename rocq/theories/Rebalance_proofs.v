From Verif Require Import Rebalance_spec.
Local Open Scope N_scope.

Lemma filterOut_In pred l c : In c (filterOut pred l) <-> In c l /\ pred c = false.
Proof. unfold filterOut. rewrite filter_In, negb_true_iff. tauto. Qed.

Section Max.
Context {A : Type} (lt : A -> A -> bool).
Lemma maxFrom_In b l : In (maxFrom lt b l) (b :: l).
Proof.
  revert b; induction l as [|x l IH]; intros b; cbn [maxFrom]; [left; reflexivity|].
  destruct (IH (if lt b x then x else b)) as [E|E].
  - rewrite <- E. destruct (lt b x); [right; left|left]; reflexivity.
  - right; right; exact E.
Qed.
Lemma maxElement_In l a : maxElement lt l = Some a -> In a l.
Proof. destruct l; [discriminate|]. intros [= <-]. apply maxFrom_In. Qed.
Lemma maxElement_None l : maxElement lt l = None -> l = [].
Proof. destruct l; [reflexivity|discriminate]. Qed.
End Max.

Lemma maxFrom_key {A} (f : A -> N) l : forall b, forall x, In x (b :: l) ->
  f x <= f (maxFrom (fun a b => f a <? f b) b l).
Proof.
  induction l as [|y l IH]; intros b x Hx; cbn [maxFrom].
  - destruct Hx as [->|[]]; lia.
  - destruct (N.ltb_spec (f b) (f y)) as [E|E].
    + destruct Hx as [->|[->|Hx]].
      * pose proof (IH y y (or_introl eq_refl)); lia.
      * apply IH; left; reflexivity.
      * apply IH; right; exact Hx.
    + destruct Hx as [->|[->|Hx]].
      * apply IH; left; reflexivity.
      * pose proof (IH b b (or_introl eq_refl)); lia.
      * apply IH; right; exact Hx.
Qed.
Lemma maxElement_key {A} (f : A -> N) l a :
  maxElement (fun a b => f a <? f b) l = Some a -> forall x, In x l -> f x <= f a.
Proof. destruct l; [discriminate|]. intros [= <-]. apply maxFrom_key. Qed.

(** ** the hold-off filter changes only hold-offs *)
Definition same_but_holdoff (p q : pstate) : Prop := forall c,
  nSlabs (q c) = nSlabs (p c) /\ evictions (q c) = evictions (p c) /\
  allocFailures (q c) = allocFailures (p c) /\ hits (q c) = hits (p c).

Lemma sbh_refl p : same_but_holdoff p p.
Proof. intros c; auto. Qed.
Lemma sbh_trans p q r : same_but_holdoff p q -> same_but_holdoff q r -> same_but_holdoff p r.
Proof. intros H1 H2 c. destruct (H1 c) as (?&?&?&?), (H2 c) as (?&?&?&?). repeat split; congruence. Qed.
Lemma sbh_set p c h : same_but_holdoff p (setHoldOff p c h).
Proof. intros x. unfold setHoldOff, updInfo. destruct (Nat.eqb_spec x c); subst; cbn; auto. Qed.
Lemma sbh_start p c : same_but_holdoff p (startHoldOff p c).
Proof. apply sbh_set. Qed.
Lemma sbh_delta p q s c : same_but_holdoff p q -> deltaEvictions q s c = deltaEvictions p s c.
Proof. intros H. unfold deltaEvictions. destruct (H c) as (_&->&_). reflexivity. Qed.
Lemma sbh_fail p q s c : same_but_holdoff p q -> deltaAllocFailures q s c = deltaAllocFailures p s c.
Proof. intros H. unfold deltaAllocFailures. destruct (H c) as (_&_&->&_). reflexivity. Qed.
Lemma sbh_hits p q s c : same_but_holdoff p q -> deltaHits q s c = deltaHits p s c.
Proof. intros H. unfold deltaHits. destruct (H c) as (_&_&_&->). reflexivity. Qed.

Lemma holdOff_filter s l : forall p p' l', filterVictimsByHoldOff p s l = (p', l') ->
  same_but_holdoff p p' /\ (forall c, In c l' -> In c l) /\
  (forall c, ~ In c l -> holdOff (p' c) = holdOff (p c)) /\
  (NoDup l -> forall c, In c l' -> 0 < holdOff (p c) -> deltaEvictions p s c <> 0%Z) /\
  (NoDup l -> forall c, deltaEvictions p s c = 0%Z -> holdOff (p c) - 1 <= holdOff (p' c)).
Proof.
  induction l as [|c l IH]; cbn [filterVictimsByHoldOff]; intros p p' l' H.
  - injection H as <- <-. split; [apply sbh_refl|]. split; [auto|]. split; [auto|]. split; [intros _ ? []|]. intros; lia.
  - destruct (N.ltb_spec 0 (holdOff (p c))) as [Hh|Hh].
    + destruct (Z.eqb_spec (deltaEvictions p s c) 0) as [Hd|Hd].
      * apply IH in H as (S1 & I1 & K1 & N1 & D1). split; [|split; [|split; [|split]]].
        -- eapply sbh_trans; [apply sbh_set|exact S1].
        -- intros x Hx. right. auto.
        -- intros x Hx. rewrite K1 by (intros E; apply Hx; right; exact E).
           unfold setHoldOff, updInfo. destruct (Nat.eqb_spec x c); [subst; exfalso; apply Hx; left; reflexivity|reflexivity].
        -- intros ND x Hx. inversion ND as [|? ? A B]; subst. intros Hpos.
           assert (x <> c) by (intros ->; apply A, I1, Hx).
           pose proof (N1 B x Hx) as Q. rewrite (sbh_delta _ _ s x (sbh_set p c _)) in Q. apply Q.
           unfold setHoldOff, updInfo. destruct (Nat.eqb_spec x c); [contradiction|exact Hpos].
        -- intros ND x Hx. inversion ND as [|? ? A B]; subst.
           destruct (Nat.eq_dec x c) as [->|Hne].
           ++ rewrite (K1 c A). unfold setHoldOff, updInfo. rewrite Nat.eqb_refl. cbn. lia.
           ++ pose proof (D1 B x) as Q. rewrite (sbh_delta _ _ s x (sbh_set p c _)) in Q. specialize (Q Hx).
              unfold setHoldOff, updInfo in Q. destruct (Nat.eqb_spec x c); [contradiction|exact Q].
      * destruct (filterVictimsByHoldOff (setHoldOff p c 0) s l) as [q m] eqn:E. injection H as <- <-.
        apply IH in E as (S1 & I1 & K1 & N1 & D1). split; [|split; [|split; [|split]]].
        -- eapply sbh_trans; [apply sbh_set|exact S1].
        -- intros x [->|Hx]; [left; reflexivity|right; auto].
        -- intros x Hx. rewrite K1 by (intros E; apply Hx; right; exact E).
           unfold setHoldOff, updInfo. destruct (Nat.eqb_spec x c); [subst; exfalso; apply Hx; left; reflexivity|reflexivity].
        -- intros ND x Hx. inversion ND as [|? ? A B]; subst. intros Hpos.
           destruct Hx as [<-|Hx]; [exact Hd|].
           assert (x <> c) by (intros ->; apply A, I1, Hx).
           pose proof (N1 B x Hx) as Q. rewrite (sbh_delta _ _ s x (sbh_set p c _)) in Q. apply Q.
           unfold setHoldOff, updInfo. destruct (Nat.eqb_spec x c); [contradiction|exact Hpos].
        -- intros ND x Hx. inversion ND as [|? ? A B]; subst.
           destruct (Nat.eq_dec x c) as [->|Hne]; [contradiction|].
           pose proof (D1 B x) as Q. rewrite (sbh_delta _ _ s x (sbh_set p c _)) in Q. specialize (Q Hx).
           unfold setHoldOff, updInfo in Q. destruct (Nat.eqb_spec x c); [contradiction|exact Q].
    + destruct (filterVictimsByHoldOff p s l) as [q m] eqn:E. injection H as <- <-.
      apply IH in E as (S1 & I1 & K1 & N1 & D1). split; [exact S1|]. split; [|split; [|split]].
      * intros x [->|Hx]; [left; reflexivity|right; auto].
      * intros x Hx. apply K1. intros E; apply Hx; right; exact E.
      * intros ND x Hx Hpos. inversion ND as [|? ? A B]; subst.
        destruct Hx as [<-|Hx]; [lia|]. apply (N1 B x Hx Hpos).
      * intros ND x Hx. inversion ND as [|? ? A B]; subst. apply (D1 B x Hx).
Qed.

(** ** pickVictimByFreeMem *)
Lemma freeMem_spec p s vs t v : pickVictimByFreeMem p s vs t = Some (Some v) ->
  In v vs /\ (deltaEvictions p s v <= 0)%Z /\ t < totalFreeMemory s v /\ t <> 0 /\
  (forall c, In c vs -> (deltaEvictions p s c <= 0)%Z -> totalFreeMemory s c <= totalFreeMemory s v).
Proof.
  unfold pickVictimByFreeMem. destruct vs as [|w vs]; [discriminate|].
  set (l := w :: vs). destruct (N.eqb_spec t 0) as [|Ht]; [discriminate|].
  destruct (maxElement _ _) as [it|] eqn:E; [|discriminate].
  destruct (N.leb_spec (totalFreeMemory s it) t) as [|Hlt]; [discriminate|].
  intros [= <-]. pose proof (maxElement_In _ _ _ E) as Hin. apply filterOut_In in Hin as [Hin Hp].
  apply Z.ltb_ge in Hp.
  split; [exact Hin|]. split; [exact Hp|]. split; [exact Hlt|]. split; [exact Ht|].
  intros c Hc Hd. refine (maxElement_key (totalFreeMemory s) _ _ E c _).
  apply filterOut_In. split; [exact Hc|]. apply Z.ltb_ge. exact Hd.
Qed.

Lemma freeMem_ub p s vs t : pickVictimByFreeMem p s vs t = None <->
  vs <> [] /\ t <> 0 /\ forall c, In c vs -> (0 < deltaEvictions p s c)%Z.
Proof.
  unfold pickVictimByFreeMem. destruct vs as [|w vs]; [split; [discriminate|intros [H _]; congruence]|].
  set (l := w :: vs). destruct (N.eqb_spec t 0) as [|Ht].
  { split; [discriminate|]. intros (_ & H & _). contradiction. }
  destruct (maxElement _ _) as [it|] eqn:E.
  - split.
    + destruct (_ <=? _); discriminate.
    + intros (_ & _ & H). apply maxElement_In in E. apply filterOut_In in E as [E1 E2].
      apply H in E1. apply Z.ltb_ge in E2. lia.
  - split; [|reflexivity]. intros _. split; [discriminate|]. split; [exact Ht|].
    apply maxElement_None in E. intros c Hc.
    destruct (Z.ltb_spec 0 (deltaEvictions p s c)) as [|Hle]; [assumption|].
    assert (Q : In c (filterOut (fun c0 => (0 <? deltaEvictions p s c0)%Z) l)).
    { apply filterOut_In. split; [exact Hc|]. apply Z.ltb_ge; exact Hle. }
    rewrite E in Q. destruct Q.
Qed.

Lemma evictable_In s l m c : In c (filterByNumEvictableSlabs s l m) <-> In c l /\ m < totalSlabs s c.
Proof. unfold filterByNumEvictableSlabs. rewrite filterOut_In, N.leb_gt. tauto. Qed.
Lemma eraseId_In v l c : In c (eraseId v l) <-> In c l /\ v <> Some c.
Proof.
  destruct v as [v|]; cbn [eraseId].
  - rewrite filter_In, negb_true_iff, Nat.eqb_neq. split; intros [A B]; split; congruence.
  - split; [intros; split; [assumption|discriminate]|tauto].
Qed.
Lemma noEvict_In p s l c : In c (filterByNoEvictions p s l) <->
  In c l /\ c_freeSlabs (cs s c) = 0 /\ deltaEvictions p s c <> 0%Z.
Proof.
  unfold filterByNoEvictions. rewrite filterOut_In, orb_false_iff, N.ltb_ge, Z.eqb_neq. intuition lia.
Qed.
Lemma allocFail_In p s l c : In c (filterByAllocFailure p s l) <-> In c l /\ 0 < deltaAllocFailures p s c.
Proof. unfold filterByAllocFailure. rewrite filterOut_In, N.eqb_neq. intuition lia. Qed.

(** ** LruTailAge *)
Section Lru.
Context {F : Type} (fo : float_ops F) (g : lruCfg F).

Lemma lruVictim_spec p e s v p' : lruPickVictim fo g p e s = Some (v, p') ->
  same_but_holdoff p p' /\
  (forall c, v = Some c -> In c (classIds s) /\ l_minSlabs g < totalSlabs s c) /\
  (NoDup (classIds s) -> forall c, v = Some c -> 0 < holdOff (p c) -> deltaEvictions p s c <> 0%Z) /\
  (NoDup (classIds s) -> forall c, deltaEvictions p s c = 0%Z -> holdOff (p c) - 1 <= holdOff (p' c)).
Proof.
  unfold lruPickVictim.
  destruct (filterVictimsByHoldOff p s _) as [p1 vs] eqn:E.
  apply holdOff_filter in E as (S1 & I1 & _ & N1 & D1).
  assert (ND : NoDup (classIds s) -> NoDup (filterByNumEvictableSlabs s (classIds s) (l_minSlabs g)))
    by (apply NoDup_filter).
  intros H.
  assert (Q : p1 = p' /\ forall c, v = Some c -> In c vs).
  { destruct vs as [|w vs]; [injection H as <- <-; split; [reflexivity|discriminate]|].
    destruct (pickVictimByFreeMem _ _ _ _) as [[u|]|] eqn:E2; [| |discriminate].
    - injection H as <- <-. split; [reflexivity|]. intros c [= <-]. apply freeMem_spec in E2 as (A & _). exact A.
    - injection H as Hv <-. split; [reflexivity|]. intros c Hc. rewrite Hc in Hv. injection Hv as <-. apply maxFrom_In. }
  destruct Q as [<- Q]. split; [exact S1|]. split; [|split].
  - intros c Hc. apply Q in Hc. apply I1 in Hc. apply evictable_In in Hc. exact Hc.
  - intros Hn c Hc. exact (N1 (ND Hn) c (Q c Hc)).
  - intros Hn. exact (D1 (ND Hn)).
Qed.

Lemma lruReceiver_spec p e s v c : lruPickReceiver fo g p e s v = Some c ->
  In c (classIds s) /\ v <> Some c /\ c_freeSlabs (cs s c) = 0 /\ deltaEvictions p s c <> 0%Z.
Proof.
  unfold lruPickReceiver, minElement. intros H. apply maxElement_In in H.
  apply noEvict_In in H as (H & A & B). apply eraseId_In in H as (C & D). auto.
Qed.

Lemma lru_ub p e s : lruPickVictim fo g p e s = None ->
  l_numSlabsFreeMem g * kSlabSize <> 0 /\
  exists c, In c (classIds s) /\ l_minSlabs g < totalSlabs s c /\ (0 < deltaEvictions p s c)%Z.
Proof.
  unfold lruPickVictim. destruct (filterVictimsByHoldOff p s _) as [p1 vs] eqn:E.
  apply holdOff_filter in E as (S1 & I1 & _).
  destruct vs as [|w vs]; [discriminate|].
  destruct (pickVictimByFreeMem _ _ _ _) as [[u|]|] eqn:E2; [discriminate|discriminate|]. intros _.
  apply freeMem_ub in E2 as (_ & A & B). split; [exact A|]. exists w.
  pose proof (I1 w (or_introl eq_refl)) as I. apply evictable_In in I as [I J].
  split; [exact I|]. split; [exact J|]. rewrite <- (sbh_delta _ _ s w S1). apply B. left; reflexivity.
Qed.

Lemma lru_both p e s c p' x : pickBoth (lruTailAgeStrategy fo g) tt p e s = Some (c, p', x) ->
  same_but_holdoff p p' /\
  (c = kNoOp \/
   exists v r, c = {| victim := Some v; receiver := Some r |} /\ v <> r /\
     In v (classIds s) /\ l_minSlabs g < totalSlabs s v /\
     In r (classIds s) /\ c_freeSlabs (cs s r) = 0 /\ deltaEvictions p s r <> 0%Z /\
     holdOff (p' r) = kNumHoldOffRounds /\
     (NoDup (classIds s) -> 0 < holdOff (p v) -> deltaEvictions p s v <> 0%Z) /\
     (l_weight g = None -> e_projected e v < 2 ^ 64 ->
        e_oldest e r + l_minDiff g <= e_projected e v /\
        below fo (l_ratio g) (ofN fo (e_projected e v)) (ofN fo (e_projected e v - e_oldest e r)) = false)) /\
  (NoDup (classIds s) -> forall x, deltaEvictions p s x = 0%Z -> holdOff (p x) - 1 <= holdOff (p' x)).
Proof.
  cbn [pickBoth lruTailAgeStrategy].
  destruct (e_allAllocated e); cbn [negb]; cycle 1.
  { intros [= <- <- <-]. split; [apply sbh_refl|]. split; [left; reflexivity|]. intros; lia. }
  destruct (lruPickVictim fo g p e s) as [[v p1]|] eqn:E; [|discriminate].
  apply lruVictim_spec in E as (S1 & V1 & H1 & D1).
  destruct v as [v|]; cycle 1.
  { intros [= <- <- <-]. split; [exact S1|]. split; [left; reflexivity|exact D1]. }
  destruct (lruPickReceiver fo g p1 e s (Some v)) as [r|] eqn:R; cycle 1.
  { intros [= <- <- <-]. split; [exact S1|]. split; [left; reflexivity|exact D1]. }
  apply lruReceiver_spec in R as (R1 & R2 & R3 & R4).
  destruct (Nat.eqb_spec v r) as [|Hne]; [congruence|].
  set (imp := (e_projected e v + 2 ^ 64 - e_oldest e r) mod 2 ^ 64).
  destruct (match l_weight g with Some _ => false | None => _ end) eqn:T.
  { intros [= <- <- <-]. split; [exact S1|]. split; [left; reflexivity|exact D1]. }
  intros [= <- <- <-]. split; [eapply sbh_trans; [exact S1|apply sbh_start]|]. split.
  - right. exists v, r. destruct (V1 v eq_refl) as [V2 V3].
    rewrite (sbh_delta p p1 s r S1) in R4.
    split; [reflexivity|]. split; [exact Hne|]. split; [exact V2|]. split; [exact V3|].
    split; [exact R1|]. split; [exact R3|]. split; [exact R4|].
    split; [unfold startHoldOff, setHoldOff, updInfo; rewrite Nat.eqb_refl; reflexivity|].
    split; [intros Hn; exact (H1 Hn v eq_refl)|].
    intros W B. rewrite W in T. apply orb_false_iff in T as [T T3]. apply orb_false_iff in T as [T1 T2].
    apply N.ltb_ge in T1, T2.
    assert (HI : imp = e_projected e v - e_oldest e r).
    { unfold imp. replace (e_projected e v + 2 ^ 64 - e_oldest e r) with
        ((e_projected e v - e_oldest e r) + 1 * 2 ^ 64) by lia.
      rewrite N.mod_add by discriminate. apply N.mod_small. lia. }
    rewrite HI in T2, T3. split; [lia|exact T3].
  - intros Hn x Hx. specialize (D1 Hn x Hx). unfold startHoldOff, setHoldOff, updInfo.
    destruct (Nat.eqb_spec x r) as [->|]; [|exact D1].
    exfalso. rewrite (sbh_delta p p1 s r S1) in R4. contradiction.
Qed.
End Lru.

(** ** HitsPerSlab *)
Lemma sbh_updateHits_ns p s c : nSlabs (updateHits p s c) = nSlabs (p c) /\
  evictions (updateHits p s c) = evictions (p c) /\ allocFailures (updateHits p s c) = allocFailures (p c) /\
  holdOff (updateHits p s c) = holdOff (p c).
Proof. unfold updateHits. destruct (existsb _ _); cbn; auto. Qed.

(** weaker relation: slabs, evictions and failures kept *)
Definition same_counts (p q : pstate) : Prop := forall c,
  nSlabs (q c) = nSlabs (p c) /\ evictions (q c) = evictions (p c) /\ allocFailures (q c) = allocFailures (p c).
Lemma sbh_counts p q : same_but_holdoff p q -> same_counts p q.
Proof. intros H c. destruct (H c) as (?&?&?&?); auto. Qed.
Lemma sc_trans p q r : same_counts p q -> same_counts q r -> same_counts p r.
Proof. intros H1 H2 c. destruct (H1 c) as (?&?&?), (H2 c) as (?&?&?). repeat split; congruence. Qed.
Lemma sc_refl p : same_counts p p.
Proof. intros c; auto. Qed.
Lemma sc_updateHits p s : same_counts p (updateHits p s).
Proof. intros c. destruct (sbh_updateHits_ns p s c) as (?&?&?&?); auto. Qed.
Lemma sc_delta p q s c : same_counts p q -> deltaEvictions q s c = deltaEvictions p s c.
Proof. intros H. unfold deltaEvictions. destruct (H c) as (_&->&_). reflexivity. Qed.

Lemma mapO_In {A B} (f : A -> option B) l : forall r, mapO f l = Some r ->
  forall a b, In (a, b) r -> In a l /\ f a = Some b.
Proof.
  induction l as [|x l IH]; cbn [mapO]; intros r H a b Hin.
  - injection H as <-. destruct Hin.
  - destruct (f x) as [y|] eqn:E; [|discriminate]. destruct (mapO f l) as [r'|]; [|discriminate].
    injection H as <-. destruct Hin as [[= <- <-]|Hin]; [split; [left; reflexivity|exact E]|].
    destruct (IH r' eq_refl a b Hin). split; [right; assumption|assumption].
Qed.
Lemma mapO_Some {A B} (f : A -> option B) l : (forall a, In a l -> f a <> None) -> mapO f l <> None.
Proof.
  induction l as [|x l IH]; cbn [mapO]; [discriminate|]. intros H.
  destruct (f x) eqn:E; [|exfalso; exact (H x (or_introl eq_refl) E)].
  destruct (mapO f l) eqn:E2; [discriminate|]. exfalso. apply IH; [|reflexivity].
  intros a Ha. apply H. right; exact Ha.
Qed.
Lemma filterOut_incl pred l c : In c (filterOut pred l) -> In c l.
Proof. intros H. apply filterOut_In in H as [H _]. exact H. Qed.
Lemma orElse_incl {A} (l m : list A) c : (forall x, In x m -> In x l) ->
  In c (match m with [] => l | x :: r => x :: r end) -> In c l.
Proof. intros H. destruct m; [auto|]. intros Hc. apply H. exact Hc. Qed.

Section Hits.
Context {F : Type} (fo : float_ops F) (g : hitsCfg F).

Lemma hitsVictim_spec p s v p' : hitsPickVictim fo g p s = Some (v, p') ->
  same_but_holdoff p p' /\
  (forall c, v = Some c -> In c (classIds s) /\ h_minSlabs g < totalSlabs s c) /\
  (NoDup (classIds s) -> forall c, v = Some c -> 0 < holdOff (p c) -> deltaEvictions p s c <> 0%Z) /\
  (NoDup (classIds s) -> forall c, deltaEvictions p s c = 0%Z -> holdOff (p c) - 1 <= holdOff (p' c)) /\
  (forall c, v = Some c -> h_minAge g <= c_evAge (cs s c)) /\
  (forall c m t, v = Some c -> h_target g = Some m -> m c = Some t -> t <= c_evAge (cs s c)).
Proof.
  unfold hitsPickVictim. destruct (filterVictimsByHoldOff p s _) as [p1 l1] eqn:E.
  apply holdOff_filter in E as (S1 & I1 & _ & N1 & D1).
  assert (ND : NoDup (classIds s) -> NoDup (filterByNumEvictableSlabs s (classIds s) (h_minSlabs g)))
    by (apply NoDup_filter).
  set (l2 := if h_minAge g =? 0 then l1 else filterByMinTailAge s l1 (h_minAge g)).
  assert (I2 : forall c, In c l2 -> In c l1 /\ h_minAge g <= c_evAge (cs s c)).
  { unfold l2. intros c. destruct (N.eqb_spec (h_minAge g) 0) as [->|]; [intros; split; [assumption|lia]|].
    intros H. apply filterOut_In in H as [H A]. apply N.ltb_ge in A. auto. }
  clearbody l2.
  set (l3 := match h_target g with Some m => filterVictimsByTargetEvictionAge s l2 m | None => l2 end).
  assert (I3 : forall c, In c l3 -> In c l2 /\ forall m t, h_target g = Some m -> m c = Some t -> t <= c_evAge (cs s c)).
  { unfold l3. intros c. destruct (h_target g) as [m|]; [|intros; split; [assumption|discriminate]].
    intros H. apply filterOut_In in H as [H A]. split; [exact H|]. intros m' t [= <-] Ht. rewrite Ht in A.
    apply N.ltb_ge in A. exact A. }
  intros H.
  assert (Q : p1 = p' /\ forall c, v = Some c -> In c l3).
  { destruct l2 as [|w l2]; [injection H as <- <-; split; [reflexivity|discriminate]|].
    clearbody l3.
    destruct l3 as [|w3 l3]; [injection H as <- <-; split; [reflexivity|discriminate]|].
    destruct (if h_byFreeMem g then _ else _) as [[u|]|] eqn:E2; [| |discriminate].
    - injection H as <- <-. split; [reflexivity|]. intros c [= <-].
      destruct (h_byFreeMem g); [|discriminate]. apply freeMem_spec in E2 as (A & _). exact A.
    - set (l4 := if h_maxAge g =? 0 then _ else _) in H.
      assert (I4 : forall c, In c l4 -> In c (w3 :: l3)).
      { unfold l4. intros c. destruct (h_maxAge g =? 0); [auto|]. apply orElse_incl. intros x. apply filterOut_incl. }
      destruct (mapO _ l4) as [sc|] eqn:E4; [|discriminate]. injection H as Hv <-. split; [reflexivity|].
      intros c Hc. rewrite Hc in Hv. unfold minElement in Hv.
      destruct (maxElement _ sc) as [[a b]|] eqn:E5; [|discriminate]. cbn in Hv. injection Hv as <-.
      apply maxElement_In in E5. destruct (mapO_In _ _ _ E4 _ _ E5) as [A _]. apply I4, A. }
  destruct Q as [<- Q]. split; [exact S1|]. split; [|split; [|split; [|split]]].
  - intros c Hc. apply Q in Hc. apply I3 in Hc as [Hc _]. apply I2 in Hc as [Hc _]. apply I1 in Hc.
    apply evictable_In in Hc. exact Hc.
  - intros Hn c Hc. apply Q in Hc. apply I3 in Hc as [Hc _]. apply I2 in Hc as [Hc _]. exact (N1 (ND Hn) c Hc).
  - intros Hn. exact (D1 (ND Hn)).
  - intros c Hc. apply Q in Hc. apply I3 in Hc as [Hc _]. apply I2 in Hc as [_ A]. exact A.
  - intros c m t Hc. apply Q in Hc. apply I3 in Hc as [_ A]. apply A.
Qed.

Lemma hitsReceiver_spec p s v c : hitsPickReceiver fo g p s v = Some (Some c) ->
  In c (classIds s) /\ v <> Some c /\ c_freeSlabs (cs s c) = 0 /\ deltaEvictions p s c <> 0%Z /\ 0 < totalSlabs s c.
Proof.
  unfold hitsPickReceiver.
  set (l0 := filterByNumEvictableSlabs s _ 0).
  set (l1 := if h_maxAge g =? 0 then l0 else _).
  assert (I1 : forall c, In c l1 -> In c l0).
  { unfold l1. intros x. destruct (h_maxAge g =? 0); [auto|]. apply orElse_incl. intros y. apply filterOut_incl. }
  clearbody l1. destruct l1 as [|w1 l1]; [discriminate|].
  set (l2 := match h_target g with None => _ | Some m => _ end).
  assert (I2 : forall c, In c l2 -> In c (w1 :: l1)).
  { unfold l2. intros x. destruct (h_target g) as [m|]; [|auto].
    destruct (filterReceiversByTargetEvictionAge s (w1 :: l1) m) eqn:E.
    - apply filterOut_incl.
    - rewrite <- E. apply filterOut_incl. }
  clearbody l2. destruct l2 as [|w2 l2]; [discriminate|].
  set (l3 := if h_minAge g =? 0 then _ else _).
  assert (I3 : forall c, In c l3 -> In c (w2 :: l2)).
  { unfold l3. intros x. destruct (h_minAge g =? 0); [auto|]. apply orElse_incl. intros y. apply filterOut_incl. }
  clearbody l3. destruct (mapO _ l3) as [sc|] eqn:E4; [|discriminate]. intros H.
  destruct (maxElement _ sc) as [[a b]|] eqn:E5; [|discriminate]. cbn in H. injection H as ->.
  apply maxElement_In in E5. destruct (mapO_In _ _ _ E4 _ _ E5) as [A _].
  apply I3, I2, I1 in A. apply evictable_In in A as [A B]. apply noEvict_In in A as (A & C & D).
  apply eraseId_In in A as (A & A'). auto.
Qed.

Lemma hitsReceiver_def p s v : hitsPickReceiver fo g p s v <> None.
Proof.
  unfold hitsPickReceiver.
  set (l0 := filterByNumEvictableSlabs s _ 0).
  set (l1 := if h_maxAge g =? 0 then l0 else _).
  assert (I1 : forall c, In c l1 -> In c l0).
  { unfold l1. intros x. destruct (h_maxAge g =? 0); [auto|]. apply orElse_incl. intros y. apply filterOut_incl. }
  clearbody l1. destruct l1 as [|w1 l1]; [discriminate|].
  set (l2 := match h_target g with None => _ | Some m => _ end).
  assert (I2 : forall c, In c l2 -> In c (w1 :: l1)).
  { unfold l2. intros x. destruct (h_target g) as [m|]; [|auto].
    destruct (filterReceiversByTargetEvictionAge s (w1 :: l1) m) eqn:E.
    - apply filterOut_incl.
    - rewrite <- E. apply filterOut_incl. }
  clearbody l2. destruct l2 as [|w2 l2]; [discriminate|].
  set (l3 := if h_minAge g =? 0 then _ else _).
  assert (I3 : forall c, In c l3 -> In c (w2 :: l2)).
  { unfold l3. intros x. destruct (h_minAge g =? 0); [auto|]. apply orElse_incl. intros y. apply filterOut_incl. }
  clearbody l3. destruct (mapO _ l3) as [sc|] eqn:E4; [discriminate|].
  exfalso. apply (mapO_Some _ l3) in E4; [exact E4|]. intros a Ha.
  apply I3, I2, I1 in Ha. apply evictable_In in Ha as [_ B]. unfold deltaHitsPerSlab.
  destruct (N.eqb_spec (totalSlabs s a) 0); [lia|discriminate].
Qed.

Lemma proj_def p s c : projectedDeltaHitsPerSlab p s c <> None.
Proof. unfold projectedDeltaHitsPerSlab. destruct (_ =? 1); discriminate. Qed.

Lemma hits_ub p s : hitsPickVictim fo g p s = None ->
  h_byFreeMem g = true /\ h_numSlabsFreeMem g * kSlabSize <> 0 /\
  exists c, In c (classIds s) /\ h_minSlabs g < totalSlabs s c /\ (0 < deltaEvictions p s c)%Z.
Proof.
  unfold hitsPickVictim. destruct (filterVictimsByHoldOff p s _) as [p1 l1] eqn:E.
  apply holdOff_filter in E as (S1 & I1 & _ & N1 & D1).
  set (l2 := if h_minAge g =? 0 then l1 else filterByMinTailAge s l1 (h_minAge g)).
  assert (I2 : forall c, In c l2 -> In c l1).
  { unfold l2. intros c. destruct (h_minAge g =? 0); [auto|]. apply filterOut_incl. }
  clearbody l2. destruct l2 as [|w2 l2]; [discriminate|].
  set (l3 := match h_target g with Some m => _ | None => _ end).
  assert (I3 : forall c, In c l3 -> In c (w2 :: l2)).
  { unfold l3. intros c. destruct (h_target g) as [m|]; [|auto]. apply filterOut_incl. }
  clearbody l3. destruct l3 as [|w3 l3]; [discriminate|].
  destruct (h_byFreeMem g).
  - destruct (pickVictimByFreeMem p1 s (w3 :: l3) _) as [[u|]|] eqn:E2; [discriminate| |].
    + intros H. exfalso. destruct (mapO _ _) as [sc|] eqn:E4; [discriminate|].
      apply mapO_Some in E4; [exact E4|]. intros a _. pose proof (proj_def p1 s a).
      destruct (projectedDeltaHitsPerSlab p1 s a); [discriminate|congruence].
    + intros _. apply freeMem_ub in E2 as (_ & A & B). split; [reflexivity|]. split; [exact A|].
      exists w3. pose proof (I1 _ (I2 _ (I3 w3 (or_introl eq_refl)))) as I. apply evictable_In in I as [I J].
      split; [exact I|]. split; [exact J|]. rewrite <- (sbh_delta _ _ s w3 S1). apply B. left; reflexivity.
  - intros H. exfalso. destruct (mapO _ _) as [sc|] eqn:E4; [discriminate|].
    apply mapO_Some in E4; [exact E4|]. intros a _. pose proof (proj_def p1 s a).
    destruct (projectedDeltaHitsPerSlab p1 s a); [discriminate|congruence].
Qed.

Lemma hits_both p e s c p' x : pickBoth (hitsPerSlabStrategy fo g) tt p e s = Some (c, p', x) ->
  same_counts p p' /\
  (c = kNoOp \/
   exists v r vx rx, c = {| victim := Some v; receiver := Some r |} /\ v <> r /\
     In v (classIds s) /\ h_minSlabs g < totalSlabs s v /\
     In r (classIds s) /\ c_freeSlabs (cs s r) = 0 /\ deltaEvictions p s r <> 0%Z /\ 0 < totalSlabs s r /\
     holdOff (p' r) = kNumHoldOffRounds /\
     (NoDup (classIds s) -> 0 < holdOff (p v) -> deltaEvictions p s v <> 0%Z) /\
     projectedDeltaHitsPerSlab p s v = Some vx /\ deltaHitsPerSlab p s r = Some rx /\
     let vd := mul fo (ofN fo vx) (weightOf fo (h_weight g) v) in
     let rd := mul fo (ofN fo rx) (weightOf fo (h_weight g) r) in
     flt fo rd vd = false /\ flt fo (sub fo rd vd) (ofN fo (h_minDiff g)) = false /\
     below fo (h_ratio g) vd (sub fo rd vd) = false) /\
  (NoDup (classIds s) -> forall x, deltaEvictions p s x = 0%Z -> holdOff (p x) - 1 <= holdOff (p' x)).
Proof.
  cbn [pickBoth hitsPerSlabStrategy].
  destruct (e_allAllocated e); cbn [negb]; cycle 1.
  { intros [= <- <- <-]. split; [apply sc_refl|]. split; [left; reflexivity|]. intros; lia. }
  destruct (hitsPickVictim fo g p s) as [[v p1]|] eqn:E; [|discriminate].
  apply hitsVictim_spec in E as (S1 & V1 & H1 & D1 & _).
  destruct (hitsPickReceiver fo g p1 s v) as [r|] eqn:R; [|discriminate].
  destruct v as [v|]; cycle 1.
  { intros [= <- <- <-]. split; [apply sbh_counts, S1|]. split; [left; reflexivity|exact D1]. }
  destruct r as [r|]; cycle 1.
  { intros [= <- <- <-]. split; [apply sbh_counts, S1|]. split; [left; reflexivity|exact D1]. }
  apply hitsReceiver_spec in R as (R1 & R2 & R3 & R4 & R5).
  destruct (Nat.eqb_spec v r) as [|Hne]; [congruence|].
  assert (PE : projectedDeltaHitsPerSlab p1 s v = projectedDeltaHitsPerSlab p s v).
  { unfold projectedDeltaHitsPerSlab. rewrite (sbh_hits p p1 s v S1). reflexivity. }
  assert (RE : deltaHitsPerSlab p1 s r = deltaHitsPerSlab p s r).
  { unfold deltaHitsPerSlab. rewrite (sbh_hits p p1 s r S1). reflexivity. }
  rewrite PE, RE.
  destruct (projectedDeltaHitsPerSlab p s v) as [vx|] eqn:EV; [|discriminate].
  destruct (deltaHitsPerSlab p s r) as [rx|] eqn:ER; [|discriminate].
  destruct (_ || _) eqn:T.
  { intros [= <- <- <-]. split.
    - destruct (h_everyAttempt g); [eapply sc_trans; [apply sbh_counts, S1|apply sc_updateHits]|apply sbh_counts, S1].
    - split; [left; reflexivity|]. intros Hn y Hy. specialize (D1 Hn y Hy).
      destruct (h_everyAttempt g); [|exact D1]. destruct (sbh_updateHits_ns p1 s y) as (_&_&_&->). exact D1. }
  intros [= <- <- <-]. apply orb_false_iff in T as [T T3]. apply orb_false_iff in T as [T1 T2].
  rewrite (sbh_delta p p1 s r S1) in R4.
  split; [eapply sc_trans; [apply sbh_counts, S1|]; eapply sc_trans; [apply sbh_counts, sbh_start|apply sc_updateHits]|].
  split.
  - right. exists v, r, vx, rx. destruct (V1 v eq_refl) as [V2 V3].
    split; [reflexivity|]. split; [exact Hne|]. split; [exact V2|]. split; [exact V3|].
    split; [exact R1|]. split; [exact R3|]. split; [exact R4|]. split; [exact R5|].
    split. { destruct (sbh_updateHits_ns (startHoldOff p1 r) s r) as (_&_&_&->).
             unfold startHoldOff, setHoldOff, updInfo. rewrite Nat.eqb_refl. reflexivity. }
    split; [intros Hn; exact (H1 Hn v eq_refl)|]. split; [exact EV|]. split; [exact ER|].
    cbn zeta. auto.
  - intros Hn y Hy. specialize (D1 Hn y Hy).
    destruct (sbh_updateHits_ns (startHoldOff p1 r) s y) as (_&_&_&->).
    unfold startHoldOff, setHoldOff, updInfo. destruct (Nat.eqb_spec y r) as [->|]; [contradiction|exact D1].
Qed.
End Hits.

(** ** MarginalHits *)
Section MH.
Context {F : Type} (fo : float_ops F) (g : mhCfg F) (m1 : F) (sorted : pstate -> stats -> list nat -> list nat).

Lemma updateRankings_ids perm rk : map fst (updateRankings fo g perm rk) = map fst rk.
Proof.
  unfold updateRankings. rewrite map_map. apply map_ext. intros [c x]. cbn.
  destruct (rankOf perm c 0); reflexivity.
Qed.

Lemma pickRank_spec vV vR : forall rk v0 r0 mn mx v r,
  pickFromRankings fo vV vR rk v0 r0 mn mx = (v, r) ->
  (v = v0 \/ exists c, v = Some c /\ In c (map fst rk) /\ vV c = true) /\
  (r = r0 \/ exists c, r = Some c /\ In c (map fst rk) /\ vR c = true).
Proof.
  induction rk as [|[c x] rk IH]; cbn [pickFromRankings]; intros v0 r0 mn mx v r H.
  - injection H as <- <-. auto.
  - destruct (vR c && flt fo mx x) eqn:ER; destruct (vV c && flt fo x mn) eqn:EV;
      apply IH in H as [A B]; cbn [map fst];
      repeat match goal with E : _ && _ = true |- _ => apply andb_true_iff in E as [? _] end;
      (split; [destruct A as [A|(d & A & A1 & A2)]|destruct B as [B|(d & B & B1 & B2)]]);
      try (left; assumption);
      try (right; eexists; split; [eassumption|]; split; [right; assumption|assumption]);
      try (right; eexists; split; [eassumption|]; split; [left; reflexivity|assumption]).
Qed.

Lemma mh_both rk p e s c p' rk' : incl (map fst rk) (classIds s) ->
  pickBoth (marginalHitsStrategy fo g m1 sorted) rk p e s = Some (c, p', rk') ->
  p' = p /\ incl (map fst rk') (classIds s) /\
  (c = kNoOp \/ exists v r, c = {| victim := Some v; receiver := Some r |} /\ v <> r /\
     In v (classIds s) /\ m_minSlabs g < totalSlabs s v /\
     In r (classIds s) /\ totalFreeMemory s r < m_maxFreeMemSlabs g * kSlabSize).
Proof.
  intros Hi. cbn [pickBoth marginalHitsStrategy].
  destruct (e_allAllocated e); cbn [negb]; cycle 1.
  { intros [= <- <- <-]. auto. }
  set (rk0 := match rk with [] => _ | _ => _ end).
  assert (I0 : incl (map fst rk0) (classIds s)).
  { unfold rk0. destruct rk; [|exact Hi]. rewrite map_map. cbn. rewrite map_id. apply incl_refl. }
  clearbody rk0.
  set (rk1 := updateRankings fo g (sorted p s (map fst rk0)) rk0).
  assert (I1 : incl (map fst rk1) (classIds s)) by (unfold rk1; rewrite updateRankings_ids; exact I0).
  clearbody rk1.
  destruct (pickFromRankings _ _ _ _ _ _ _ _) as [v r] eqn:E. apply pickRank_spec in E as [A B].
  destruct v as [v|]; [|intros [= <- <- <-]; auto].
  destruct r as [r|]; [|intros [= <- <- <-]; auto].
  destruct (Nat.eqb_spec v r) as [|Hne]; [intros [= <- <- <-]; auto|].
  intros [= <- <- <-]. split; [reflexivity|]. split; [exact I1|]. right. exists v, r.
  destruct A as [A|(d & [= <-] & A1 & A2)]; [discriminate|].
  destruct B as [B|(d & [= <-] & B1 & B2)]; [discriminate|].
  apply N.ltb_lt in A2, B2. auto 8.
Qed.
End MH.
