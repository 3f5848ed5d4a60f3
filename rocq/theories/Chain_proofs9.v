(** Proofs for C15, part 9: consequences on reached states. *)
From Verif Require Import Bytes DList_model DList_spec Chain_model Chain_spec Chain_proofs Chain_proofs3 Chain_proofs4 Chain_proofs6 Chain_proofs7 Chain_proofs8.
Ltac Zify.zify_post_hook ::= idtac.

Definition wof (cs : list call) : world := fst (spec_execs init_w cs).
Lemma reached_step m cs s outs c : reached m cs s outs -> legal m (wof cs) c ->
  exists s', exec s c = Some (s', snd (spec_exec (wof cs) c)) /\ R s' (fst (spec_exec (wof cs) c)) /\ R s (wof cs) /\ msize s = m.
Proof.
  intros Hr Lg. destruct (reached_R _ _ _ _ Hr) as (HR & M & _). fold (wof cs) in HR. rewrite <- M in Lg. destruct (exec_ok _ _ _ HR Lg) as (s' & E & HR').
  exists s'. auto.
Qed.
(** The state tells the status. *)
Lemma view_parent s q p k : R s q -> live s p = true -> ischained (it s p) = false -> viewChain s p = Some k ->
  exists h v, who q p = Parent k h v.
Proof.
  intros HR L C V. pose proof HR as (_ & _ & Hn). specialize (Hn p). unfold Rn in Hn. destruct (who q p) as [|k' h v|a h|a] eqn:E.
  - destruct Hn. congruence.
  - rewrite (view_ok _ _ _ _ _ _ HR E) in V. injection V as ->. eauto.
  - destruct Hn as (_ & X & _). rewrite X in C. discriminate.
  - destruct Hn as (_ & _ & k' & h & v & E' & I'). destruct (parent_facts _ _ _ _ _ _ HR E') as (_ & _ & _ & _ & Lk & _).
    destruct (links_in _ _ _ _ _ Lk I') as (_ & x & b & X). rewrite X in C. discriminate.
Qed.
Lemma parent_view s q p k h v : R s q -> who q p = Parent k h v -> live s p = true /\ ischained (it s p) = false /\ viewChain s p = Some k /\
  refs (it s p) = h /\ acc (it s p) = v.
Proof.
  intros HR E. destruct (parent_facts _ _ _ _ _ _ HR E) as (L & I0 & _). rewrite I0. cbn. sp; auto. exact (view_ok _ _ _ _ _ _ HR E).
Qed.

Lemma add_pop m cs s outs p c k : reached m cs s outs -> legal m (wof cs) (Add p c) -> viewChain s p = Some k ->
  exists s1 s2, exec s (Add p c) = Some (s1, OOk) /\ viewChain s1 p = Some (c :: k) /\
    exec s1 (Pop p) = Some (s2, OItem c) /\ viewChain s2 p = Some k /\
    forall p', p' <> p -> live s p' = true -> ischained (it s p') = false -> viewChain s1 p' = viewChain s p' /\ viewChain s2 p' = viewChain s p'.
Proof.
  intros Hr Lg V. destruct (reached_step _ _ _ _ _ Hr Lg) as (s1 & E1 & HR1 & HR & M). destruct Lg as (Ec & k' & h & v & Ep).
  rewrite (view_ok _ _ _ _ _ _ HR Ep) in V. injection V as ->. cbn [spec_exec] in *. rewrite Ep in *. cbn [fst snd] in *.
  set (q1 := set (set (wof cs) p (Parent (c :: k) (S h) v)) c (Linked p)) in *.
  assert (D : p <> c) by congruence.
  assert (Ep1 : who q1 p = Parent (c :: k) (S h) v) by (unfold q1; rewrite who_set_other, who_set_same by exact D; reflexivity).
  assert (L2 : legal (msize s1) q1 (Pop p)) by (cbn; eauto). destruct (exec_ok _ _ _ HR1 L2) as (s2 & E2 & HR2). cbn [spec_exec] in *. rewrite Ep1 in *. cbn [fst snd] in *.
  exists s1, s2. sp; auto.
  - exact (view_ok _ _ _ _ _ _ HR1 Ep1).
  - refine (view_ok _ _ p k (S h) v HR2 _). rewrite who_set_other, who_set_same by exact D. reflexivity.
  - intros p' Dp L C. pose proof HR as (_ & _ & Hn). specialize (Hn p'). unfold Rn in Hn. destruct (who (wof cs) p') as [|k0 h0 v0|a h0|a] eqn:E.
    + destruct Hn. congruence.
    + assert (p' <> c) by congruence. rewrite (view_ok _ _ _ _ _ _ HR E). split; [refine (view_ok _ _ p' k0 h0 v0 HR1 _)|refine (view_ok _ _ p' k0 h0 v0 HR2 _)];
        unfold q1; rewrite !who_set_other by auto; exact E.
    + destruct Hn as (_ & X & _). rewrite X in C. discriminate.
    + destruct Hn as (_ & _ & k' & h' & v' & E' & I'). destruct (parent_facts _ _ _ _ _ _ HR E') as (_ & _ & _ & _ & Lk & _).
      destruct (links_in _ _ _ _ _ Lk I') as (_ & x & b & X). rewrite X in C. discriminate.
Qed.
Lemma transfer_all m cs s outs p p2 k : reached m cs s outs -> legal m (wof cs) (Transfer p p2) -> viewChain s p = Some k -> viewChain s p2 = Some [] ->
  exists s1, exec s (Transfer p p2) = Some (s1, OOk) /\ viewChain s1 p = Some [] /\ viewChain s1 p2 = Some k /\
    (forall c, In c k -> parent (it s1 c) = p2) /\ log s1 = log s.
Proof.
  intros Hr Lg V V2. destruct (reached_step _ _ _ _ _ Hr Lg) as (s1 & E1 & HR1 & HR & M). destruct Lg as (D & (c & k' & h & v & Ep) & k2 & h2 & E2).
  rewrite (view_ok _ _ _ _ _ _ HR Ep) in V. injection V as <-. rewrite (view_ok _ _ _ _ _ _ HR E2) in V2. injection V2 as ->.
  cbn [spec_exec] in *. rewrite Ep, E2 in *. cbn [fst snd] in *.
  destruct (parent_facts _ _ _ _ _ _ HR Ep) as (_ & _ & _ & _ & _ & _ & K & Np & _).
  assert (N2 : ~ In p2 (c :: k')) by (intros X; specialize (K p2 X); congruence).
  assert (W2 : who (sets (set (set (wof cs) p (Parent [] (S h) false)) p2 (Parent (c :: k') (S h2) v)) (c :: k') (Linked p2)) p2 = Parent (c :: k') (S h2) v).
  { rewrite who_sets_out by exact N2. now rewrite who_set_same. }
  exists s1. sp; auto.
  - refine (view_ok _ _ p [] (S h) false HR1 _). rewrite who_sets_out by exact Np. rewrite who_set_other, who_set_same by exact D. reflexivity.
  - exact (view_ok _ _ _ _ _ _ HR1 W2).
  - intros x Ix. destruct (parent_facts _ _ _ _ _ _ HR1 W2) as (_ & _ & _ & _ & Lk & _). destruct (links_in _ _ _ _ _ Lk Ix) as (_ & y & b & ->). reflexivity.
  - destruct HR1 as (-> & _), HR as (-> & _). reflexivity.
Qed.
Lemma replace_in_place m cs s outs p o n l r : reached m cs s outs -> legal m (wof cs) (Replace o n p) ->
  viewChain s p = Some (l ++ o :: r) -> live s n = true -> ischained (it s n) = true -> parent (it s n) = p ->
  exists s1, exec s (Replace o n p) = Some (s1, OItem o) /\ viewChain s1 p = Some (l ++ n :: r) /\
    live s1 o = true /\ refs (it s1 o) = 1 /\ parent (it s1 o) = p /\ log s1 = log s.
Proof.
  intros Hr Lg V Ln Cn Pn. destruct (reached_step _ _ _ _ _ Hr Lg) as (s1 & E1 & HR1 & HR & M). destruct Lg as (Eo & (k & h & v & Ep) & En).
  rewrite (view_ok _ _ _ _ _ _ HR Ep) in V. injection V as ->. destruct (parent_facts _ _ _ _ _ _ HR Ep) as (_ & _ & _ & ND & _ & _ & K & Np & _).
  assert (Eo' : who (wof cs) o = Linked p) by (apply K; apply in_elt).
  destruct En as [(b & En)|(k' & h' & v' & En)].
  2:{ destruct (parent_facts _ _ _ _ _ _ HR En) as (_ & X & _). rewrite X in Cn. discriminate. }
  destruct (loose_facts _ _ _ _ _ HR En) as (_ & X & _). rewrite X in Pn. cbn in Pn. subst b.
  cbn [spec_exec] in *. rewrite Ep, Eo', En, Nat.eqb_refl in *. cbn [andb fst snd] in *. rewrite (replace_node_app _ _ _ _ ND) in HR1.
  assert (Dpn : p <> n) by congruence. assert (Dpo : p <> o) by congruence. assert (Dno : n <> o) by congruence.
  exists s1. sp; auto.
  - refine (view_ok _ _ p (l ++ n :: r) (S h) v HR1 _). rewrite !who_set_other, who_set_same by auto. reflexivity.
  - assert (W : who (set (set (set (wof cs) p (Parent (l ++ n :: r) (S h) v)) o (Loose p 1)) n (Linked p)) o = Loose p 1) by (rewrite who_set_other, who_set_same by auto; reflexivity).
    destruct (loose_facts _ _ _ _ _ HR1 W) as (Lo & _). exact Lo.
  - assert (W : who (set (set (set (wof cs) p (Parent (l ++ n :: r) (S h) v)) o (Loose p 1)) n (Linked p)) o = Loose p 1) by (rewrite who_set_other, who_set_same by auto; reflexivity).
    destruct (loose_facts _ _ _ _ _ HR1 W) as (_ & -> & _). reflexivity.
  - assert (W : who (set (set (set (wof cs) p (Parent (l ++ n :: r) (S h) v)) o (Loose p 1)) n (Linked p)) o = Loose p 1) by (rewrite who_set_other, who_set_same by auto; reflexivity).
    destruct (loose_facts _ _ _ _ _ HR1 W) as (_ & -> & _). reflexivity.
  - destruct HR1 as (-> & _), HR as (-> & _). reflexivity.
Qed.
(** The last handle of an item that is no longer in the cache. *)
Lemma death m cs s outs p k nas : reached m cs s outs -> live s p = true -> ischained (it s p) = false -> viewChain s p = Some k ->
  refs (it s p) = 1 -> acc (it s p) = false ->
  exists s1, exec s (Drop p nas) = Some (s1, OOk) /\
    log s1 = EFree p :: rev (map EFree k) ++ (if nas then [] else [ECb p k]) ++ log s /\
    (forall x, live s1 x = live s x && negb (memb x (p :: k))).
Proof.
  intros Hr L C V Rf A. destruct (reached_R _ _ _ _ Hr) as (HR & M & _). fold (wof cs) in HR. destruct (view_parent _ _ _ _ HR L C V) as (h & v & Ep).
  destruct (parent_view _ _ _ _ _ _ HR Ep) as (_ & _ & _ & Rh & Av). assert (h = 1) as -> by congruence. assert (v = false) as -> by congruence.
  assert (Lg : legal m (wof cs) (Drop p nas)) by (left; eauto). destruct (reached_step _ _ _ _ _ Hr Lg) as (s1 & E1 & HR1 & _ & _).
  cbn [spec_exec] in *. cbn [fst snd] in *. unfold drop in HR1. rewrite Ep in HR1. exists s1. split; [exact E1|].
  pose proof HR1 as (G1 & _ & H1). pose proof HR as (G & _ & H0). split.
  - rewrite G1, G. unfold gone, told. cbn [evs sets]. destruct nas; cbn [app rev]; rewrite rev_app_distr; cbn [rev app freed]; rewrite ?app_nil_r, <- ?app_assoc; reflexivity.
  - intros x. specialize (H1 x). specialize (H0 x). unfold Rn, gone in H1, H0. rewrite who_told in H1. destruct (dec_in (p :: k) x) as [X|X].
    + rewrite who_sets_in in H1 by exact X. apply memb_in in X. rewrite X, andb_false_r. tauto.
    + rewrite who_sets_out in H1 by exact X. apply memb_false in X. rewrite X, andb_true_r. destruct (who (wof cs) x); destruct H1, H0; congruence.
Qed.
Lemma evicted m cs s outs p k r : reached m cs s outs -> live s p = true -> ischained (it s p) = false -> viewChain s p = Some k ->
  refs (it s p) = 0 -> In r (p :: k) ->
  exists s1, exec s (Evict r) = Some (s1, OBool true) /\
    log s1 = freed (Some r) p :: rev (map (freed (Some r)) k) ++ ECb p k :: log s /\
    (forall x, live s1 x = live s x && negb (memb x (p :: k))).
Proof.
  intros Hr L C V Rf Ir. destruct (reached_R _ _ _ _ Hr) as (HR & M & _). fold (wof cs) in HR. destruct (view_parent _ _ _ _ HR L C V) as (h & v & Ep).
  destruct (parent_view _ _ _ _ _ _ HR Ep) as (_ & _ & _ & Rh & Av). assert (h = 0) as -> by congruence.
  destruct (parent_facts _ _ _ _ _ _ HR Ep) as (_ & _ & _ & _ & _ & Vz & K & _). assert (v = true) as -> by (destruct Vz; congruence).
  assert (Ow : owner (wof cs) r = p). { unfold owner. destruct Ir as [<-|Ir]; [now rewrite Ep|now rewrite (K r Ir)]. }
  assert (Lg : legal m (wof cs) (Evict r)). { destruct Ir as [<-|Ir]; [right; eauto|left; eauto]. }
  destruct (reached_step _ _ _ _ _ Hr Lg) as (s1 & E1 & HR1 & _ & _). cbn [spec_exec] in *. rewrite Ow, Ep in *. cbn [fst snd] in *.
  exists s1. split; [exact E1|]. pose proof HR1 as (G1 & _ & H1). pose proof HR as (G & _ & H0). split.
  - rewrite G1, G. unfold gone, told. cbn [evs sets]. cbn [app rev]. rewrite rev_app_distr. cbn [rev app]. rewrite <- ?app_assoc. reflexivity.
  - intros x. specialize (H1 x). specialize (H0 x). unfold Rn, gone in H1, H0. rewrite who_told in H1. destruct (dec_in (p :: k) x) as [X|X].
    + rewrite who_sets_in in H1 by exact X. apply memb_in in X. rewrite X, andb_false_r. tauto.
    + rewrite who_sets_out in H1 by exact X. apply memb_false in X. rewrite X, andb_true_r. destruct (who (wof cs) x); destruct H1, H0; congruence.
Qed.
Lemma no_leak m cs s outs c : reached m cs s outs -> live s c = true -> ischained (it s c) = true ->
  (refs (it s c) <> 0 /\ inmm (it s c) = false /\ forall p k, live s p = true -> ischained (it s p) = false -> viewChain s p = Some k -> ~ In c k) \/
  exists p k, live s p = true /\ ischained (it s p) = false /\ viewChain s p = Some k /\ In c k /\ NoDup k /\
    forall p' k', live s p' = true -> ischained (it s p') = false -> viewChain s p' = Some k' -> In c k' -> p' = p.
Proof.
  intros Hr L C. destruct (reached_R _ _ _ _ Hr) as (HR & M & _). fold (wof cs) in HR. pose proof HR as (_ & _ & Hn). specialize (Hn c). unfold Rn in Hn.
  assert (U : forall p' k', live s p' = true -> ischained (it s p') = false -> viewChain s p' = Some k' -> In c k' -> who (wof cs) c = Linked p').
  { intros p' k' L' C' V' I'. destruct (view_parent _ _ _ _ HR L' C' V') as (h & v & E'). destruct (parent_facts _ _ _ _ _ _ HR E') as (_ & _ & _ & _ & _ & _ & K & _). auto. }
  destruct (who (wof cs) c) as [|k h v|a h|a] eqn:E.
  - destruct Hn. congruence.
  - destruct Hn as (_ & X & _). rewrite X in C. discriminate.
  - left. destruct Hn as (_ & X & _ & Hh). rewrite X. cbn. sp; auto. intros p k L' C' V' I'. specialize (U _ _ L' C' V' I'). congruence.
  - right. destruct Hn as (_ & _ & k & h & v & Ep & Ik). exists a, k. destruct (parent_view _ _ _ _ _ _ HR Ep) as (P1 & P2 & P3 & _).
    destruct (parent_facts _ _ _ _ _ _ HR Ep) as (_ & _ & _ & ND & _). sp; auto. intros p' k' L' C' V' I'. specialize (U _ _ L' C' V' I'). congruence.
Qed.
