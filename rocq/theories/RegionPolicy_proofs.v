From Coq Require Import List Arith Bool Lia NArith ZArith Permutation Sorting.Sorted.
Import ListNotations.
From Verif Require Import DList_model DList_spec DList_proofs RegionPolicy_model RegionPolicy_spec.

(** ** FIFO *)
Lemma i32_rt n : (n < 4294967296)%N -> ofI32 (toI32 n) = n.
Proof.
  intros H. unfold ofI32, toI32. destruct (N.ltb_spec n 2147483648).
  - rewrite Z.mod_small by lia. apply N2Z.id.
  - replace (Z.of_N n - 4294967296)%Z with (Z.of_N n + (-1) * 4294967296)%Z by lia.
    rewrite Z.mod_add by lia. rewrite Z.mod_small by lia. apply N2Z.id.
Qed.
Definition fits (n : fnode) : Prop := (N.of_nat (rid n) < 4294967296)%N.
Lemma fifo_restart q : Forall fits q -> fifoRecover [] (fifoPersist q) = q.
Proof.
  induction 1 as [|n q H F IH]; [reflexivity|]. unfold fifoRecover, fifoPersist in *. cbn [map].
  rewrite IH. f_equal. cbn [fst snd]. rewrite i32_rt by exact H. rewrite Nat2N.id. destruct n; reflexivity.
Qed.
Definition flegal (c : fcall) : Prop := match c with FTrack r _ => (N.of_nat r < 4294967296)%N | _ => True end.
Lemma fifo_refines cs : forall q, Forall fits q -> Forall flegal cs ->
  (map rid (fst (fifoCalls q cs)), snd (fifoCalls q cs)) = fifoSpec (map rid q) cs.
Proof.
  induction cs as [|c cs IH]; intros q F L; [reflexivity|]. inversion L as [|? ? Lc Ls]; subst.
  destruct c as [r now| | |]; cbn [fifoCalls fifoCall fifoSpec].
  - specialize (IH (fifoTrack q r now)). unfold fifoTrack in IH. rewrite map_app in IH. cbn [map rid] in IH.
    unfold fifoTrack. destruct (fifoCalls _ cs) as [q2 os]. cbn [fst snd] in *. rewrite <- IH; [reflexivity| |exact Ls].
    apply Forall_app. split; [exact F|]. constructor; [exact Lc|constructor].
  - destruct q as [|n q]; cbn [fifoEvict map].
    + specialize (IH [] F Ls). destruct (fifoCalls [] cs) as [q2 os]. cbn [fst snd map] in *. rewrite <- IH. reflexivity.
    + inversion F; subst. specialize (IH q ltac:(assumption) Ls). destruct (fifoCalls q cs) as [q2 os]. cbn [fst snd] in *. rewrite <- IH. reflexivity.
  - unfold fifoReset. specialize (IH [] ltac:(constructor) Ls). destruct (fifoCalls [] cs) as [q2 os]. cbn [fst snd map] in *. rewrite <- IH. reflexivity.
  - rewrite fifo_restart by exact F. specialize (IH q F Ls). destruct (fifoCalls q cs) as [q2 os]. cbn [fst snd] in *. rewrite <- IH. reflexivity.
Qed.

(** ** LRU *)
Definition dl (s : lru) (l : list nat) : dlist := {| head := lhead s; tail := ltail s; size := length l |}.
Definition Lrep (s : lru) (l : list nat) : Prop :=
  rep (lheap s) (dl s l) l /\ (forall x, In x l -> x < asize s) /\
  (forall x, ~ In x l -> nxt (lheap s) x = None /\ prv (lheap s) x = None).

Lemma firstOr_in l x : firstOr l None = Some x -> In x l.
Proof. destruct l; cbn; [discriminate|]. intros [= ->]. left; reflexivity. Qed.
Lemma lastOr_in' l x : lastOr l None = Some x -> In x l.
Proof. intros H. apply lastOr_in in H as [H|[_ H]]; [exact H|discriminate]. Qed.

Lemma heap_ext_rep h h' d l : (forall x, nxt h' x = nxt h x /\ prv h' x = prv h x) -> rep h d l -> rep h' d l.
Proof.
  intros E (A & B & C). split; [exact A|]. split; [|exact C]. eapply seg_frame; [|exact B]. intros y _. apply E.
Qed.

Lemma Lrep_unlink s a x b : Lrep s (a ++ x :: b) -> exists s', lruUnlink s x = Some s' /\ Lrep s' (a ++ b) /\ asize s' = asize s.
Proof.
  intros (R & B & O). pose proof (remove_ok _ _ _ _ _ R) as RM.
  pose proof R as (ND & SG & HD & TL & SZ). cbn [dl head tail] in HD, TL.
  destruct (seg_mid _ _ _ _ _ _ SG) as [P Q].
  destruct (nodup_mid _ _ _ ND) as (xa & xb & ND' & AB).
  assert (Bx : x < asize s) by (apply B; apply in_or_app; right; left; reflexivity).
  unfold lruUnlink. rewrite (proj2 (Nat.ltb_lt _ _) Bx).
  unfold remove, unlink in RM. cbn [dl head tail size] in RM.
  assert (T1 : isPtr (ltail s) x = match b with [] => true | _ => false end).
  { rewrite TL, lastOr_app. cbn [lastOr]. destruct (list_snoc b) as [->|(b' & y & ->)].
    - cbn. apply Nat.eqb_refl.
    - rewrite lastOr_snoc. destruct (b' ++ [y]) eqn:E; [destruct b'; discriminate|]. rewrite <- E in *.
      apply isPtr_false. intros X; injection X as X; subst. apply xb. apply in_or_app; right; left; reflexivity. }
  assert (H1 : isPtr (lhead s) x = match a with [] => true | _ => false end).
  { rewrite HD. destruct a as [|y a]; cbn; [apply Nat.eqb_refl|]. apply Nat.eqb_neq. intros ->. apply xa. left; reflexivity. }
  rewrite T1, H1 in *.
  assert (Pa : a <> [] -> exists p, prv (lheap s) x = Some p /\ In p a).
  { intros NE. rewrite P. destruct (list_snoc a) as [->|(a' & y & ->)]; [congruence|]. rewrite lastOr_snoc. exists y. split; [reflexivity|]. apply in_or_app; right; left; reflexivity. }
  assert (Qb : b <> [] -> exists n, nxt (lheap s) x = Some n /\ In n b).
  { intros NE. rewrite Q. destruct b as [|y b']; [congruence|]. exists y. split; [reflexivity|left; reflexivity]. }
  assert (LEN : length (a ++ x :: b) - 1 = length (a ++ b)) by (rewrite !app_length; cbn; lia).
  rewrite LEN in RM.
  assert (FIN : forall h2 hd tl, (forall y, nxt h2 y = nxt (setPrev (setNext (match nxt (lheap s) x with
             | Some x0 => setPrev (match prv (lheap s) x with Some p => setNext (lheap s) p (nxt (lheap s) x) | None => lheap s end) x0
                            (prv (match prv (lheap s) x with Some p => setNext (lheap s) p (nxt (lheap s) x) | None => lheap s end) x)
             | None => match prv (lheap s) x with Some p => setNext (lheap s) p (nxt (lheap s) x) | None => lheap s end end) x None) x None) y
            /\ prv h2 y = prv (setPrev (setNext (match nxt (lheap s) x with
             | Some x0 => setPrev (match prv (lheap s) x with Some p => setNext (lheap s) p (nxt (lheap s) x) | None => lheap s end) x0
                            (prv (match prv (lheap s) x with Some p => setNext (lheap s) p (nxt (lheap s) x) | None => lheap s end) x)
             | None => match prv (lheap s) x with Some p => setNext (lheap s) p (nxt (lheap s) x) | None => lheap s end end) x None) x None) y) ->
           hd = (if match a with [] => true | _ => false end then nxt (lheap s) x else lhead s) ->
           tl = (if match b with [] => true | _ => false end then prv (lheap s) x else ltail s) ->
           Lrep (mkLru (asize s) h2 hd tl) (a ++ b)).
  { intros h2 hd tl E -> ->. destruct RM as (R1 & R2 & R3 & R4).
    split; [|split].
    - unfold dl; cbn [lhead ltail lheap]. eapply heap_ext_rep; [exact E|exact R1].
    - intros y Y. cbn [asize]. apply B. apply in_app_or in Y. apply in_or_app. destruct Y; [left|right; right]; assumption.
    - intros y Y. cbn [lheap]. destruct (E y) as [E1 E2]. rewrite E1, E2.
      destruct (Nat.eq_dec y x) as [->|NE]; [split; [exact R2|exact R3]|].
      assert (~ In y (a ++ x :: b)) as Z.
      { intros Z. apply Y. apply in_app_or in Z. apply in_or_app. destruct Z as [Z|[->|Z]]; [left; exact Z|congruence|right; exact Z]. }
      destruct (R4 y Z) as [-> ->]. apply O. exact Z. }
  destruct b as [|y b'].
  - destruct a as [|z a'].
    + eexists. split; [reflexivity|]. split; [|reflexivity]. apply FIN; try reflexivity.
      intros w. rewrite P, Q. cbn. auto.
    + destruct (Pa ltac:(discriminate)) as (p & EP & IP).
      assert (Bp : p < asize s) by (apply B; apply in_or_app; left; exact IP).
      rewrite EP. rewrite (proj2 (Nat.ltb_lt _ _) Bp).
      eexists. split; [reflexivity|]. split; [|reflexivity]. apply FIN; try reflexivity; [|symmetry; exact EP].
      intros w. rewrite EP, Q. cbn. auto.
  - destruct (Qb ltac:(discriminate)) as (n & EN & IN). 
    assert (Bn : n < asize s) by (apply B; apply in_or_app; right; right; exact IN).
    rewrite EN, (proj2 (Nat.ltb_lt _ _) Bn).
    assert (nx : n <> x) by (intros ->; contradiction).
    destruct a as [|z a'].
    + eexists. split; [reflexivity|]. split; [|reflexivity]. apply FIN; try reflexivity.
      * intros w. cbn [lastOr] in P. rewrite EN, P. cbn. rewrite P. auto.
    + destruct (Pa ltac:(discriminate)) as (p & EP & IP).
      assert (Bp : p < asize s) by (apply B; apply in_or_app; left; exact IP).
      assert (pn : p <> n). { intros ->. exact (AB n IP IN). }
      assert (PX : prv (setPrev (lheap s) n (prv (lheap s) x)) x = Some p).
      { cbn. rewrite upd_other by congruence. exact EP. }
      rewrite PX, (proj2 (Nat.ltb_lt _ _) Bp).
      eexists. split; [reflexivity|]. split; [|reflexivity]. apply FIN; try reflexivity.
      intros w. rewrite EN, EP. cbn. rewrite EN, EP. auto.
Qed.

Lemma Lrep_link s l x : Lrep s l -> ~ In x l -> x < asize s ->
  exists s', lruLinkAtHead s x = Some s' /\ Lrep s' (x :: l) /\ asize s' = asize s.
Proof.
  intros (R & B & O) NI BX. pose proof (linkAtHead_ok _ _ _ _ R NI) as LK.
  pose proof R as (ND & SG & HD & TL & SZ). cbn [dl head tail] in HD, TL.
  unfold lruLinkAtHead. rewrite (proj2 (Nat.ltb_lt _ _) BX).
  rewrite isPtr_false.
  2:{ rewrite HD. intros E. apply firstOr_in in E. contradiction. }
  unfold linkAtHead in LK. cbn [dl head tail size] in LK. destruct LK as (R1 & R2).
  destruct (O x NI) as [ON OP].
  assert (FIN : forall h2, (forall w, nxt h2 w = nxt (match lhead s with Some x0 => setPrev (setPrev (setNext (lheap s) x (lhead s)) x None) x0 (Some x) | None => setPrev (setNext (lheap s) x (lhead s)) x None end) w /\
      prv h2 w = prv (match lhead s with Some x0 => setPrev (setPrev (setNext (lheap s) x (lhead s)) x None) x0 (Some x) | None => setPrev (setNext (lheap s) x (lhead s)) x None end) w) ->
      Lrep (mkLru (asize s) h2 (Some x) (match ltail s with None => Some x | t => t end)) (x :: l)).
  { intros h2 E. split; [|split].
    - unfold dl. cbn [lhead ltail lheap length]. eapply heap_ext_rep; [exact E|exact R1].
    - intros y [->|Y]; [exact BX|apply B; exact Y].
    - intros y Y. cbn [lheap]. destruct (E y) as [E1 E2]. destruct (R2 y Y) as [E3 E4].
      destruct (O y) as [O1 O2]; [intro Z; apply Y; right; exact Z|]. split; [rewrite E1; etransitivity; [exact E3|exact O1]|rewrite E2; etransitivity; [exact E4|exact O2]]. }
  destruct (lhead s) as [x0|] eqn:H0.
  - assert (I0 : In x0 l) by (apply firstOr_in; congruence).
    assert (B0 : x0 < asize s) by (apply B; exact I0).
    rewrite (proj2 (Nat.ltb_lt _ _) B0). eexists. split; [reflexivity|]. split; [|reflexivity]. apply FIN.
    intros w. cbn. split; [reflexivity|]. unfold upd.
    destruct (Nat.eqb_spec w x0); [reflexivity|]. destruct (Nat.eqb_spec w x) as [->|]; [exact OP|reflexivity].
  - eexists. split; [reflexivity|]. split; [|reflexivity]. apply FIN.
    intros w. cbn. split; [reflexivity|]. unfold upd. destruct (Nat.eqb_spec w x) as [->|]; [exact OP|reflexivity].
Qed.

Lemma Lrep_grow s l i : Lrep s l -> Lrep (grow s i) l /\ i < asize (grow s i).
Proof.
  intros (R & B & O). unfold grow. destruct (Nat.leb_spec (asize s) i).
  - split; [|cbn; lia]. split; [exact R|]. split; [|exact O]. intros x X. cbn. specialize (B x X). lia.
  - split; [|lia]. split; [exact R|]. split; assumption.
Qed.
Lemma Lrep_inList s l i : Lrep s l -> inList (lheap s) i = true -> In i l.
Proof.
  intros (R & B & O) H. destruct (in_dec Nat.eq_dec i l) as [Y|Y]; [exact Y|]. destruct (O i Y) as [E1 E2].
  unfold inList in H. rewrite E1, E2 in H. discriminate.
Qed.
Lemma Lrep_notInList s l i : Lrep s l -> inList (lheap s) i = false -> In i l -> l = [i].
Proof.
  intros (R & B & O) H I. apply in_split in I as (a & b & ->). destruct R as (ND & SG & _).
  destruct (seg_mid _ _ _ _ _ _ SG) as [P Q]. unfold inList in H. rewrite P, Q in H.
  destruct (list_snoc a) as [->|(a' & y & ->)].
  - destruct b as [|z b]; [reflexivity|]. cbn in H. discriminate.
  - rewrite lastOr_snoc in H. discriminate.
Qed.

(** list with use times, most recent first *)
Definition later (a b : nat * nat) : Prop := snd b < snd a.
Definition Inv (t : nat) (u : used) (s : lru) : Prop :=
  exists l, Permutation u l /\ Lrep s (map fst l) /\ StronglySorted later l /\ Forall (fun p => snd p < t) l.

Lemma later_sorted_app l1 l2 : StronglySorted later (l1 ++ l2) -> forall x y, In x l1 -> In y l2 -> later x y.
Proof.
  induction l1 as [|a l1 IH]; cbn; intros H x y X Y; [contradiction|].
  inversion H as [|? ? H1 H2]; subst. destruct X as [<-|X]; [|apply IH; assumption].
  rewrite Forall_forall in H2. apply H2. apply in_or_app; right; exact Y.
Qed.
Lemma sorted_mid l1 x l2 : StronglySorted later (l1 ++ x :: l2) -> StronglySorted later (l1 ++ l2).
Proof.
  induction l1 as [|a l1 IH]; cbn; intros H.
  - inversion H; assumption.
  - inversion H as [|? ? H1 H2]; subst. constructor; [apply IH; exact H1|]. rewrite Forall_forall in *. intros y Y. apply H2.
    apply in_app_or in Y. apply in_or_app. destruct Y; [left|right; right]; assumption.
Qed.
Lemma tracked_spec u l r : Permutation u l -> tracked u r = true <-> In r (map fst l).
Proof.
  intros P. unfold tracked. rewrite existsb_exists. rewrite in_map_iff. split.
  - intros (p & I & E). apply Nat.eqb_eq in E. exists p. split; [exact E|]. apply (Permutation_in _ P); exact I.
  - intros (p & E & I). exists p. split; [apply (Permutation_in _ (Permutation_sym P)); exact I|]. apply Nat.eqb_eq; exact E.
Qed.
Lemma map_mid (l : list (nat * nat)) r : In r (map fst l) -> exists l1 k l2, l = l1 ++ (r, k) :: l2.
Proof. intros I. apply in_map_iff in I as ([r' k] & <- & I). apply in_split in I as (l1 & l2 & ->). exists l1, k, l2. reflexivity. Qed.
Lemma setUse_notin u r t : ~ In r (map fst u) -> setUse u r t = u.
Proof.
  induction u as [|[a b] u IH]; cbn; intros NI; [reflexivity|]. destruct (Nat.eqb_spec a r); [subst; exfalso; apply NI; left; reflexivity|].
  f_equal. apply IH. intro; apply NI; right; assumption.
Qed.
Lemma setUse_app u1 u2 r t : setUse (u1 ++ u2) r t = setUse u1 r t ++ setUse u2 r t.
Proof. apply map_app. Qed.
Lemma drop_notin u r : ~ In r (map fst u) -> drop u r = u.
Proof.
  induction u as [|[a b] u IH]; cbn; intros NI; [reflexivity|]. destruct (Nat.eqb_spec a r); [subst; exfalso; apply NI; left; reflexivity|].
  cbn. f_equal. apply IH. intro; apply NI; right; assumption.
Qed.
Lemma perm_filter {A} (f : A -> bool) l l' : Permutation l l' -> Permutation (filter f l) (filter f l').
Proof.
  induction 1; cbn.
  - constructor.
  - destruct (f x); [constructor|]; assumption.
  - destruct (f x), (f y); try apply Permutation_refl. apply perm_swap.
  - eapply Permutation_trans; eassumption.
Qed.
Lemma Lrep_nodup s l : Lrep s l -> NoDup l.
Proof. intros ((N & _) & _). exact N. Qed.
Lemma nodup_split l1 r k l2 : NoDup (map fst (l1 ++ (r, k) :: l2 : list (nat * nat))) -> ~ In r (map fst l1) /\ ~ In r (map fst l2).
Proof.
  rewrite map_app. cbn. intros N. apply nodup_mid in N as (A & B & _). split; assumption.
Qed.

Lemma step_touch t u s r : Inv t u s -> exists s', lruTouch s r = Some s' /\ Inv (S t) (setUse u r t) s'.
Proof.
  intros (l & P & R & SS & LT). unfold lruTouch.
  destruct (Lrep_grow s _ r R) as [R1 BR]. set (s1 := grow s r) in *.
  assert (PS : Permutation (setUse u r t) (setUse l r t)) by (apply Permutation_map; exact P).
  destruct (inList (lheap s1) r) eqn:IL.
  - pose proof (Lrep_inList _ _ _ R1 IL) as I. destruct (map_mid _ _ I) as (l1 & k & l2 & ->).
    rewrite map_app in R1. cbn [map fst] in R1.
    destruct (Lrep_unlink _ _ _ _ R1) as (s2 & E2 & R2 & A2). rewrite E2.
    pose proof (nodup_split l1 r k l2) as [N1 N2]. { rewrite map_app. exact (Lrep_nodup _ _ R1). }
    destruct (Lrep_link s2 _ r R2) as (s3 & E3 & R3 & A3).
    { rewrite in_app_iff. tauto. } { rewrite A2. exact BR. }
    rewrite E3. exists s3. split; [reflexivity|]. exists ((r, t) :: l1 ++ l2).
    split; [|split; [|split]].
    + eapply Permutation_trans; [exact PS|]. rewrite setUse_app. cbn [setUse map fst]. rewrite Nat.eqb_refl.
      fold (setUse l2 r t). rewrite !setUse_notin by assumption. apply Permutation_sym, Permutation_middle.
    + cbn [map fst]. rewrite map_app. exact R3.
    + constructor; [eapply sorted_mid; exact SS|]. rewrite Forall_forall in *. intros y Y. unfold later; cbn. apply LT.
      apply in_app_or in Y. apply in_or_app. destruct Y; [left|right; right]; assumption.
    + constructor; [cbn; lia|]. rewrite Forall_forall in *. intros y Y. assert (snd y < t); [|lia]. apply LT.
      apply in_app_or in Y. apply in_or_app. destruct Y; [left|right; right]; assumption.
  - exists s1. split; [reflexivity|].
    destruct (in_dec Nat.eq_dec r (map fst l)) as [I|NI].
    + pose proof (Lrep_notInList _ _ _ R1 IL I) as E. destruct l as [|[a k] [|]]; try discriminate. cbn in E. injection E as ->.
      exists [(r, t)]. split; [|split; [exact R1|split]].
      * cbn in PS. rewrite Nat.eqb_refl in PS. exact PS.
      * constructor; constructor.
      * constructor; [cbn; lia|constructor].
    + exists l. split; [|split; [exact R1|split; [exact SS|]]].
      * rewrite setUse_notin; [exact P|]. intros X. apply NI. apply (Permutation_in _ (Permutation_map fst P)). exact X.
      * rewrite Forall_forall in *. intros y Y. specialize (LT y Y). lia.
Qed.
Lemma step_track t u s r : Inv t u s -> exists s', lruTrack s r = Some s' /\ Inv (S t) (if tracked u r then u else (r, t) :: u) s'.
Proof.
  intros (l & P & R & SS & LT). unfold lruTrack.
  destruct (Lrep_grow s _ r R) as [R1 BR]. set (s1 := grow s r) in *.
  assert (LT' : Forall (fun p => snd p < S t) l) by (rewrite Forall_forall in *; intros y Y; specialize (LT y Y); lia).
  destruct (tracked u r) eqn:TR.
  - apply (tracked_spec _ _ _ P) in TR. 
    destruct (inList (lheap s1) r) eqn:IL.
    + exists s1. split; [reflexivity|]. exists l. auto.
    + pose proof (Lrep_notInList _ _ _ R1 IL TR) as E. unfold lruLinkAtHead. rewrite (proj2 (Nat.ltb_lt _ _) BR).
      assert (isPtr (lhead s1) r = true) as ->.
      { destruct R1 as ((_ & _ & H & _) & _). cbn in H. rewrite H, E. cbn. apply Nat.eqb_refl. }
      exists s1. split; [reflexivity|]. exists l. auto.
  - assert (NI : ~ In r (map fst l)) by (intros X; apply (tracked_spec _ _ _ P) in X; congruence).
    destruct (inList (lheap s1) r) eqn:IL; [exfalso; apply NI; exact (Lrep_inList _ _ _ R1 IL)|].
    destruct (Lrep_link s1 _ r R1 NI BR) as (s3 & E3 & R3 & A3). rewrite E3. exists s3. split; [reflexivity|].
    exists ((r, t) :: l). split; [constructor; exact P|]. split; [exact R3|]. split.
    + constructor; [exact SS|]. rewrite Forall_forall in *. intros y Y. unfold later; cbn. apply LT; exact Y.
    + constructor; [cbn; lia|exact LT'].
Qed.
Lemma step_evict t u s : Inv t u s ->
  (u = [] /\ lruEvict s = Some (s, None)) \/
  (exists s' r k, lruEvict s = Some (s', Some r) /\ In (r, k) u /\ (forall r' k', In (r', k') u -> k <= k') /\ Inv (S t) (drop u r) s').
Proof.
  intros (l & P & R & SS & LT). unfold lruEvict.
  pose proof R as ((_ & _ & _ & TL & _) & _). cbn [dl tail] in TL.
  destruct (list_snoc l) as [->|(l1 & [r k] & ->)].
  - left. split; [apply Permutation_nil, Permutation_sym; exact P|]. cbn in TL. rewrite TL. reflexivity.
  - right. rewrite map_app in TL, R. cbn [map fst] in TL, R. rewrite lastOr_snoc in TL. rewrite TL.
    destruct (Lrep_unlink _ _ _ _ R) as (s2 & E2 & R2 & A2). rewrite E2. exists s2, r, k. split; [reflexivity|].
    assert (NI : ~ In r (map fst l1)).
    { pose proof (Lrep_nodup _ _ R) as N. apply nodup_mid in N. tauto. }
    split; [|split].
    + apply (Permutation_in _ (Permutation_sym P)). apply in_or_app; right; left; reflexivity.
    + intros r' k' I. apply (Permutation_in _ P) in I. apply in_app_or in I as [I|[I|[]]]; [|injection I as -> ->; lia].
      assert (later (r', k') (r, k)) as X by (eapply later_sorted_app; [exact SS|exact I|left; reflexivity]). unfold later in X. cbn in X. lia.
    + exists l1. rewrite app_nil_r in R2. split; [|split; [exact R2|split]].
      * eapply Permutation_trans; [apply perm_filter; exact P|]. rewrite filter_app. cbn [filter fst]. rewrite Nat.eqb_refl. cbn [negb].
        rewrite app_nil_r. fold (drop l1 r). rewrite drop_notin by exact NI. apply Permutation_refl.
      * rewrite <- (app_nil_r l1). eapply sorted_mid. exact SS.
      * rewrite Forall_forall in *. intros y Y. assert (snd y < t); [|lia]. apply LT. apply in_or_app; left; exact Y.
Qed.
Lemma Inv_new t : Inv t [] lruNew.
Proof.
  exists []. split; [constructor|]. split; [|split; constructor].
  split; [|split].
  - split; [constructor|]. cbn. auto.
  - intros x [].
  - intros x _. cbn. auto.
Qed.
Lemma Inv_S t u s : Inv t u s -> Inv (S t) u s.
Proof.
  intros (l & P & R & SS & LT). exists l. split; [exact P|split; [exact R|split; [exact SS|]]].
  rewrite Forall_forall in *. intros y Y. specialize (LT y Y). lia.
Qed.
Lemma lru_refines cs : forall t u s, Inv t u s ->
  exists s' os u', lruCalls s cs = Some (s', os) /\ lruSpec t u cs os u' /\ Inv (t + length cs) u' s'.
Proof.
  induction cs as [|c cs IH]; intros t u s I.
  - exists s, [], u. split; [reflexivity|]. split; [constructor|]. cbn. rewrite Nat.add_0_r. exact I.
  - assert (G : forall s1 o u1, lruCall s c = Some (s1, o) -> Inv (S t) u1 s1 ->
       (forall os u', lruSpec (S t) u1 cs os u' -> lruSpec t u (c :: cs) (o :: os) u') ->
       exists s' os u', lruCalls s (c :: cs) = Some (s', os) /\ lruSpec t u (c :: cs) os u' /\ Inv (t + length (c :: cs)) u' s').
    { intros s1 o u1 E I1 K. destruct (IH _ _ _ I1) as (s' & os & u' & E' & L' & I').
      exists s', (o :: os), u'. cbn [lruCalls]. rewrite E, E'. split; [reflexivity|]. split; [apply K; exact L'|].
      cbn [length]. replace (t + S (length cs)) with (S t + length cs) by lia. exact I'. }
    destruct c as [r|r| |]; cbn [lruCall] in G.
    + destruct (step_touch t u s r I) as (s1 & E & I1). rewrite E in G. eapply G; [reflexivity|exact I1|]. intros; constructor; assumption.
    + destruct (step_track t u s r I) as (s1 & E & I1). rewrite E in G. eapply G; [reflexivity|exact I1|]. intros; constructor; assumption.
    + destruct (step_evict t u s I) as [[-> E]|(s1 & r & k & E & IN & MIN & I1)]; rewrite E in G.
      * eapply G; [reflexivity|apply Inv_S; exact I|]. intros; constructor; assumption.
      * eapply G; [reflexivity|exact I1|]. intros. econstructor; eassumption.
    + eapply G; [reflexivity|apply Inv_new|]. intros; constructor; assumption.
Qed.
