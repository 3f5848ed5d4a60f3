(** Proofs for C03. *)
From Verif Require Import Bytes HashTable_model HashTable_spec.

Fixpoint chain (h : node -> ptr) (p : ptr) (l : list node) : Prop :=
  match l with
  | [] => p = None
  | x :: r => p = Some x /\ chain h (h x) r
  end.

Lemma chain_ext h h' : forall l p, (forall x, In x l -> h' x = h x) -> chain h p l -> chain h' p l.
Proof.
  induction l as [|x l IH]; intros p E C; simpl in *; auto. destruct C as [-> C]. split; auto.
  rewrite E by auto. apply IH; auto.
Qed.

Fixpoint lastP (a : list node) (p : ptr) : ptr := match a with [] => p | x :: r => lastP r (Some x) end.

Lemma walk_ok t k : forall l F prev p, chain (hnext t) p l -> length l <= F ->
  (walk F t k prev p = Some (lastP l prev, None) /\ (forall x, In x l -> nkey t x <> k)) \/
  (exists a c b, l = a ++ c :: b /\ nkey t c = k /\ (forall x, In x a -> nkey t x <> k) /\
     walk F t k prev p = Some (lastP a prev, Some c)).
Proof.
  induction l as [|x l IH]; intros F prev p C L; simpl in C.
  - subst p. left. destruct F; split; auto; intros x [].
  - destruct C as [-> C]. destruct F as [|F]; [simpl in L; lia|]. cbn [walk].
    destruct (bytes_eqb k (nkey t x)) eqn:E.
    + apply bytes_eqb_spec in E. right. exists [], x, l. split; [reflexivity|]. split; [auto|]. split; [intros y []|reflexivity].
    + assert (NE : nkey t x <> k) by (intros X; rewrite X, bytes_eqb_refl in E; discriminate).
      destruct (IH F (Some x) (hnext t x) C) as [[W N]|(a & c & b & -> & K & N & W)]; [simpl in L; lia| |].
      * left. split; [exact W|]. intros y [<-|I]; auto.
      * right. exists (x :: a), c, b. split; [reflexivity|]. split; [auto|]. split; [intros y [<-|I]; auto|exact W].
Qed.

Lemma chain_app h : forall a p b, chain h p (a ++ b) ->
  exists q, chain h q b /\ (match a with [] => q = p | _ => forall y r, a = r ++ [y] -> h y = q end).
Proof.
  induction a as [|x a IH]; intros p b C; simpl in *.
  - exists p. auto.
  - destruct C as [-> C]. destruct (IH _ _ C) as (q & Cq & Q). exists q. split; auto.
    intros y r E. destruct a as [|z a].
    + destruct r as [|? [|? ?]]; inversion E; subst; auto.
    + destruct r as [|w r]; inversion E; subst. apply (Q y r). assumption.
Qed.

Lemma lastP_snoc a y p : lastP (a ++ [y]) p = Some y.
Proof. revert p. induction a; intros; simpl; auto. Qed.
Lemma snoc_cases (a : list node) : a = [] \/ exists r y, a = r ++ [y].
Proof. destruct (rev a) eqn:E.
  - left. rewrite <- (rev_involutive a), E. reflexivity.
  - right. exists (rev l), n. rewrite <- (rev_involutive a), E. reflexivity.
Qed.

(** Replacing what follows a prefix. *)
Lemma chain_graft h h' a c b p q l' :
  chain h p (a ++ c :: b) -> (forall x, In x a -> ~ In x (c :: b)) -> NoDup a ->
  (forall x, In x a -> lastP a None <> Some x -> h' x = h x) ->
  (forall y, lastP a None = Some y -> h' y = q) -> chain h' q l' ->
  chain h' (match a with [] => q | _ => p end) (a ++ l').
Proof.
  destruct (snoc_cases a) as [->|(r & y & ->)]; intros C D ND E L C'; [exact C'|].
  rewrite lastP_snoc in *. specialize (L y eq_refl).
  assert (G : forall r p, chain h p ((r ++ [y]) ++ c :: b) -> ~ In y r ->
     (forall x, In x r -> h' x = h x) -> chain h' p ((r ++ [y]) ++ l')).
  { clear - L C'. induction r as [|x r IH]; intros p C N E; simpl in *.
    - destruct C as [-> C]. split; auto. rewrite L. exact C'.
    - destruct C as [-> C]. split; auto. rewrite E by auto. apply IH; auto. }
  replace (match r ++ [y] with [] => q | _ :: _ => p end) with p by (destruct r; reflexivity).
  apply G; auto.
  - apply NoDup_remove_2 in ND. rewrite app_nil_r in ND. auto.
  - intros x I. apply E; [apply in_or_app; auto|]. intros X. inversion X; subst x.
    apply NoDup_remove_2 in ND. rewrite app_nil_r in ND. auto.
Qed.

Section Proofs.
Variable hash : key -> N.
Variable power : N.
Notation bk := (getBucket hash power).

(** ch b: the items of bucket b, L: all indexed items. *)
Definition inv (t : table) (ch : N -> list node) (L : list node) : Prop :=
  (forall b, chain (hnext t) (heads t b) (ch b)) /\
  (forall b n, In n (ch b) -> bk (nkey t n) = b) /\
  (forall b, NoDup (map (nkey t) (ch b))) /\
  (forall n, acc t n = true <-> In n (ch (bk (nkey t n)))) /\
  NoDup L /\ (forall n, In n L <-> acc t n = true) /\
  numKeys t = wrap64 (N.of_nat (length L)).

Lemma ch_acc t ch L b n : inv t ch L -> In n (ch b) -> acc t n = true.
Proof.
  intros (_ & B & _ & A & _) I. apply A. rewrite (B b n I). exact I.
Qed.
Lemma ch_nodup t ch L b : inv t ch L -> NoDup (ch b).
Proof. intros (_ & _ & D & _). eapply NoDup_map_inv. apply D. Qed.
Lemma ch_len t ch L b : inv t ch L -> length (ch b) <= length L.
Proof.
  intros I. apply NoDup_incl_length; [eapply ch_nodup; eauto|].
  intros n H. pose proof (ch_acc _ _ _ _ _ I H). destruct I as (_ & _ & _ & _ & _ & LA & _). apply LA. auto.
Qed.

(** Abstraction: the map. *)
Definition lookup (t : table) (ch : N -> list node) (k : key) : option node :=
  List.find (fun n => bytes_eqb k (nkey t n)) (ch (bk k)).

Lemma lookup_spec t ch L k n : inv t ch L ->
  (lookup t ch k = Some n <-> acc t n = true /\ nkey t n = k).
Proof.
  intros I. unfold lookup. split.
  - intros H. apply find_some in H as [H1 H2]. apply bytes_eqb_spec in H2. split; auto.
    eapply ch_acc; eauto.
  - intros [A K]. pose proof I as (_ & _ & D & AC & _). specialize (D (bk k)).
    apply AC in A. rewrite K in A.
    induction (ch (bk k)) as [|x l IH]; [destruct A|]. simpl in D. inversion D; subst. simpl.
    destruct (bytes_eqb (nkey t n) (nkey t x)) eqn:E.
    + apply bytes_eqb_spec in E. destruct A as [->|A]; auto. exfalso. apply H1. rewrite <- E. now apply in_map.
    + destruct A as [->|A]; [rewrite bytes_eqb_refl in E; discriminate|]. auto.
Qed.
Lemma lookup_none t ch L k : inv t ch L ->
  (lookup t ch k = None <-> forall n, acc t n = true -> nkey t n <> k).
Proof.
  intros I. split.
  - intros H n A K. assert (X : lookup t ch k = Some n) by (eapply lookup_spec; eauto). congruence.
  - intros H. destruct (lookup t ch k) eqn:E; auto. eapply lookup_spec in E; eauto. destruct E. exfalso. eapply H; eauto.
Qed.

Definition rel (t : table) (s : smap) (m : nat) : Prop :=
  exists ch L, inv t ch L /\ length L <= m /\ (forall n, keyof s n = nkey t n) /\
    (forall k, index s k = lookup t ch k).

Lemma rel_indexed t s m n : rel t s m -> indexed s n = acc t n.
Proof.
  intros (ch & L & I & _ & K & X). unfold indexed. rewrite X, K.
  destruct (lookup t ch (nkey t n)) as [x|] eqn:E.
  - apply (lookup_spec _ _ _ _ _ I) in E as [A Kx]. destruct (Nat.eqb_spec x n); [subst; auto|].
    destruct (acc t n) eqn:An; auto. exfalso.
    assert (lookup t ch (nkey t n) = Some n) by (eapply lookup_spec; eauto).
    assert (lookup t ch (nkey t n) = Some x) by (eapply lookup_spec; eauto). congruence.
  - destruct (acc t n) eqn:An; auto. exfalso. eapply lookup_none in E; eauto.
Qed.

Lemma find_ok t s m F k : rel t s m -> m <= F -> find hash power F t k = Some (index s k).
Proof.
  intros (ch & L & I & LM & K & X) HF. unfold find, findInBucket.
  pose proof I as (C & _). specialize (C (bk k)).
  pose proof (ch_len _ _ _ (bk k) I).
  destruct (walk_ok t k (ch (bk k)) F None _ C) as [[W N]|(a & c & b & E & Kc & N & W)]; [lia| |]; rewrite W; f_equal; rewrite X; symmetry.
  - apply (lookup_none _ _ _ _ I). intros n A Kn. destruct I as (_ & _ & _ & AC & _).
    apply AC in A. rewrite Kn in A. apply (N n); auto.
  - apply (lookup_spec _ _ _ _ _ I). split; auto. eapply ch_acc; eauto. rewrite E. apply in_or_app. right; left; auto.
Qed.

Definition without (L : list node) (n : node) : list node := filter (fun x => negb (x =? n)) L.
Lemma in_without L n x : In x (without L n) <-> In x L /\ x <> n.
Proof.
  unfold without. rewrite filter_In. destruct (Nat.eqb_spec x n); simpl; intuition.
Qed.
Lemma without_len L n : NoDup L -> In n L -> S (length (without L n)) = length L.
Proof.
  induction L as [|x L IH]; intros D I; [destruct I|]. inversion D; subst. simpl.
  destruct (Nat.eqb_spec x n); simpl.
  - subst. f_equal. clear IH I D H2. induction L as [|y L IH]; auto. simpl.
    destruct (Nat.eqb_spec y n); [subst; exfalso; apply H1; left; auto|]. simpl. f_equal. apply IH. intros X. apply H1. right; auto.
  - f_equal. apply IH; auto. destruct I; [congruence|auto].
Qed.

(** *** The three list updates *)
(** Adding [n] at the head of its bucket. *)
Lemma inv_add t ch L n :
  inv t ch L -> acc t n = false -> (forall x, In x (ch (bk (nkey t n))) -> nkey t x <> nkey t n) ->
  let b := bk (nkey t n) in
  let t' := incKeys (HashTable_model.setAcc (setNext (setHead t b (Some n)) n (heads t b)) n true) in
  inv t' (updN ch b (n :: ch b)) (n :: L).
Proof.
  intros I A NK b t'. pose proof I as (C & B & D & AC & DL & LA & NU).
  assert (NI : forall b', ~ In n (ch b')).
  { intros b' X. pose proof (ch_acc _ _ _ _ _ I X). congruence. }
  split; [|split; [|split; [|split; [|split; [|split]]]]].
  - intros b0. cbn. unfold updN. destruct (N.eqb_spec b0 b).
    + subst b0. simpl. split; auto. unfold upd. rewrite Nat.eqb_refl.
      eapply chain_ext; [|apply C]. intros x X. simpl. destruct (Nat.eqb_spec x n); [subst; exfalso; eapply NI; eauto|auto].
    + eapply chain_ext; [|apply C]. intros x X. unfold upd. destruct (Nat.eqb_spec x n); [subst; exfalso; eapply NI; eauto|auto].
  - intros b0 x. cbn. unfold updN. destruct (N.eqb_spec b0 b).
    + subst b0. intros [<-|X]; auto.
    + apply B.
  - intros b0. cbn. unfold updN. destruct (N.eqb_spec b0 b); [|apply D].
    simpl. constructor; [|apply D]. intros X. apply in_map_iff in X as (x & E & X). eapply NK; eauto.
  - intros x. cbn. unfold updN, upd. destruct (Nat.eqb_spec x n).
    + subst x. fold b. rewrite N.eqb_refl. split; [left; auto|auto].
    + rewrite AC. destruct (N.eqb_spec (bk (nkey t x)) b) as [E|E]; [|tauto].
      rewrite E. simpl. split; [auto|intros [X|X]; [congruence|auto]].
  - constructor; auto. rewrite LA. congruence.
  - intros x. cbn. unfold upd. destruct (Nat.eqb_spec x n); [subst; tauto|].
    rewrite <- LA. split; [intros [X|X]; [congruence|auto]|auto].
  - cbn. rewrite NU. unfold wrap64. rewrite N.add_mod_idemp_l by discriminate. f_equal. lia.
Qed.

(** The same for the map. *)
Lemma lookup_add t ch L n k :
  inv t ch L -> acc t n = false -> (forall x, In x (ch (bk (nkey t n))) -> nkey t x <> nkey t n) ->
  let b := bk (nkey t n) in
  let t' := incKeys (HashTable_model.setAcc (setNext (setHead t b (Some n)) n (heads t b)) n true) in
  lookup t' (updN ch b (n :: ch b)) k = put (lookup t ch) (nkey t n) (Some n) k.
Proof.
  intros I A NK b t'. unfold lookup, put. cbn. unfold updN.
  destruct (bytes_eqb k (nkey t n)) eqn:E.
  - apply bytes_eqb_spec in E. subst k. fold b. rewrite N.eqb_refl. simpl. rewrite bytes_eqb_refl. reflexivity.
  - destruct (N.eqb_spec (bk k) b) as [Eb|Eb]; [|reflexivity]. simpl. rewrite E, Eb. reflexivity.
Qed.

(** Substituting [n] for the item [o] with the same key. *)
Definition subst_chain (b : N) (a : list node) (n : node) (r : list node) (ch : N -> list node) := updN ch b (a ++ n :: r).

Lemma replaced_chains t ch L n o a r :
  inv t ch L -> acc t n = false -> nkey t o = nkey t n ->
  ch (bk (nkey t n)) = a ++ o :: r ->
  let b := bk (nkey t n) in
  let t1 := match lastP a None with Some p => setNext t p (Some n) | None => setHead t b (Some n) end in
  let t2 := setNext t1 n (hnext t1 o) in
  forall b0, chain (hnext t2) (heads t2 b0) (subst_chain b a n r ch b0).
Proof.
  intros I A K E b t1 t2 b0. pose proof I as (C & B & D & AC & DL & LA & NU).
  assert (NI : forall b', ~ In n (ch b')).
  { intros b' X. pose proof (ch_acc _ _ _ _ _ I X). congruence. }
  pose proof (ch_nodup _ _ _ b I) as ND. fold b in E. rewrite E in ND.
  assert (Da : NoDup a) by (clear - ND; induction a; simpl in *; [constructor|inversion ND; subst; constructor; auto; intros X; apply H1, in_or_app; auto]).
  assert (Dx : forall x, In x a -> ~ In x (o :: r)).
  { clear - ND. induction a as [|y a IH]; [intros x []|]. simpl in ND. inversion ND; subst.
    intros x [->|X]; auto. intros Y. apply H1. apply in_or_app; auto. }
  assert (Pb : forall p, lastP a None = Some p -> In p a).
  { clear. destruct (snoc_cases a) as [->|(q & y & ->)]; [discriminate|]. rewrite lastP_snoc.
    intros p X. inversion X; subst. apply in_or_app; right; left; auto. }
  assert (no : n <> o).
  { intros ->. apply (NI b). rewrite E. apply in_or_app; right; left; auto. }
  assert (na : ~ In n a) by (intros X; apply (NI b); rewrite E; apply in_or_app; auto).
  assert (nr : ~ In n r) by (intros X; apply (NI b); rewrite E; apply in_or_app; right; right; auto).
  pose proof (C b) as Cb. rewrite E in Cb.
  assert (T1o : hnext t1 o = hnext t o).
  { unfold t1. destruct (lastP a None) eqn:P; [|reflexivity]. cbn. unfold upd.
    destruct (Nat.eqb_spec o n0); [|reflexivity]. subst. exfalso. apply (Dx n0); [auto|left; auto]. }
  assert (H2n : hnext t2 n = hnext t o) by (unfold t2; cbn; unfold upd; rewrite Nat.eqb_refl; exact T1o).
  assert (H2x : forall x, x <> n -> lastP a None <> Some x -> hnext t2 x = hnext t x).
  { intros x Xn Xp. unfold t2. cbn. unfold upd at 1. destruct (Nat.eqb_spec x n); [contradiction|].
    unfold t1. destruct (lastP a None) eqn:P; [|reflexivity]. cbn. unfold upd.
    destruct (Nat.eqb_spec x n1); [subst; exfalso; apply Xp; auto|reflexivity]. }
  assert (H2p : forall y, lastP a None = Some y -> hnext t2 y = Some n).
  { intros y P. unfold t2. cbn. unfold upd at 1. destruct (Nat.eqb_spec y n); [subst; exfalso; apply na; auto|].
    unfold t1. rewrite P. cbn. unfold upd. rewrite Nat.eqb_refl. reflexivity. }
  assert (Tail : chain (hnext t2) (Some n) (n :: r)).
  { split; auto. rewrite H2n. destruct (chain_app _ _ _ _ Cb) as (q & (-> & Cr) & _).
    eapply chain_ext; [|exact Cr]. intros x X. apply H2x.
    - intros ->. auto.
    - intros P. apply (Dx x); [auto|right; auto]. }
  unfold subst_chain, updN. destruct (N.eqb_spec b0 b).
  - subst b0. pose proof (chain_graft _ (hnext t2) a o r _ (Some n) (n :: r) Cb Dx Da) as G.
    replace (heads t2 b) with (match a with [] => Some n | _ => heads t b end).
    + apply G; auto. intros x X. apply H2x. intros ->; auto.
    + unfold t2. cbn [heads setNext]. unfold t1. destruct (snoc_cases a) as [->|(q & y & ->)].
      * simpl. unfold updN. rewrite N.eqb_refl. reflexivity.
      * rewrite lastP_snoc. destruct q; reflexivity.
  - replace (heads t2 b0) with (heads t b0).
    + eapply chain_ext; [|apply C]. intros x X. apply H2x.
      * intros ->. eapply NI; eauto.
      * intros P. apply Pb in P. assert (In x (ch b)) by (rewrite E; apply in_or_app; auto).
        apply B in X. apply B in H. congruence.
    + unfold t2. cbn [heads setNext]. unfold t1. destruct (lastP a None); [reflexivity|]. cbn. unfold updN.
      destruct (N.eqb_spec b0 b); [contradiction|reflexivity].
Qed.

Lemma inv_subst t t2 ch L n o a r :
  inv t ch L -> acc t n = false -> nkey t o = nkey t n ->
  ch (bk (nkey t n)) = a ++ o :: r ->
  (forall b0, chain (hnext t2) (heads t2 b0) (subst_chain (bk (nkey t n)) a n r ch b0)) ->
  (forall x, nkey t2 x = nkey t x) -> (forall x, acc t2 x = if x =? n then true else if x =? o then false else acc t x) ->
  numKeys t2 = numKeys t ->
  inv t2 (subst_chain (bk (nkey t n)) a n r ch) (n :: without L o) /\
  length (n :: without L o) = length L /\
  (forall k, lookup t2 (subst_chain (bk (nkey t n)) a n r ch) k = put (lookup t ch) (nkey t n) (Some n) k).
Proof.
  intros I A K E C2 K2 A2 N2. pose proof I as (C & B & D & AC & DL & LA & NU).
  set (b := bk (nkey t n)) in *.
  assert (NI : forall b', ~ In n (ch b')).
  { intros b' X. pose proof (ch_acc _ _ _ _ _ I X). congruence. }
  assert (Ob : In o (ch b)) by (rewrite E; apply in_or_app; right; left; auto).
  assert (Oa : acc t o = true) by (eapply ch_acc; eauto).
  assert (no : n <> o) by (intros ->; apply (NI b); auto).
  pose proof (ch_nodup _ _ _ b I) as ND. rewrite E in ND.
  assert (oar : ~ In o (a ++ r)) by (apply NoDup_remove_2 in ND; auto).
  assert (Len : length (n :: without L o) = length L) by (apply without_len; auto; apply LA; auto).
  assert (Mp : forall l, map (nkey t2) l = map (nkey t) l) by (intros; apply map_ext; auto).
  assert (INV : inv t2 (subst_chain b a n r ch) (n :: without L o)).
  { split; [exact C2|]. split; [|split; [|split; [|split; [|split]]]].
    - intros b0 x. rewrite K2. unfold subst_chain, updN. destruct (N.eqb_spec b0 b); [|apply B].
      subst b0. intros X. apply in_app_or in X as [X|[<-|X]]; [apply B; rewrite E; apply in_or_app; auto|reflexivity|].
      apply B. rewrite E. apply in_or_app; right; right; auto.
    - intros b0. rewrite Mp. unfold subst_chain, updN. destruct (N.eqb_spec b0 b); [|apply D].
      specialize (D b). rewrite E in D. rewrite map_app in *. simpl in *. rewrite <- K. exact D.
    - intros x. rewrite A2, K2. unfold subst_chain, updN. destruct (Nat.eqb_spec x n).
      + subst x. fold b. rewrite N.eqb_refl. split; [|auto]. intros _. apply in_or_app; right; left; auto.
      + destruct (Nat.eqb_spec x o).
        * subst x. rewrite K. fold b. rewrite N.eqb_refl. split; [discriminate|].
          intros X. exfalso. apply in_app_or in X as [X|[X|X]]; [|congruence|]; apply oar, in_or_app; auto.
        * rewrite AC. destruct (N.eqb_spec (bk (nkey t x)) b) as [Eb|Eb]; [|tauto].
          rewrite Eb, E. rewrite !in_app_iff. simpl. intuition congruence.
    - constructor; [|apply NoDup_filter; auto]. rewrite in_without, LA. intros [X _]. congruence.
    - intros x. rewrite A2. simpl. rewrite in_without, LA.
      destruct (Nat.eqb_spec x n); [subst; tauto|]. destruct (Nat.eqb_spec x o); [subst; intuition congruence|].
      intuition congruence.
    - rewrite N2, NU. rewrite Len. reflexivity. }
  split; [exact INV|]. split; [exact Len|].
  intros k. unfold put. destruct (bytes_eqb k (nkey t n)) eqn:Ek.
  - apply bytes_eqb_spec in Ek. subst k. eapply lookup_spec; eauto. rewrite A2, K2, Nat.eqb_refl. auto.
  - assert (NE : k <> nkey t n) by (intros ->; rewrite bytes_eqb_refl in Ek; discriminate).
    destruct (lookup t ch k) as [x|] eqn:X.
    + eapply lookup_spec in X; eauto. destruct X as [X1 X2]. eapply lookup_spec; eauto. rewrite A2, K2.
      destruct (Nat.eqb_spec x n); [subst; congruence|]. destruct (Nat.eqb_spec x o); [subst; congruence|]. auto.
    + eapply lookup_none; eauto. intros x Ax Kx. rewrite K2 in Kx. rewrite A2 in Ax.
      destruct (Nat.eqb_spec x n); [subst; congruence|]. destruct (Nat.eqb_spec x o); [discriminate|].
      eapply (proj1 (lookup_none _ _ _ _ I)) in X; eauto.
Qed.

Lemma wrap_dec n : wrap64 (wrap64 (N.of_nat (S n)) + (two64 - 1)) = wrap64 (N.of_nat n).
Proof.
  unfold wrap64. rewrite N.add_mod_idemp_l by discriminate.
  replace (N.of_nat (S n) + (two64 - 1))%N with (N.of_nat n + 1 * two64)%N by (unfold two64; lia).
  apply N.mod_add. discriminate.
Qed.

(** Taking [n] out. *)
Lemma removed t ch L n a r :
  inv t ch L -> ch (bk (nkey t n)) = a ++ n :: r ->
  let b := bk (nkey t n) in
  let t1 := match lastP a None with Some p => setNext t p (hnext t n) | None => setHead t b (hnext t n) end in
  let t2 := decKeys (HashTable_model.setAcc t1 n false) in
  inv t2 (updN ch b (a ++ r)) (without L n) /\ S (length (without L n)) = length L /\
  (forall k, lookup t2 (updN ch b (a ++ r)) k = put (lookup t ch) (nkey t n) None k) /\
  (forall x, nkey t2 x = nkey t x).
Proof.
  intros I E b t1 t2. pose proof I as (C & B & D & AC & DL & LA & NU). fold b in E.
  pose proof (ch_nodup _ _ _ b I) as ND. rewrite E in ND.
  assert (Da : NoDup a) by (clear - ND; induction a; simpl in *; [constructor|inversion ND; subst; constructor; auto; intros X; apply H1, in_or_app; auto]).
  assert (Dx : forall x, In x a -> ~ In x (n :: r)).
  { clear - ND. induction a as [|y a IH]; [intros x []|]. simpl in ND. inversion ND; subst.
    intros x [->|X]; auto. intros Y. apply H1. apply in_or_app; auto. }
  assert (nar : ~ In n (a ++ r)) by (apply NoDup_remove_2 in ND; auto).
  assert (Pb : forall p, lastP a None = Some p -> In p a).
  { clear. destruct (snoc_cases a) as [->|(q & y & ->)]; [discriminate|]. rewrite lastP_snoc.
    intros p X. inversion X; subst. apply in_or_app; right; left; auto. }
  assert (Nb : In n (ch b)) by (rewrite E; apply in_or_app; right; left; auto).
  assert (An : acc t n = true) by (eapply ch_acc; eauto).
  assert (Kx : forall x, nkey t2 x = nkey t x).
  { intros x. unfold t2, t1. destruct (lastP a None); reflexivity. }
  assert (Ax : forall x, acc t2 x = if x =? n then false else acc t x).
  { intros x. unfold t2, t1. destruct (lastP a None); cbn; unfold upd; destruct (x =? n); reflexivity. }
  assert (Len : S (length (without L n)) = length L) by (apply without_len; auto; apply LA; auto).
  pose proof (C b) as Cb. rewrite E in Cb.
  assert (H2x : forall x, lastP a None <> Some x -> hnext t2 x = hnext t x).
  { intros x Xp. unfold t2. cbn. unfold t1. destruct (lastP a None) eqn:P; [|reflexivity]. cbn. unfold upd.
    destruct (Nat.eqb_spec x n0); [subst; exfalso; apply Xp; auto|reflexivity]. }
  assert (H2p : forall y, lastP a None = Some y -> hnext t2 y = hnext t n).
  { intros y P. unfold t2. cbn. unfold t1. rewrite P. cbn. unfold upd. rewrite Nat.eqb_refl. reflexivity. }
  assert (INV : inv t2 (updN ch b (a ++ r)) (without L n)).
  { split; [|split; [|split; [|split; [|split; [|split]]]]].
    - intros b0. unfold updN. destruct (N.eqb_spec b0 b).
      + subst b0. destruct (chain_app _ _ _ _ Cb) as (q & (-> & Cr) & _).
        assert (Tail : chain (hnext t2) (hnext t n) r).
        { eapply chain_ext; [|exact Cr]. intros x X. apply H2x. intros P. apply (Dx x); [auto|right; auto]. }
        pose proof (chain_graft _ (hnext t2) a n r _ (hnext t n) r Cb Dx Da) as G.
        replace (heads t2 b) with (match a with [] => hnext t n | _ => heads t b end).
        * apply G; auto.
        * unfold t2. cbn [heads decKeys setNum HashTable_model.setAcc]. unfold t1. destruct (snoc_cases a) as [->|(q & y & ->)].
          -- simpl. unfold updN. rewrite N.eqb_refl. reflexivity.
          -- rewrite lastP_snoc. destruct q; reflexivity.
      + replace (heads t2 b0) with (heads t b0).
        * eapply chain_ext; [|apply C]. intros x X. apply H2x.
          intros P. apply Pb in P. assert (H : In x (ch b)) by (rewrite E; apply in_or_app; auto).
          apply B in X. apply B in H. congruence.
        * unfold t2. cbn [heads decKeys setNum HashTable_model.setAcc]. unfold t1. destruct (lastP a None); [reflexivity|]. cbn. unfold updN.
          destruct (N.eqb_spec b0 b); [contradiction|reflexivity].
    - intros b0 x. rewrite Kx. unfold updN. destruct (N.eqb_spec b0 b); [|apply B]. subst b0.
      intros X. apply B. rewrite E. apply in_app_or in X as [X|X]; apply in_or_app; [auto|right; right; auto].
    - intros b0. rewrite (map_ext _ _ Kx). unfold updN. destruct (N.eqb_spec b0 b); [|apply D].
      specialize (D b). rewrite E in D. rewrite map_app in *. simpl in D. apply NoDup_remove_1 in D. auto.
    - intros x. rewrite Ax, Kx. unfold updN. destruct (Nat.eqb_spec x n).
      + subst x. fold b. rewrite N.eqb_refl. split; [discriminate|]. intros X. exfalso; auto.
      + rewrite AC. destruct (N.eqb_spec (bk (nkey t x)) b) as [Eb|Eb]; [|tauto].
        rewrite Eb, E, !in_app_iff. simpl. intuition congruence.
    - apply NoDup_filter; auto.
    - intros x. rewrite Ax, in_without, LA. destruct (Nat.eqb_spec x n); [subst; intuition congruence|]. intuition.
    - unfold t2, decKeys. cbn [numKeys setNum HashTable_model.setAcc].
      replace (numKeys t1) with (numKeys t) by (unfold t1; destruct (lastP a None); reflexivity).
      rewrite NU, <- Len. apply wrap_dec. }
  split; [exact INV|]. split; [exact Len|]. split; [|exact Kx].
  intros k. unfold put. destruct (bytes_eqb k (nkey t n)) eqn:Ek.
  - apply bytes_eqb_spec in Ek. subst k. eapply lookup_none; eauto. intros x X1 X2.
    rewrite Ax in X1. rewrite Kx in X2. destruct (Nat.eqb_spec x n); [discriminate|].
    assert (lookup t ch (nkey t n) = Some x) by (eapply lookup_spec; eauto).
    assert (lookup t ch (nkey t n) = Some n) by (eapply lookup_spec; eauto). congruence.
  - assert (NE : k <> nkey t n) by (intros ->; rewrite bytes_eqb_refl in Ek; discriminate).
    destruct (lookup t ch k) as [x|] eqn:X.
    + eapply lookup_spec in X; eauto. destruct X as [X1 X2]. eapply lookup_spec; eauto. rewrite Ax, Kx.
      destruct (Nat.eqb_spec x n); [subst; congruence|]. auto.
    + eapply lookup_none; eauto. intros x X1 X2. rewrite Kx in X2. rewrite Ax in X1.
      destruct (Nat.eqb_spec x n); [discriminate|]. eapply (proj1 (lookup_none _ _ _ _ I)) in X; eauto.
Qed.

(** *** Calls *)
Lemma rel_mono t s m m' : rel t s m -> m <= m' -> rel t s m'.
Proof. intros (ch & L & H1 & H2 & H3) ?. exists ch, L. split; [exact H1|]. split; [lia|exact H3]. Qed.

Lemma lookup_key t ch L n x : inv t ch L -> lookup t ch (nkey t n) = Some x ->
  exists a r, ch (bk (nkey t n)) = a ++ x :: r /\ nkey t x = nkey t n /\ acc t x = true.
Proof.
  intros I H. eapply lookup_spec in H; eauto. destruct H as [A K]. pose proof I as (_ & _ & _ & AC & _).
  apply AC in A as A'. rewrite K in A'. apply in_split in A' as (a & r & E). eauto.
Qed.

(** The walk of an operation on [n]'s bucket, decided by the map. *)
Lemma walk_bucket t ch L F k : inv t ch L -> length L <= F ->
  match lookup t ch k with
  | None => (exists p, walk F t k None (heads t (bk k)) = Some (p, None)) /\
            (forall x, In x (ch (bk k)) -> nkey t x <> k)
  | Some c => exists a r, ch (bk k) = a ++ c :: r /\ walk F t k None (heads t (bk k)) = Some (lastP a None, Some c)
  end.
Proof.
  intros I HF. pose proof I as (C & _). pose proof (ch_len _ _ _ (bk k) I).
  destruct (walk_ok t k (ch (bk k)) F None _ (C (bk k))) as [[W N]|(a & c & b & E & Kc & N & W)]; [lia| |].
  - replace (lookup t ch k) with (@None node); [split; eauto|]. symmetry. eapply lookup_none; eauto.
    intros n A Kn. destruct I as (_ & _ & _ & AC & _). apply AC in A. rewrite Kn in A. apply (N n); auto.
  - replace (lookup t ch k) with (Some c); [eauto|]. symmetry. eapply lookup_spec; eauto. split; auto.
    eapply ch_acc; eauto. rewrite E. apply in_or_app. right; left; auto.
Qed.

Lemma setAcc_acc t n v x : acc (HashTable_model.setAcc t n v) x = if x =? n then v else acc t x.
Proof. reflexivity. Qed.

Lemma put_ext f g k v x : (forall y, f y = g y) -> put f k v x = put g k v x.
Proof. unfold put. intros H. destruct (bytes_eqb x k); auto. Qed.

(** The abstract state of an unmarked put (table changed, marks not): insertOrReplace's undo. *)
Lemma exec_ok t s m F c : rel t s m -> legal s c -> S m <= F ->
  exists t' o, exec hash power F t c = Some (t', o) /\ rel t' (fst (spec_exec s c)) (S m) /\
    agree c o (snd (spec_exec s c)).
Proof.
  intros R Lg HF. pose proof R as (ch & L & I & LM & K & X).
  assert (HL : length L <= F) by lia.
  destruct c as [n|n|n th|o n pred|n|n pred th|k|b|n k]; cbn [exec spec_exec legal] in *.
  - eexists _, _. split; [reflexivity|]. split; [eapply rel_mono; eauto|]. cbn. f_equal. symmetry.
    eapply rel_indexed; eauto.
  - unfold insert, insertInBucket, findInBucket. rewrite X, K.
    pose proof (walk_bucket t ch L F (nkey t n) I HL) as W.
    destruct (lookup t ch (nkey t n)) as [c|] eqn:E.
    + destruct W as (a & r & E1 & W). rewrite W. eexists _, _. split; [reflexivity|].
      split; [eapply rel_mono; eauto|reflexivity].
    + destruct W as ((p & W) & N). rewrite W. eexists _, _. split; [reflexivity|]. split; [|reflexivity].
      assert (A : acc t n = false).
      { destruct (acc t n) eqn:A; auto. eapply lookup_none in E; eauto. exfalso; apply E; auto. }
      exists (updN ch (bk (nkey t n)) (n :: ch (bk (nkey t n)))), (n :: L).
      split; [apply inv_add; auto|]. split; [simpl; lia|]. split; [exact K|].
      intros k. cbn [fst index]. rewrite (lookup_add t ch L n k I A N). apply put_ext. exact X.
  - unfold insertOrReplace, insertOrReplaceInBucket. rewrite X, K.
    assert (A : acc t n = false) by (erewrite <- rel_indexed; eauto).
    pose proof (walk_bucket t ch L F (nkey t n) I HL) as W.
    destruct (lookup t ch (nkey t n)) as [c|] eqn:E.
    + destruct W as (a & r & E1 & W). rewrite W.
      destruct (lookup_key _ _ _ _ _ I E) as (_ & _ & _ & Kc & Ac).
      set (t1 := match lastP a None with Some p => setNext t p (Some n) | None => setHead t (bk (nkey t n)) (Some n) end).
      pose proof (replaced_chains t ch L n c a r I A Kc E1) as C2. cbv zeta in C2. fold t1 in C2.
      set (t2 := setNext t1 n (hnext t1 c)) in *.
      assert (K2 : forall x, nkey t2 x = nkey t x) by (intros x; unfold t2, t1; destruct (lastP a None); reflexivity).
      assert (A2 : forall x, acc t2 x = acc t x) by (intros x; unfold t2, t1; destruct (lastP a None); reflexivity).
      assert (N2 : numKeys t2 = numKeys t) by (unfold t2, t1; destruct (lastP a None); reflexivity).
      clearbody t2.
      assert (nc : n <> c) by (intros ->; congruence).
      destruct th.
      * (* the handle maker throws: undo *)
        pose (t3 := HashTable_model.setAcc (HashTable_model.setAcc t2 n true) c false).
        destruct (inv_subst t t3 ch L n c a r I A Kc E1 C2) as (I3 & L3 & X3); [exact K2| |exact N2|].
        { intros x. unfold t3. rewrite !setAcc_acc, A2. destruct (Nat.eqb_spec x c), (Nat.eqb_spec x n); subst; try congruence; reflexivity. }
        assert (W3 : walk F t2 (nkey t2 c) None (heads t2 (bk (nkey t n))) = walk F t3 (nkey t3 c) None (heads t3 (bk (nkey t3 c)))).
        { unfold t3. cbn. rewrite K2, Kc.
          assert (G : forall F k p q, walk F t2 k p q = walk F (HashTable_model.setAcc (HashTable_model.setAcc t2 n true) c false) k p q).
          { clear. induction F; intros; destruct q; cbn; auto; destruct (bytes_eqb _ _); auto. }
          apply G. }
        rewrite W3.
        assert (HL3 : length (n :: without L c) <= F) by lia.
        pose proof (walk_bucket t3 _ _ F (nkey t3 c) I3 HL3) as W4.
        assert (Lk : lookup t3 (subst_chain (bk (nkey t n)) a n r ch) (nkey t3 c) = Some n).
        { rewrite X3. unfold put. unfold t3; cbn. rewrite K2, Kc, bytes_eqb_refl. reflexivity. }
        rewrite Lk in W4. destruct W4 as (a4 & r4 & E4 & W4). rewrite W4.
        assert (I3A : acc t3 c = false) by (unfold t3; rewrite setAcc_acc, Nat.eqb_refl; reflexivity).
        assert (Kc3 : nkey t3 n = nkey t3 c) by (unfold t3; cbn; rewrite !K2; congruence).
        pose proof (replaced_chains t3 _ _ c n a4 r4 I3 I3A Kc3 E4) as C5. cbv zeta in C5.
        match goal with |- exists _ _, Some (?tt, _) = _ /\ _ => set (t4 := tt) end.
        assert (Kb : bk (nkey t3 c) = bk (nkey t n)) by (unfold t3; cbn; rewrite K2, Kc; reflexivity).
        assert (Hn4 : forall x, hnext t4 x = hnext (setNext (match lastP a4 None with Some p => setNext t3 p (Some c) | None => setHead t3 (bk (nkey t3 c)) (Some c) end) c (hnext (match lastP a4 None with Some p => setNext t3 p (Some c) | None => setHead t3 (bk (nkey t3 c)) (Some c) end) n)) x).
        { intros x. unfold t4. destruct (lastP a4 None); reflexivity. }
        assert (Hh4 : forall x, heads t4 x = heads (setNext (match lastP a4 None with Some p => setNext t3 p (Some c) | None => setHead t3 (bk (nkey t3 c)) (Some c) end) c (hnext (match lastP a4 None with Some p => setNext t3 p (Some c) | None => setHead t3 (bk (nkey t3 c)) (Some c) end) n)) x).
        { intros x. unfold t4. rewrite Kb. destruct (lastP a4 None); reflexivity. }
        assert (C6 : forall b0, chain (hnext t4) (heads t4 b0) (subst_chain (bk (nkey t3 c)) a4 c r4 (subst_chain (bk (nkey t n)) a n r ch) b0)).
        { intros b0. rewrite Hh4. eapply chain_ext; [|apply C5]. intros x _. apply Hn4. }
        destruct (inv_subst t3 t4 _ _ c n a4 r4 I3 I3A Kc3 E4 C6) as (I5 & L5 & X5).
        { intros x. unfold t4, t3. destruct (lastP a4 None); reflexivity. }
        { intros x. replace (acc t4 x) with (acc t2 x) by (unfold t4; destruct (lastP a4 None); reflexivity).
          unfold t3. rewrite !setAcc_acc, A2. destruct (Nat.eqb_spec x c), (Nat.eqb_spec x n); subst; try congruence; reflexivity. }
        { unfold t4, t3; destruct (lastP a4 None); reflexivity. }
        eexists _, _. split; [reflexivity|]. split; [|reflexivity].
        eexists _, _. split; [exact I5|]. split; [lia|]. split.
        { intros x. cbn [fst]. rewrite K. unfold t4; destruct (lastP a4 None); cbn; rewrite K2; reflexivity. }
        intros k. cbn [fst]. rewrite X5, X. unfold put at 1.
        replace (nkey t3 c) with (nkey t n) by (unfold t3; cbn; rewrite K2; auto).
        destruct (bytes_eqb k (nkey t n)) eqn:Ek; [apply bytes_eqb_spec in Ek; subst; auto|].
        rewrite X3. unfold put. rewrite Ek. reflexivity.
      * pose (t3 := HashTable_model.setAcc (HashTable_model.setAcc t2 n true) c false).
        destruct (inv_subst t t3 ch L n c a r I A Kc E1 C2) as (I3 & L3 & X3); [exact K2| |exact N2|].
        { intros x. unfold t3. rewrite !setAcc_acc, A2. destruct (Nat.eqb_spec x c), (Nat.eqb_spec x n); subst; try congruence; reflexivity. }
        eexists _, _. split; [reflexivity|]. split; [|reflexivity].
        eexists _, _. split; [exact I3|]. split; [lia|]. split.
        { intros x. cbn [fst keyof]. rewrite K. unfold t3; cbn; rewrite K2; reflexivity. }
        intros k. cbn [fst index]. rewrite X3. apply put_ext. exact X.
    + destruct W as ((p & W) & N). rewrite W. eexists _, _. split; [reflexivity|]. split; [|reflexivity].
      exists (updN ch (bk (nkey t n)) (n :: ch (bk (nkey t n)))), (n :: L).
      split; [apply inv_add; auto|]. split; [simpl; lia|]. split; [exact K|].
      intros k. cbn [fst index]. rewrite (lookup_add t ch L n k I A N). apply put_ext. exact X.
  - destruct Lg as [Kon Ln]. rewrite !K in Kon. rewrite (rel_indexed _ _ _ o R).
    rewrite (rel_indexed _ _ _ n R) in Ln. unfold replaceIf.
    destruct (acc t o && pred)%bool eqn:G.
    + apply andb_prop in G as [Ao _]. unfold insertOrReplaceInBucket.
      pose proof (walk_bucket t ch L F (nkey t n) I HL) as W.
      assert (E : lookup t ch (nkey t n) = Some o) by (eapply lookup_spec; eauto).
      rewrite E in W. destruct W as (a & r & E1 & W). rewrite W.
      set (t1 := match lastP a None with Some p => setNext t p (Some n) | None => setHead t (bk (nkey t n)) (Some n) end).
      pose proof (replaced_chains t ch L n o a r I Ln Kon E1) as C2. cbv zeta in C2. fold t1 in C2.
      set (t2 := setNext t1 n (hnext t1 o)) in *.
      assert (K2 : forall x, nkey t2 x = nkey t x) by (intros x; unfold t2, t1; destruct (lastP a None); reflexivity).
      assert (A2 : forall x, acc t2 x = acc t x) by (intros x; unfold t2, t1; destruct (lastP a None); reflexivity).
      assert (N2 : numKeys t2 = numKeys t) by (unfold t2, t1; destruct (lastP a None); reflexivity).
      clearbody t2.
      pose (t3 := HashTable_model.setAcc (HashTable_model.setAcc t2 o false) n true).
      destruct (inv_subst t t3 ch L n o a r I Ln Kon E1 C2) as (I3 & L3 & X3); [exact K2| |exact N2|].
      { intros x. unfold t3. rewrite !setAcc_acc, A2. destruct (Nat.eqb_spec x o), (Nat.eqb_spec x n); subst; try congruence; reflexivity. }
      eexists _, _. split; [reflexivity|]. split; [|reflexivity].
      eexists _, _. split; [exact I3|]. split; [lia|]. split.
      { intros x. cbn [fst keyof]. rewrite K. unfold t3; cbn; rewrite K2; reflexivity. }
      intros k. cbn [fst index]. rewrite X3, K. apply put_ext. exact X.
    + eexists _, _. split; [reflexivity|]. split; [eapply rel_mono; eauto|reflexivity].
  - rewrite (rel_indexed _ _ _ n R). unfold remove. destruct (acc t n) eqn:A; cbn [negb].
    + unfold removeFromBucket. pose proof (walk_bucket t ch L F (nkey t n) I HL) as W.
      assert (E : lookup t ch (nkey t n) = Some n) by (eapply lookup_spec; eauto).
      rewrite E in W. destruct W as (a & r & E1 & W). rewrite W.
      replace (match lastP a None with Some p => Some (setNext t p (hnext t n)) | None => Some (setHead t (bk (nkey t n)) (hnext t n)) end)
        with (Some (match lastP a None with Some p => setNext t p (hnext t n) | None => setHead t (bk (nkey t n)) (hnext t n) end))
        by (destruct (lastP a None); reflexivity).
      pose proof (@removed t ch L n a r I E1) as (I2 & L2 & X2 & K2). cbv zeta in I2, X2, K2.
      eexists _, _. split; [reflexivity|]. split; [|reflexivity].
      eexists _, _. split; [exact I2|]. split; [lia|]. split.
      { intros x. cbn [fst keyof]. rewrite K, K2. reflexivity. }
      intros k. cbn [fst index]. rewrite X2, K. apply put_ext. exact X.
    + eexists _, _. split; [reflexivity|]. split; [eapply rel_mono; eauto|reflexivity].
  - rewrite (rel_indexed _ _ _ n R). unfold removeIf. destruct (acc t n) eqn:A; cbn [andb].
    2:{ eexists _, _. split; [reflexivity|]. split; [eapply rel_mono; eauto|reflexivity]. }
    destruct pred; [|eexists _, _; split; [reflexivity|]; split; [eapply rel_mono; eauto|reflexivity]].
    destruct th; [eexists _, _; split; [reflexivity|]; split; [eapply rel_mono; eauto|reflexivity]|].
    unfold removeFromBucket. pose proof (walk_bucket t ch L F (nkey t n) I HL) as W.
    assert (E : lookup t ch (nkey t n) = Some n) by (eapply lookup_spec; eauto).
    rewrite E in W. destruct W as (a & r & E1 & W). rewrite W.
    replace (match lastP a None with Some p => Some (setNext t p (hnext t n)) | None => Some (setHead t (bk (nkey t n)) (hnext t n)) end)
        with (Some (match lastP a None with Some p => setNext t p (hnext t n) | None => setHead t (bk (nkey t n)) (hnext t n) end))
        by (destruct (lastP a None); reflexivity).
    pose proof (@removed t ch L n a r I E1) as (I2 & L2 & X2 & K2). cbv zeta in I2, X2, K2.
    eexists _, _. split; [reflexivity|]. split; [|reflexivity].
    eexists _, _. split; [exact I2|]. split; [lia|]. split.
    { intros x. cbn [fst keyof]. rewrite K, K2. reflexivity. }
    intros k. cbn [fst index]. rewrite X2, K. apply put_ext. exact X.
  - rewrite (find_ok t s m F k R) by lia. eexists _, _. split; [reflexivity|].
    split; [eapply rel_mono; eauto|reflexivity].
  - unfold bucketElems.
    assert (G : forall l F p, chain (hnext t) p l -> length l <= F -> elems F t p = Some l).
    { clear. induction l as [|x l IH]; intros F p C H; simpl in C.
      - subst p. destruct F; reflexivity.
      - destruct C as [-> C]. destruct F; [simpl in H; lia|]. cbn [elems]. rewrite (IH F _ C) by (simpl in H; lia). reflexivity. }
    pose proof (ch_len _ _ _ b I). pose proof I as (C & _).
    rewrite (G (ch b) F (heads t b)); [|apply C|lia]. eexists _, _. split; [reflexivity|].
    split; [eapply rel_mono; eauto|exact Logic.I].
  - eexists _, _. split; [reflexivity|]. split; [|reflexivity].
    rewrite (rel_indexed _ _ _ n R) in Lg.
    assert (NI : forall b', ~ In n (ch b')).
    { intros b' Y. pose proof (ch_acc _ _ _ _ _ I Y). congruence. }
    pose proof I as (C & B & D & AC & DL & LA & NU).
    assert (Kn : forall b x, In x (ch b) -> nkey (setKey t n k) x = nkey t x).
    { intros b x Y. cbn. unfold upd. destruct (Nat.eqb_spec x n); [subst; exfalso; eapply NI; eauto|auto]. }
    assert (I' : inv (setKey t n k) ch L).
    { split; [exact C|]. split; [|split; [|split; [|split; [|split]]]]; auto.
      - intros b x Y. rewrite (Kn b) by auto. apply B; auto.
      - intros b. rewrite (map_ext_in _ (nkey t)); [apply D|]. intros x Y. eapply Kn; eauto.
      - intros x. cbn. unfold upd. destruct (Nat.eqb_spec x n).
        + subst x. rewrite Lg. split; [discriminate|]. intros Y. exfalso. eapply NI; eauto.
        + apply AC. }
    exists ch, L. split; [exact I'|]. split; [lia|]. split.
    { intros x. cbn. unfold upd. rewrite K. destruct (x =? n); reflexivity. }
    intros k'. cbn [fst index]. rewrite X. unfold lookup.
    generalize (Kn (bk k')). generalize (ch (bk k')). clear.
    induction l as [|x l IH]; intros H; [reflexivity|]. cbn [List.find].
    rewrite (H x) by (left; auto). rewrite IH; [reflexivity|]. intros y Y. apply H. right; auto.
Qed.

(** What an iterator reads in a bucket. *)
Lemma bucket_ok t s m F b : rel t s m -> m <= F ->
  exists l, bucketElems F t b = Some l /\ NoDup l /\ NoDup (map (keyof s) l) /\
    forall n, In n l <-> indexed s n = true /\ bk (keyof s n) = b.
Proof.
  intros R HF. pose proof R as (ch & L & I & LM & K & X).
  pose proof (ch_len _ _ _ b I). pose proof I as (C & B & D & AC & _).
  exists (ch b). split; [|split; [|split]].
  - unfold bucketElems.
    assert (G : forall l F p, chain (hnext t) p l -> length l <= F -> elems F t p = Some l).
    { clear. induction l as [|x l IH]; intros F p C H; simpl in C.
      - subst p. destruct F; reflexivity.
      - destruct C as [-> C]. destruct F; [simpl in H; lia|]. cbn [elems]. rewrite (IH F _ C) by (simpl in H; lia). reflexivity. }
    apply G; [apply C|lia].
  - eapply ch_nodup; eauto.
  - rewrite (map_ext _ _ K). apply D.
  - intros n. rewrite (rel_indexed _ _ _ n R), K. split.
    + intros Y. split; [eapply ch_acc; eauto|apply B; auto].
    + intros [A <-]. apply AC. auto.
Qed.

Lemma execs_ok cs : forall t s m F, rel t s m -> legals s cs -> m + length cs <= F ->
  exists t' outs, execs hash power F t cs = Some (t', outs) /\ rel t' (fst (spec_execs s cs)) (m + length cs) /\
    agrees cs outs (snd (spec_execs s cs)).
Proof.
  induction cs as [|c r IH]; intros t s m F R Lg HF.
  - exists t, []. split; [reflexivity|]. split; [eapply rel_mono; eauto; lia|exact Logic.I].
  - destruct Lg as [L1 L2]. simpl in HF.
    destruct (exec_ok t s m F c R L1) as (t1 & o & E & R1 & A); [lia|].
    cbn [execs spec_execs]. rewrite E. destruct (spec_exec s c) as [s1 o1]. cbn [fst snd] in *.
    destruct (IH t1 s1 (S m) F R1 L2) as (t2 & os & E2 & R2 & A2); [lia|]. rewrite E2.
    destruct (spec_execs s1 r) as [s2 os2]. cbn [fst snd] in *.
    exists t2, (o :: os). split; [reflexivity|]. split; [|split; auto].
    eapply rel_mono; eauto. simpl. lia.
Qed.

Lemma init_rel keys : rel (initT keys) (init_spec keys) 0.
Proof.
  exists (fun _ => []), []. split; [|split; [simpl; lia|split; reflexivity]].
  repeat split; try (intros; constructor); try discriminate; try (intros []); try (intros ? []).
Qed.

Lemma iterate_ok t s m F bs : rel t s m -> m <= F -> NoDup bs ->
  exists l, iterate F t bs = Some l /\ NoDup l /\
    forall n, In n l <-> indexed s n = true /\ In (bk (keyof s n)) bs.
Proof.
  intros R HF. induction bs as [|b bs IH]; intros ND.
  - exists []. split; [reflexivity|]. split; [constructor|]. simpl. tauto.
  - inversion ND; subst. destruct (IH H2) as (l' & E' & N' & M').
    destruct (bucket_ok t s m F b R HF) as (l & E & N & _ & M).
    cbn [iterate]. rewrite E, E'. exists (l ++ l'). split; [reflexivity|]. split.
    + clear - N N' M M' H1. induction l as [|x l IH]; [exact N'|].
      assert (G : NoDup (l ++ l')).
      { revert N'. clear IH. revert M. generalize (fun n => In n (x :: l)). intros _ M N'.
        inversion N; subst.
        assert (Dj : forall y, In y l -> ~ In y l').
        { intros y Y Z. apply M' in Z as [_ Z]. apply H1. destruct (proj1 (M y) (or_intror Y)) as [_ <-]. exact Z. }
        clear - H3 N' Dj. induction l; simpl; auto. inversion H3; subst. constructor.
        - intros X. apply in_app_or in X as [X|X]; [auto|]. apply (Dj a); [left; auto|auto].
        - apply IHl; auto. intros y Y. apply Dj. right; auto. }
      simpl. constructor; [|exact G]. inversion N; subst. intros X. apply in_app_or in X as [X|X]; [auto|].
      apply M' in X as [_ X]. apply H1. destruct (proj1 (M x) (or_introl eq_refl)) as [_ <-]. exact X.
    + intros n. rewrite in_app_iff, M, M'. simpl. intuition.
Qed.
End Proofs.
