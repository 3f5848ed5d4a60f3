(** Proofs for C06, part 1: the five lists, the iterator, rebalancing. *)
From Verif Require Import Bytes DList_model DList_spec DList_proofs MM2Q_model MM2Q_spec.
Ltac Zify.zify_post_hook ::= idtac.

Definition L5 (a b c d e : list node) : seqs :=
  fun i => match i with 0 => a | 1 => b | 2 => c | 3 => d | 4 => e | _ => [] end.

Definition fl (s : mm) (l : seqs) : Prop :=
  forall i n, In n (l i) -> hot s n = (i =? 2) /\ cold s n = ((i =? 3) || (i =? 4)) /\
    tailf s n = ((i =? 1) || (i =? 4)).
Definition J (s : mm) (l : seqs) : Prop :=
  wrep (wd s) l /\ fl s l /\ (forall i, 5 <= i -> l i = []).

Lemma wrep_ext w l l' : (forall i, l i = l' i) -> wrep w l -> wrep w l'.
Proof.
  intros E (A & B & D). split; [|split].
  - intros i. rewrite <- E. apply A.
  - intros i j x. rewrite <- !E. apply B.
  - intros x U. apply D. intros j. rewrite E. apply U.
Qed.
Lemma J_ext s l l' : (forall i, l i = l' i) -> J s l -> J s l'.
Proof.
  intros E (A & B & D). split; [|split].
  - eapply wrep_ext; eauto.
  - intros i n. rewrite <- E. apply B.
  - intros i Hi. rewrite <- E. auto.
Qed.
Lemma J_lt s l i n : J s l -> In n (l i) -> i < 5.
Proof.
  intros (_ & _ & D) I0. destruct (Nat.lt_ge_cases i 5); auto. rewrite D in I0 by auto. destruct I0.
Qed.
Lemma J_nodup s l i : J s l -> NoDup (l i).
Proof. intros ((A & _) & _). apply (A i). Qed.
Lemma J_size s l i : J s l -> size (lst s i) = length (l i).
Proof. intros ((A & _) & _). destruct (A i) as (_ & _ & _ & _ & Z). exact Z. Qed.
Lemma J_tail s l i : J s l -> tail (lst s i) = lastOr (l i) None.
Proof. intros ((A & _) & _). destruct (A i) as (_ & _ & _ & Z & _). exact Z. Qed.
Lemma J_prv s l i a x b : J s l -> l i = a ++ x :: b -> prv (wheap (wd s)) x = lastOr a None.
Proof.
  intros ((A & _) & _) E. destruct (A i) as (_ & S & _). rewrite E in S. apply seg_mid in S. tauto.
Qed.
Lemma J_disj s l i j x : J s l -> In x (l i) -> In x (l j) -> i = j.
Proof. intros ((_ & B & _) & _). apply B. Qed.

Definition unlinked_out (l : seqs) (n : node) : Prop := forall i, ~ In n (l i).

Lemma remove_node_in l n x : In x (remove_node l n) <-> In x l /\ x <> n.
Proof.
  unfold remove_node. rewrite filter_In. destruct (Nat.eqb_spec x n); simpl; intuition congruence.
Qed.

Lemma mv s l i j n l' s' : J s l -> In n (l i) -> i <> j -> j < 5 ->
  wd s' = doCall (doCall (wd s) (Remove i n)) (LinkAtHead j n) ->
  (forall x, x <> n -> hot s' x = hot s x /\ cold s' x = cold s x /\ tailf s' x = tailf s x) ->
  (hot s' n = (j =? 2) /\ cold s' n = ((j =? 3) || (j =? 4)) /\ tailf s' n = ((j =? 1) || (j =? 4))) ->
  (forall k, l' k = if k =? j then n :: l j else if k =? i then remove_node (l i) n else l k) ->
  J s' l'.
Proof.
  intros HJ I0 NE LT Ew Fo Fn El. pose proof HJ as (Wr & Fl & Big).
  split; [|split].
  - rewrite Ew. eapply wrep_ext; cycle 1.
    + apply call_ok; [apply call_ok; [exact Wr|exact I0]|].
      intros k. cbn [spec_call]. unfold set_seq. destruct (Nat.eqb_spec k i).
      * subst. rewrite remove_node_in. tauto.
      * intros I1. apply n0. eapply J_disj; eauto.
    + intros k. cbn [spec_call]. unfold set_seq. rewrite El.
      destruct (Nat.eqb_spec k j).
      * subst. destruct (Nat.eqb_spec j i); [congruence|]. reflexivity.
      * reflexivity.
  - intros k x. rewrite El. destruct (Nat.eqb_spec k j).
    + subst. intros [<-|I1]; [exact Fn|].
      destruct (Nat.eq_dec x n) as [->|D]; [exact Fn|]. destruct (Fo x D) as (-> & -> & ->). apply Fl. exact I1.
    + destruct (Nat.eqb_spec k i).
      * subst. rewrite remove_node_in. intros [I1 D]. destruct (Fo x D) as (-> & -> & ->). now apply Fl.
      * intros I1. assert (D : x <> n). { intros ->. apply n1. eapply J_disj; eauto. }
        destruct (Fo x D) as (-> & -> & ->). now apply Fl.
  - intros k Hk. rewrite El. destruct (Nat.eqb_spec k j); [lia|]. destruct (Nat.eqb_spec k i).
    + subst. rewrite (Big _ Hk) in I0. destruct I0.
    + auto.
Qed.

Lemma remove_last a n : NoDup (a ++ [n]) -> remove_node (a ++ [n]) n = a.
Proof.
  intros ND. apply nodup_mid in ND as (N1 & N2 & _). rewrite remove_node_mid by auto. apply app_nil_r.
Qed.

(** What no list operation touches, and the flags of outsiders. *)
Definition frame (s s' : mm) : Prop :=
  inMM s' = inMM s /\ utime s' = utime s /\ cfg s' = cfg s /\ tailTrack s' = tailTrack s /\
  refresh s' = refresh s /\ nextReconf s' = nextReconf s /\ cnt s' = cnt s.
Definition outs (l : seqs) (s s' : mm) : Prop :=
  forall n, unlinked_out l n -> hot s' n = hot s n /\ cold s' n = cold s n /\ tailf s' n = tailf s n.
Lemma frame_refl s : frame s s. Proof. repeat split. Qed.
Lemma frame_trans a b c : frame a b -> frame b c -> frame a c.
Proof. unfold frame. intros. intuition congruence. Qed.
Lemma outs_trans l l' a b c : (forall n, unlinked_out l n -> unlinked_out l' n) ->
  outs l a b -> outs l' b c -> outs l a c.
Proof.
  intros E A B n U. destruct (A n U) as (<- & <- & <-). apply E in U. exact (B n U).
Qed.

Lemma updb_same f n v : updb f n v n = v.
Proof. unfold updb. now rewrite Nat.eqb_refl. Qed.
Lemma updb_other f n v x : x <> n -> updb f n v x = f x.
Proof. unfold updb. intros. destruct (Nat.eqb_spec x n); [contradiction|auto]. Qed.

Lemma L5_out a b c d e n : unlinked_out (L5 a b c d e) n <-> ~ In n (a ++ b ++ c ++ d ++ e).
Proof.
  unfold unlinked_out. split.
  - intros U X. rewrite !in_app_iff in X.
    destruct X as [X|[X|[X|[X|X]]]]; [apply (U 0)|apply (U 1)|apply (U 2)|apply (U 3)|apply (U 4)]; exact X.
  - intros X i I0. apply X. rewrite !in_app_iff.
    destruct i as [|[|[|[|[|i]]]]]; simpl in I0; tauto.
Qed.

Lemma shrinkWarm_ok ew : forall fuel s a b c d e, J s (L5 a b c d e) -> length a + length b - ew <= fuel ->
  exists s', shrinkWarm fuel ew s = Some s' /\
    J s' (L5 (firstn ew a) (firstn (ew - length a) b) c (skipn ew (a ++ b) ++ d) e) /\
    frame s s' /\ outs (L5 a b c d e) s s'.
Proof.
  induction fuel as [|f IH]; intros s a b c d e HJ F;
    cbn [shrinkWarm]; rewrite !(J_size _ _ _ HJ); unfold getTailLru, Warm, WarmTail, Hot, Cold, ColdTail in *; cbn [L5 Nat.eqb];
    destruct (Nat.ltb_spec ew (length a + length b)) as [Lt|Ge].
  1: lia.
  1,3: exists s; split; [reflexivity|]; rewrite !firstn_all2, skipn_all2 by (rewrite ?app_length; lia);
       split; [exact HJ|]; split; [apply frame_refl|]; intros n _; auto.
  change (L5 a b c d e 1) with b.
  destruct (list_snoc b) as [->|(b' & n & ->)].
  - (* from Warm *)
    cbn [length Nat.ltb Nat.leb]. rewrite (J_tail _ _ _ HJ). cbn [L5].
    destruct (list_snoc a) as [->|(a' & n & ->)]; [simpl in Lt; lia|].
    rewrite lastOr_snoc. cbn [Nat.eqb orb].
    match goal with |- context [shrinkWarm f ew ?t] => set (s1 := t) end.
    assert (HJ1 : J s1 (L5 a' [] c (n :: d) e)).
    { refine (mv s _ 0 3 n _ s1 HJ _ _ _ eq_refl _ _ _); try lia.
      - cbn. apply in_or_app. simpl. auto.
      - intros x D. subst s1. cbn [hot cold tailf setCold lcall setWd]. rewrite updb_other by auto. auto.
      - assert (I0 : In n (L5 (a' ++ [n]) [] c d e 0)) by (cbn; apply in_or_app; simpl; auto).
        destruct HJ as (_ & Fl & _). destruct (Fl _ _ I0) as (E1 & E2 & E3).
        subst s1. cbn [hot cold tailf setCold lcall setWd]. rewrite updb_same. rewrite E1, E3. auto.
      - pose proof (J_nodup _ _ 0 HJ) as ND. cbn in ND. intros [|[|[|[|[|k]]]]]; cbn [L5 Nat.eqb]; auto.
        now rewrite remove_last. }
    destruct (IH s1 _ _ _ _ _ HJ1) as (s' & E & HJ' & Fr & Ou).
    { rewrite app_length in F. simpl in *. lia. }
    exists s'. split; [exact E|]. rewrite app_length in Lt. simpl in Lt.
    rewrite !app_nil_r in *.
    replace (firstn ew (a' ++ [n])) with (firstn ew a').
    2: { rewrite firstn_app. replace (ew - length a') with 0 by lia. now rewrite app_nil_r. }
    rewrite skipn_app. replace (ew - length a') with 0 by lia. cbn [skipn]. rewrite <- app_assoc. cbn [app].
    rewrite !firstn_nil in *.
    split; [exact HJ'|]. split; [exact (frame_trans _ s1 _ (frame_refl _) Fr)|].
    refine (outs_trans _ (L5 a' [] c (n :: d) e) s s1 s' _ _ Ou).
    + intros x. rewrite !L5_out. intros X Y. apply X. clear -Y. rewrite !in_app_iff in *; simpl in *; rewrite ?in_app_iff in *. tauto.
    + intros x U. assert (D : x <> n).
      { intros ->. apply (U 0). cbn. apply in_or_app. simpl. auto. }
      subst s1. cbn [hot cold tailf setCold lcall setWd]. rewrite updb_other by auto. auto.
  - (* from WarmTail *)
    rewrite app_length. cbn [length]. replace (0 <? length b' + 1) with true by (symmetry; apply Nat.ltb_lt; lia).
    rewrite (J_tail _ _ _ HJ). cbn [L5]. rewrite lastOr_snoc. cbn [Nat.eqb orb].
    match goal with |- context [shrinkWarm f ew ?t] => set (s1 := t) end.
    assert (HJ1 : J s1 (L5 a b' c (n :: d) e)).
    { refine (mv s _ 1 3 n _ s1 HJ _ _ _ eq_refl _ _ _); try lia.
      - cbn. apply in_or_app. simpl. auto.
      - intros x D. subst s1. cbn [hot cold tailf setCold setTail lcall setWd]. rewrite !updb_other by auto. auto.
      - assert (I0 : In n (L5 a (b' ++ [n]) c d e 1)) by (cbn; apply in_or_app; simpl; auto).
        destruct HJ as (_ & Fl & _). destruct (Fl _ _ I0) as (E1 & E2 & E3).
        subst s1. cbn [hot cold tailf setCold setTail lcall setWd]. rewrite !updb_same. rewrite E1. auto.
      - pose proof (J_nodup _ _ 1 HJ) as ND. cbn in ND. intros [|[|[|[|[|k]]]]]; cbn [L5 Nat.eqb]; auto.
        now rewrite remove_last. }
    destruct (IH s1 _ _ _ _ _ HJ1) as (s' & E & HJ' & Fr & Ou).
    { rewrite app_length in F. simpl in *. lia. }
    exists s'. split; [exact E|]. rewrite app_length in Lt. simpl in Lt.
    replace (firstn (ew - length a) (b' ++ [n])) with (firstn (ew - length a) b').
    2: { rewrite (firstn_app _ b'). replace (ew - length a - length b') with 0 by lia. now rewrite app_nil_r. }
    replace (skipn ew (a ++ b' ++ [n]) ++ d) with (skipn ew (a ++ b') ++ n :: d).
    2: { rewrite app_assoc, (skipn_app ew (a ++ b')). rewrite app_length.
         replace (ew - (length a + length b')) with 0 by lia. cbn [skipn]. now rewrite <- app_assoc. }
    split; [exact HJ'|]. split; [exact (frame_trans _ s1 _ (frame_refl _) Fr)|].
    refine (outs_trans _ (L5 a b' c (n :: d) e) s s1 s' _ _ Ou).
    + intros x. rewrite !L5_out. intros X Y. apply X. clear -Y. rewrite !in_app_iff in *; simpl in *; rewrite ?in_app_iff in *. tauto.
    + intros x U. assert (D : x <> n).
      { intros ->. apply (U 1). cbn. apply in_or_app. simpl. auto. }
      subst s1. cbn [hot cold tailf setCold setTail lcall setWd]. rewrite !updb_other by auto. auto.
Qed.

Lemma shrinkHot_ok eh : forall fuel s a b c d e, J s (L5 a b c d e) -> length c - eh <= fuel ->
  exists s', shrinkHot fuel eh s = Some s' /\
    J s' (L5 a b (firstn eh c) (skipn eh c ++ d) e) /\
    frame s s' /\ outs (L5 a b c d e) s s'.
Proof.
  induction fuel as [|f IH]; intros s a b c d e HJ F;
    cbn [shrinkHot]; rewrite !(J_size _ _ _ HJ); unfold getTailLru, Warm, WarmTail, Hot, Cold, ColdTail in *; cbn [L5 Nat.eqb];
    destruct (Nat.ltb_spec eh (length c)) as [Lt|Ge].
  1: lia.
  1,3: exists s; split; [reflexivity|]; rewrite !firstn_all2, skipn_all2 by (rewrite ?app_length; lia);
       split; [exact HJ|]; split; [apply frame_refl|]; intros n _; auto.
  rewrite (J_tail _ _ _ HJ). cbn [L5].
  destruct (list_snoc c) as [->|(c' & n & ->)]; [simpl in Lt; lia|].
  rewrite lastOr_snoc.
  match goal with |- context [shrinkHot f eh ?t] => set (s1 := t) end.
  assert (HJ1 : J s1 (L5 a b c' (n :: d) e)).
  { refine (mv s _ 2 3 n _ s1 HJ _ _ _ eq_refl _ _ _); try lia.
    - cbn. apply in_or_app. simpl. auto.
    - intros x D. subst s1. cbn [hot cold tailf setCold setHot lcall setWd]. rewrite !updb_other by auto. auto.
    - assert (I0 : In n (L5 a b (c' ++ [n]) d e 2)) by (cbn; apply in_or_app; simpl; auto).
      destruct HJ as (_ & Fl & _). destruct (Fl _ _ I0) as (E1 & E2 & E3).
      subst s1. cbn [hot cold tailf setCold setHot lcall setWd]. rewrite !updb_same. rewrite E3. auto.
    - pose proof (J_nodup _ _ 2 HJ) as ND. cbn in ND. intros [|[|[|[|[|k]]]]]; cbn [L5 Nat.eqb]; auto.
      now rewrite remove_last. }
  destruct (IH s1 _ _ _ _ _ HJ1) as (s' & E & HJ' & Fr & Ou).
  { rewrite app_length in F. simpl in *. lia. }
  exists s'. split; [exact E|]. rewrite app_length in Lt. simpl in Lt.
  replace (firstn eh (c' ++ [n])) with (firstn eh c').
  2: { rewrite firstn_app. replace (eh - length c') with 0 by lia. now rewrite app_nil_r. }
  rewrite skipn_app. replace (eh - length c') with 0 by lia. cbn [skipn]. rewrite <- app_assoc. cbn [app].
  split; [exact HJ'|]. split; [exact (frame_trans _ s1 _ (frame_refl _) Fr)|].
  refine (outs_trans _ (L5 a b c' (n :: d) e) s s1 s' _ _ Ou).
  + intros x. rewrite !L5_out. intros X Y. apply X. clear -Y. rewrite !in_app_iff in *; simpl in *; rewrite ?in_app_iff in *. tauto.
  + intros x U. assert (D : x <> n).
    { intros ->. apply (U 2). cbn. apply in_or_app. simpl. auto. }
    subst s1. cbn [hot cold tailf setCold setHot lcall setWd]. rewrite !updb_other by auto. auto.
Qed.

(** The tail part grows by taking the last elements of the main part. *)
Definition cut (k : nat) (x y : list node) : nat := length x - (k - length y).

Lemma adjustCold_ok : forall fuel s a b c d e, J s (L5 a b c d e) -> length d <= fuel ->
  let k := cut (tailSize (cfg s)) d e in
  exists s', adjustTail fuel Cold s = Some s' /\
    J s' (L5 a b c (firstn k d) (skipn k d ++ e)) /\
    frame s s' /\ outs (L5 a b c d e) s s'.
Proof.
  induction fuel as [|f IH]; intros s a b c d e HJ F k; subst k; unfold cut;
    cbn [adjustTail]; rewrite (J_tail _ _ _ HJ), !(J_size _ _ _ HJ); unfold getTailLru, Warm, WarmTail, Hot, Cold, ColdTail in *; cbn [L5 Nat.eqb].
  - destruct d; [|simpl in F; lia]. cbn [lastOr]. exists s. split; [reflexivity|]. simpl firstn. cbn.
    rewrite ?firstn_nil, ?skipn_nil. split; [exact HJ|]. split; [apply frame_refl|]. intros n _; auto.
  - destruct (list_snoc d) as [->|(d' & n & ->)].
    { cbn [lastOr]. exists s. split; [reflexivity|]. cbn.
      rewrite ?firstn_nil, ?skipn_nil. split; [exact HJ|]. split; [apply frame_refl|]. intros n _; auto. }
    rewrite lastOr_snoc. rewrite app_length. cbn [length].
    destruct (Nat.leb_spec (length e + 1) (tailSize (cfg s))) as [Le|Gt].
    2: { exists s. split; [reflexivity|]. rewrite firstn_all2, skipn_all2 by (rewrite ?app_length; simpl; lia).
         split; [exact HJ|]. split; [apply frame_refl|]. intros x _; auto. }
    match goal with |- context [adjustTail f 3 ?t] => set (s1 := t) end.
    assert (HJ1 : J s1 (L5 a b c d' (n :: e))).
    { refine (mv s _ 3 4 n _ s1 HJ _ _ _ eq_refl _ _ _); try lia.
      - cbn. apply in_or_app. simpl. auto.
      - intros x D. subst s1. cbn [hot cold tailf setTail lcall setWd]. rewrite !updb_other by auto. auto.
      - assert (I0 : In n (L5 a b c (d' ++ [n]) e 3)) by (cbn; apply in_or_app; simpl; auto).
        destruct HJ as (_ & Fl & _). destruct (Fl _ _ I0) as (E1 & E2 & E3).
        subst s1. cbn [hot cold tailf setTail lcall setWd]. rewrite !updb_same. rewrite E1, E2. auto.
      - pose proof (J_nodup _ _ 3 HJ) as ND. cbn in ND. intros [|[|[|[|[|k]]]]]; cbn [L5 Nat.eqb]; auto.
        now rewrite remove_last. }
    destruct (IH s1 _ _ _ _ _ HJ1) as (s' & E & HJ' & Fr & Ou).
    { rewrite app_length in F. simpl in *. lia. }
    exists s'. split; [exact E|].
    assert (Ec : cfg s1 = cfg s) by reflexivity. rewrite Ec in HJ'. unfold cut in HJ'. cbn [length] in HJ'.
    replace (length d' + 1 - (tailSize (cfg s) - length e)) with (length d' - (tailSize (cfg s) - S (length e))) by lia.
    set (m := length d' - (tailSize (cfg s) - S (length e))) in *.
    assert (m <= length d') by (subst m; lia).
    replace (firstn m (d' ++ [n])) with (firstn m d').
    2: { rewrite firstn_app. replace (m - length d') with 0 by lia. now rewrite app_nil_r. }
    rewrite skipn_app. replace (m - length d') with 0 by lia. cbn [skipn]. rewrite <- app_assoc. cbn [app].
    split; [exact HJ'|]. split; [exact (frame_trans _ s1 _ (frame_refl _) Fr)|].
    refine (outs_trans _ (L5 a b c d' (n :: e)) s s1 s' _ _ Ou).
    + intros x. rewrite !L5_out. intros X Y. apply X. clear -Y. rewrite !in_app_iff in *; simpl in *; rewrite ?in_app_iff in *. tauto.
    + intros x U. assert (D : x <> n).
      { intros ->. apply (U 3). cbn. apply in_or_app. simpl. auto. }
      subst s1. cbn [hot cold tailf setTail lcall setWd]. rewrite !updb_other by auto. auto.
Qed.

Lemma adjustWarm_ok : forall fuel s a b c d e, J s (L5 a b c d e) -> length a <= fuel ->
  let k := cut (tailSize (cfg s)) a b in
  exists s', adjustTail fuel Warm s = Some s' /\
    J s' (L5 (firstn k a) (skipn k a ++ b) c d e) /\
    frame s s' /\ outs (L5 a b c d e) s s'.
Proof.
  induction fuel as [|f IH]; intros s a b c d e HJ F k; subst k; unfold cut;
    cbn [adjustTail]; rewrite (J_tail _ _ _ HJ), !(J_size _ _ _ HJ); unfold getTailLru, Warm, WarmTail, Hot, Cold, ColdTail in *; cbn [L5 Nat.eqb].
  - destruct a; [|simpl in F; lia]. cbn [lastOr]. exists s. split; [reflexivity|]. simpl firstn. cbn.
    rewrite ?firstn_nil, ?skipn_nil. split; [exact HJ|]. split; [apply frame_refl|]. intros n _; auto.
  - destruct (list_snoc a) as [->|(a' & n & ->)].
    { cbn [lastOr]. exists s. split; [reflexivity|]. cbn.
      rewrite ?firstn_nil, ?skipn_nil. split; [exact HJ|]. split; [apply frame_refl|]. intros n _; auto. }
    rewrite lastOr_snoc. rewrite app_length. cbn [length].
    destruct (Nat.leb_spec (length b + 1) (tailSize (cfg s))) as [Le|Gt].
    2: { exists s. split; [reflexivity|]. rewrite firstn_all2, skipn_all2 by (rewrite ?app_length; simpl; lia).
         split; [exact HJ|]. split; [apply frame_refl|]. intros x _; auto. }
    match goal with |- context [adjustTail f 0 ?t] => set (s1 := t) end.
    assert (HJ1 : J s1 (L5 a' (n :: b) c d e)).
    { refine (mv s _ 0 1 n _ s1 HJ _ _ _ eq_refl _ _ _); try lia.
      - cbn. apply in_or_app. simpl. auto.
      - intros x D. subst s1. cbn [hot cold tailf setTail lcall setWd]. rewrite !updb_other by auto. auto.
      - assert (I0 : In n (L5 (a' ++ [n]) b c d e 0)) by (cbn; apply in_or_app; simpl; auto).
        destruct HJ as (_ & Fl & _). destruct (Fl _ _ I0) as (E1 & E2 & E3).
        subst s1. cbn [hot cold tailf setTail lcall setWd]. rewrite !updb_same. rewrite E1, E2. auto.
      - pose proof (J_nodup _ _ 0 HJ) as ND. cbn in ND. intros [|[|[|[|[|k]]]]]; cbn [L5 Nat.eqb]; auto.
        now rewrite remove_last. }
    destruct (IH s1 _ _ _ _ _ HJ1) as (s' & E & HJ' & Fr & Ou).
    { rewrite app_length in F. simpl in *. lia. }
    exists s'. split; [exact E|].
    assert (Ec : cfg s1 = cfg s) by reflexivity. rewrite Ec in HJ'. unfold cut in HJ'. cbn [length] in HJ'.
    replace (length a' + 1 - (tailSize (cfg s) - length b)) with (length a' - (tailSize (cfg s) - S (length b))) by lia.
    set (m := length a' - (tailSize (cfg s) - S (length b))) in *.
    assert (m <= length a') by (subst m; lia).
    replace (firstn m (a' ++ [n])) with (firstn m a').
    2: { rewrite firstn_app. replace (m - length a') with 0 by lia. now rewrite app_nil_r. }
    rewrite skipn_app. replace (m - length a') with 0 by lia. cbn [skipn]. rewrite <- app_assoc. cbn [app].
    split; [exact HJ'|]. split; [exact (frame_trans _ s1 _ (frame_refl _) Fr)|].
    refine (outs_trans _ (L5 a' (n :: b) c d e) s s1 s' _ _ Ou).
    + intros x. rewrite !L5_out. intros X Y. apply X. clear -Y. rewrite !in_app_iff in *; simpl in *; rewrite ?in_app_iff in *. tauto.
    + intros x U. assert (D : x <> n).
      { intros ->. apply (U 0). cbn. apply in_or_app. simpl. auto. }
      subst s1. cbn [hot cold tailf setTail lcall setWd]. rewrite !updb_other by auto. auto.
Qed.

Lemma J_total s a b c d e : J s (L5 a b c d e) ->
  total s = length a + length b + length c + length d + length e.
Proof. intros HJ. unfold total. rewrite !(J_size _ _ _ HJ). reflexivity. Qed.
