(** Proofs for C05. *)
From Verif Require Import Bytes DList_model DList_spec DList_proofs MMLru_model MMLru_spec.

(** The insertion point machinery is consistent with the split [A ++ T] of the list. *)
Definition core (s : lru) (A T : list node) : Prop :=
  rep (hp s) (dl s) (A ++ T) /\ (forall x, tailm s x = true <-> In x T) /\
  ip s = firstOr T None /\ tailSize s = length T.

Lemma updb_spec f n v x : updb f n v x = if x =? n then v else f x.
Proof. reflexivity. Qed.

Lemma growLoop_ok h d e : forall fuel A x B m,
  rep h d (A ++ x :: B) -> (forall y, m y = true <-> In y (x :: B)) ->
  length A < fuel ->
  exists A' x' B' m', growLoop fuel h d e m x (length (x :: B)) = Some (m', x', length (x' :: B')) /\
    A ++ x :: B = A' ++ x' :: B' /\ (forall y, m' y = true <-> In y (x' :: B')) /\
    length (x' :: B') = Nat.max (length (x :: B)) (Nat.min e (length (A ++ x :: B))).
Proof.
  induction fuel as [|f IH]; intros A x B m R M F; [lia|].
  pose proof R as (ND & Sg & H & T & Z).
  assert (Lh : isPtr (head d) x = match A with [] => true | _ => false end).
  { rewrite H. destruct A as [|a A]; simpl; [apply Nat.eqb_refl|].
    destruct (nodup_mid _ _ _ ND) as (xa & _). destruct (Nat.eqb_spec a x); auto.
    subst. exfalso. apply xa. now left. }
  cbn [growLoop]. rewrite Lh.
  destruct (Nat.ltb_spec (length (x :: B)) e) as [L|L].
  - destruct (list_snoc A) as [->|(A' & p & ->)].
    + simpl andb. exists [], x, B, m. repeat split; auto; try (apply M).
      cbn [app]. lia.
    + replace (match A' ++ [p] with [] => true | _ :: _ => false end) with false by (destruct A'; reflexivity).
      simpl andb. destruct (seg_mid _ _ _ _ _ _ Sg) as [P _]. rewrite P, lastOr_snoc.
      replace ((A' ++ [p]) ++ x :: B) with (A' ++ p :: x :: B) in * by (rewrite <- app_assoc; reflexivity).
      destruct (IH A' p (x :: B) (updb m p true)) as (A2 & x2 & B2 & m2 & E1 & E2 & E3 & E4); auto.
      * intros y. rewrite updb_spec. destruct (Nat.eqb_spec y p).
        { subst. split; [left; auto|auto]. }
        { rewrite M. split; [right; auto|]. intros [E|I]; [congruence|auto]. }
      * rewrite app_length in F. simpl in F. lia.
      * exists A2, x2, B2, m2. split; [exact E1|]. split; [auto|]. split; [auto|].
        rewrite E4. rewrite !app_length. cbn [length] in *. lia.
  - exists A, x, B, m. repeat split; auto; try (apply M). lia.
Qed.

Lemma shrinkLoop_ok h d e : forall fuel A x B m,
  rep h d (A ++ x :: B) -> (forall y, m y = true <-> In y (x :: B)) ->
  length B < fuel ->
  exists A' x' B' m', shrinkLoop fuel h d e m x (length (x :: B)) = Some (m', x', length (x' :: B')) /\
    A ++ x :: B = A' ++ x' :: B' /\ (forall y, m' y = true <-> In y (x' :: B')) /\
    length (x' :: B') = Nat.min (length (x :: B)) (Nat.max 1 e).
Proof.
  induction fuel as [|f IH]; intros A x B m R M F; [lia|].
  pose proof R as (ND & Sg & H & T & Z). destruct (nodup_mid _ _ _ ND) as (xa & xb & _).
  assert (Lt : isPtr (tail d) x = match B with [] => true | _ => false end).
  { rewrite T, lastOr_app. simpl lastOr. destruct (list_snoc B) as [->|(B' & y & ->)].
    - simpl. apply Nat.eqb_refl.
    - rewrite lastOr_snoc. replace (match B' ++ [y] with [] => true | _ => false end) with false by (destruct B'; reflexivity).
      apply isPtr_false. intros E. inversion E; subst. apply xb. apply in_or_app; right; left; auto. }
  cbn [shrinkLoop]. rewrite Lt.
  destruct (Nat.ltb_spec e (length (x :: B))) as [L|L].
  - destruct B as [|y B].
    + simpl andb. exists A, x, [], m. repeat split; auto; try (apply M). cbn [length] in *. lia.
    + simpl andb. destruct (seg_mid _ _ _ _ _ _ Sg) as [_ Q]. rewrite Q. simpl firstOr.
      replace (length (x :: y :: B) - 1) with (length (y :: B)) by (simpl; lia).
      replace (A ++ x :: y :: B) with ((A ++ [x]) ++ y :: B) in * by (rewrite <- app_assoc; reflexivity).
      destruct (IH (A ++ [x]) y B (updb m x false)) as (A2 & x2 & B2 & m2 & E1 & E2 & E3 & E4); auto.
      * intros z. rewrite updb_spec. destruct (Nat.eqb_spec z x).
        { subst. split; [discriminate|]. intros I. exfalso; auto. }
        { rewrite M. split; [intros [E|I]; [congruence|auto]|right; auto]. }
      * simpl in F. lia.
      * exists A2, x2, B2, m2. split; [exact E1|]. split; [auto|]. split; [auto|].
        rewrite E4. cbn [length] in *. lia.
  - exists A, x, B, m. repeat split; auto; try (apply M). cbn [length] in *. lia.
Qed.

(** Everything but the insertion point fields is untouched. *)
Definition same_rest (s s' : lru) : Prop :=
  hp s' = hp s /\ dl s' = dl s /\ inMM s' = inMM s /\ accm s' = accm s /\ utime s' = utime s /\
  ipSpec s' = ipSpec s /\ refresh s' = refresh s /\ updOnWrite s' = updOnWrite s /\ updOnRead s' = updOnRead s.

Lemma div_pow_lt n k : 0 < k -> 1 < n -> n / 2 ^ k < n.
Proof.
  intros Hk Hn. apply Nat.div_lt; [lia|]. apply Nat.lt_le_trans with (2 ^ 1); [simpl; lia|].
  apply Nat.pow_le_mono_r; lia.
Qed.

Lemma updateIp_ok s A T : core s A T -> ipSpec s <> 0 ->
  exists s' A' T', updateIp s = Some s' /\ same_rest s s' /\ core s' A' T' /\
    A' ++ T' = A ++ T /\ length T' = target (ipSpec s) (A ++ T).
Proof.
  intros (R & M & I & Z) K. unfold updateIp.
  destruct (Nat.eqb_spec (ipSpec s) 0); [contradiction|].
  pose proof R as (ND & Sg & H & Tl & Zl).
  assert (X : exists s1 A1 T1, match ip s with
              | Some _ => s
              | None => match tail (dl s) with
                        | None => setIp s (tailm s) None 0
                        | Some t => setIp s (updb (tailm s) t true) (Some t) 1
                        end
              end = s1 /\ same_rest s s1 /\ core s1 A1 T1 /\ A1 ++ T1 = A ++ T /\
              (A1 ++ T1 <> [] -> T1 <> []) ).
  { rewrite I. destruct T as [|x T]; simpl firstOr.
    - rewrite Tl. rewrite app_nil_r in *. destruct (list_snoc A) as [->|(A' & t & ->)].
      + simpl lastOr. eexists _, [], []. split; [reflexivity|]. split; [repeat split|].
        split; [|split; [reflexivity|contradiction]].
        split; [exact R|]. split; [exact M|]. split; reflexivity.
      + rewrite lastOr_snoc. eexists _, A', [t]. split; [reflexivity|]. split; [repeat split|].
        split; [|split; [reflexivity|discriminate]].
        split; [exact R|]. split; [|split; reflexivity].
        intros y. cbn [tailm setIp]. rewrite updb_spec. destruct (Nat.eqb_spec y t).
        * subst. split; [left; auto|auto].
        * rewrite M. simpl. split; [tauto|]. intros [E|[]]. congruence.
    - eexists _, A, (x :: T). split; [reflexivity|]. split; [repeat split|].
      split; [|split; [reflexivity|discriminate]].
      split; [exact R|]. split; [exact M|]. split; [exact I|exact Z]. }
  destruct X as (s1 & A1 & T1 & E1 & SR & C1 & E2 & NE). rewrite E1. clear E1.
  destruct SR as (s1a & s1b & s1c & s1d & s1e & s1f & s1g & s1h & s1i).
  destruct C1 as (R1 & M1 & I1 & Z1). pose proof R1 as (ND1 & _ & _ & _ & Zl1).
  destruct (Nat.leb_spec (size (dl s1)) 1) as [L|L].
  - exists s1, A1, T1. split; [reflexivity|]. split; [repeat split; auto|]. split; [split; [exact R1|split; [exact M1|split; [exact I1|exact Z1]]]|].
    split; [auto|]. rewrite <- E2. rewrite Zl1 in L. unfold target.
    destruct (Nat.eqb_spec (length (A1 ++ T1)) 0) as [Z0|Z0].
    + rewrite app_length in Z0. lia.
    + assert (T1 <> []) by (apply NE; intros E; rewrite E in Z0; simpl in Z0; lia).
      assert (0 < length T1) by (destruct T1; simpl; [contradiction|lia]).
      assert (L1 : length (A1 ++ T1) = 1) by (rewrite app_length in *; lia).
      assert (T1l : length T1 = 1) by (rewrite app_length in L1; lia).
      rewrite L1, T1l. assert (1 / 2 ^ ipSpec s <= 1).
      { apply Nat.div_le_upper_bound; [apply Nat.pow_nonzero; lia|].
        assert (1 <= 2 ^ ipSpec s) by (apply Nat.neq_0_lt_0; apply Nat.pow_nonzero; lia). lia. }
      lia.
  - rewrite I1. destruct T1 as [|x T1].
    { exfalso. apply NE; auto. intros E. rewrite Zl1, E in L. simpl in L. lia. }
    simpl firstOr. rewrite Z1, Zl1.
    assert (Lh : length A1 < S (length (A1 ++ x :: T1))) by (rewrite app_length; lia).
    destruct (growLoop_ok (hp s1) (dl s1) (Nat.shiftr (length (A1 ++ x :: T1)) (ipSpec s1))
      (S (length (A1 ++ x :: T1))) A1 x T1 (tailm s1) R1 M1 Lh)
      as (A2 & x2 & B2 & m2 & G1 & G2 & G3 & G4).
    rewrite G1. rewrite G2 in R1.
    assert (Lh2 : length B2 < S (length (A1 ++ x :: T1))) by (rewrite G2, app_length; simpl; lia).
    destruct (shrinkLoop_ok (hp s1) (dl s1) (Nat.shiftr (length (A1 ++ x :: T1)) (ipSpec s1))
      (S (length (A1 ++ x :: T1))) A2 x2 B2 m2 R1 G3 Lh2)
      as (A3 & x3 & B3 & m3 & H1 & H2 & H3 & H4).
    rewrite H1. rewrite H2 in R1.
    eexists _, A3, (x3 :: B3). split; [reflexivity|]. split; [repeat split; auto|].
    split; [|split].
    + split; [exact R1|]. split; [exact H3|]. split; reflexivity.
    + congruence.
    + rewrite H4, G4. unfold target. rewrite <- E2, s1f.
      rewrite Nat.shiftr_div_pow2.
      set (N := length (A1 ++ x :: T1)) in *. rewrite Zl1 in L. fold N in L.
      assert (N / 2 ^ ipSpec s < N) by (apply div_pow_lt; lia).
      assert (1 <= length (x :: T1)) by (simpl; lia).
      destruct (Nat.eqb_spec N 0); [lia|]. lia.
Qed.

Lemma ensureNotIp_ok s A T n : core s A T -> In n (A ++ T) ->
  exists A' T', core (ensureNotIp s n) A' T' /\ A' ++ T' = A ++ T /\ same_rest s (ensureNotIp s n) /\
    (ip (ensureNotIp s n) <> Some n) /\
    (In n T' <-> In n T) /\ length T' = length T + (if isPtr (ip s) n then 1 else 0)
  \/ (A = [] /\ (exists B, T = n :: B) /\ ensureNotIp s n = setIp s (tailm s) None (tailSize s)).
Proof.
  intros (R & M & I & Z) Hn. unfold ensureNotIp.
  destruct (isPtr (ip s) n) eqn:E.
  - apply isPtr_spec in E. rewrite I in E. destruct T as [|x T]; [discriminate|].
    simpl in E. inversion E; subst x. clear E.
    pose proof R as (ND & Sg & _). destruct (seg_mid _ _ _ _ _ _ Sg) as [P _]. rewrite P.
    destruct (list_snoc A) as [->|(A' & p & ->)].
    + simpl lastOr. exists [], []. right. split; [auto|]. split; [eauto|reflexivity].
    + rewrite lastOr_snoc. exists A', (p :: n :: T). left.
      assert (EQ : (A' ++ [p]) ++ n :: T = A' ++ p :: n :: T) by (rewrite <- app_assoc; reflexivity).
      destruct (nodup_mid _ _ _ ND) as (na & _).
      split; [|split; [|split; [|split; [|split]]]].
      * split; [cbn [hp dl setIp]; rewrite <- EQ; exact R|]. split; [|split; [reflexivity|]].
        -- intros y. cbn [tailm setIp]. rewrite updb_spec. destruct (Nat.eqb_spec y p).
           ++ subst. split; [left; auto|auto].
           ++ rewrite M. split; [right; auto|]. intros [X|X]; [congruence|auto].
        -- cbn [tailSize setIp]. rewrite Z. reflexivity.
      * auto.
      * repeat split.
      * cbn [ip setIp]. intros X. inversion X; subst. apply na. apply in_or_app; right; left; auto.
      * simpl. tauto.
      * simpl. lia.
  - exists A, T. left. split; [split; [exact R|split; [exact M|split; [exact I|exact Z]]]|]. split; [auto|]. split; [repeat split|].
    split; [|split; [tauto|lia]]. intros X. rewrite X in E. simpl in E. rewrite Nat.eqb_refl in E. discriminate.
Qed.

(** After the insertion point is off [n] and [n] left the list, the split survives. *)
Lemma remove_mid_split A T n : NoDup (A ++ T) -> In n (A ++ T) ->
  (exists a b, A ++ T = a ++ n :: b) /\
  remove_node (A ++ T) n = remove_node A n ++ remove_node T n /\
  NoDup (remove_node (A ++ T) n) /\
  (In n T -> remove_node A n = A /\ S (length (remove_node T n)) = length T) /\
  (~ In n T -> remove_node T n = T /\ S (length (remove_node A n)) = length A).
Proof.
  intros ND I. split; [|split; [|split; [|split]]].
  - destruct (in_split _ _ I) as (a & b & E). eauto.
  - unfold remove_node. apply filter_app.
  - apply NoDup_filter. auto.
  - intros IT. destruct (in_split _ _ IT) as (a & b & E). subst T.
    rewrite app_assoc in ND. destruct (nodup_mid _ _ _ ND) as (na & nb & _).
    rewrite in_app_iff in na. split; [apply remove_node_notin; tauto|].
    rewrite remove_node_mid by tauto. rewrite !app_length. simpl. lia.
  - intros IT. split; [apply remove_node_notin; auto|].
    apply in_app_or in I as [I|I]; [|contradiction].
    destruct (in_split _ _ I) as (a & b & E). subst A. rewrite <- app_assoc in ND. simpl in ND.
    destruct (nodup_mid _ _ _ ND) as (na & nb & _). rewrite in_app_iff in nb.
    rewrite remove_node_mid by tauto. rewrite !app_length. simpl. lia.
Qed.

Lemma firstOr_remove T n : firstOr T None <> Some n ->
  firstOr (remove_node T n) None = firstOr T None.
Proof.
  destruct T as [|x T]; simpl; auto. intros H. destruct (Nat.eqb_spec x n); [subst; exfalso; apply H; auto|reflexivity].
Qed.

Lemma in_remove_node x l n : In x (remove_node l n) <-> In x l /\ x <> n.
Proof.
  unfold remove_node. rewrite filter_In. split; intros [A B]; split; auto.
  - destruct (Nat.eqb_spec x n); [discriminate|auto].
  - destruct (Nat.eqb_spec x n); [contradiction|auto].
Qed.

(** ** The relation to the specification *)
Definition rel (s : lru) (p : spec) : Prop :=
  exists A T, core s A T /\ order p = A ++ T /\ tlen p = length T /\
    (forall x, inMM s x = true <-> In x (A ++ T)) /\
    (forall x, stamp p x = utime s x) /\ (forall x, seen p x = accm s x) /\
    k_of p = ipSpec s /\ ref_of p = refresh s /\ w_of p = updOnWrite s /\ r_of p = updOnRead s /\
    (ipSpec s = 0 -> T = []) /\ (A = [] -> length T <= 1).

Lemma mem_spec n l : mem n l = true <-> In n l.
Proof.
  unfold mem. rewrite existsb_exists. split.
  - intros (x & H & E). apply Nat.eqb_eq in E. subst. auto.
  - intros H. exists n. split; auto. apply Nat.eqb_refl.
Qed.
Lemma mem_bool n l (b : bool) : (b = true <-> In n l) -> mem n l = b.
Proof.
  intros H. destruct (mem n l) eqn:E, b; auto.
  - apply mem_spec in E. apply H in E. auto.
  - assert (X : In n l) by (apply H; auto). apply mem_spec in X. congruence.
Qed.
Lemma tail_part_app A T : tail_part (length T) (A ++ T) = T.
Proof.
  unfold tail_part. rewrite app_length. replace (length A + length T - length T) with (length A) by lia.
  rewrite skipn_app, skipn_all, Nat.sub_diag. reflexivity.
Qed.
Lemma front_part_app A T : front_part (length T) (A ++ T) = A.
Proof.
  unfold front_part. rewrite app_length. replace (length A + length T - length T) with (length A) by lia.
  rewrite firstn_app, firstn_all, Nat.sub_diag. simpl. apply app_nil_r.
Qed.

(** Closing a critical section that changed the list with (or without) updateIp. *)
Lemma target_bound k l : 0 < k -> target k l <= 1 \/ target k l < length l.
Proof.
  intros K. unfold target. destruct (Nat.eqb_spec (length l) 0); [lia|].
  destruct (Nat.eq_dec (length l) 1) as [E|E].
  - rewrite E. left. assert (1 / 2 ^ k <= 1).
    { apply Nat.div_le_upper_bound; [apply Nat.pow_nonzero; lia|].
      assert (1 <= 2 ^ k) by (apply Nat.neq_0_lt_0; apply Nat.pow_nonzero; lia). lia. }
    lia.
  - assert (length l / 2 ^ k < length l) by (apply div_pow_lt; lia). lia.
Qed.

Lemma updateIp_rel s A T : core s A T -> (ipSpec s = 0 -> T = []) ->
  exists s' A' T', updateIp s = Some s' /\ same_rest s s' /\ core s' A' T' /\ A' ++ T' = A ++ T /\
    length T' = (if ipSpec s =? 0 then length T else target (ipSpec s) (A ++ T)) /\
    (ipSpec s = 0 -> T' = []) /\ (A' = [] -> length T' <= 1).
Proof.
  intros C K. destruct (Nat.eqb_spec (ipSpec s) 0) as [E|E].
  - exists s, A, T. unfold updateIp. rewrite E. simpl. split; [auto|]. split; [repeat split|].
    split; [auto|]. split; [auto|]. split; [auto|]. split; [auto|]. rewrite K by auto. simpl. lia.
  - destruct (updateIp_ok s A T C E) as (s' & A' & T' & H1 & H2 & H3 & H4 & H5).
    exists s', A', T'. split; [auto|]. split; [auto|]. split; [auto|]. split; [auto|]. split; [auto|].
    split; [contradiction|]. intros ->. simpl in H4.
    destruct (target_bound (ipSpec s) (A ++ T)); [lia|lia|]. rewrite H4 in H5 at 1. lia.
Qed.

Lemma add_ok s p n now : rel s p ->
  exists s' b, add s n now = Some (s', b) /\ rel s' (fst (spec_exec p (MAdd n now))) /\
    snd (spec_exec p (MAdd n now)) = MBool b.
Proof.
  intros (A & T & C & O & TL & IM & ST & SE & K & RF & WW & RR & K0 & B1).
  unfold add. cbn [spec_exec].
  rewrite O. rewrite (mem_bool n (A ++ T) (inMM s n)) by apply IM.
  destruct (inMM s n) eqn:In0.
  - exists s, false. split; [reflexivity|]. split; [|reflexivity]. cbn [fst].
    exists A, T. repeat (split; [assumption|]). assumption.
  - assert (NI : ~ In n (A ++ T)) by (intros X; apply IM in X; congruence).
    assert (Sp : (if ipSpec s =? 0 then None else ip s) = firstOr T None).
    { destruct C as (_ & _ & I & _). destruct (Nat.eqb_spec (ipSpec s) 0) as [E|E]; [|auto].
      rewrite K0 by auto. reflexivity. }
    rewrite Sp. pose proof C as (R & M & I & Z).
    assert (X : exists A2, exists s1,
       match firstOr T None with
              | None => setList s (linkAtHead (hp s) (dl s) n)
              | Some p => setList s (insertBefore (hp s) (dl s) p n)
              end = s1 /\ core s1 A2 T /\
       (if tlen p =? 0 then n :: A ++ T else front_part (tlen p) (A ++ T) ++ n :: tail_part (tlen p) (A ++ T)) = A2 ++ T /\
       (forall x, In x (A2 ++ T) <-> x = n \/ In x (A ++ T)) /\
       inMM s1 = inMM s /\ accm s1 = accm s /\ utime s1 = utime s /\ ipSpec s1 = ipSpec s /\
       refresh s1 = refresh s /\ updOnWrite s1 = updOnWrite s /\ updOnRead s1 = updOnRead s).
    { destruct T as [|x T]; simpl firstOr.
      - exists (n :: A). eexists. split; [reflexivity|].
        rewrite TL. simpl Nat.eqb. cbv iota.
        pose proof (linkAtHead_ok _ _ _ n R NI) as L. destruct (linkAtHead (hp s) (dl s) n) as [h' d'].
        destruct L as [L _]. split.
        + split; [exact L|]. split; [exact M|]. split; [exact I|exact Z].
        + split; [reflexivity|]. split; [|repeat split]. intros y. simpl. split; intuition.
      - exists (A ++ [n]). eexists. split; [reflexivity|].
        rewrite TL. simpl (length (x :: T) =? 0). cbv iota. rewrite front_part_app, tail_part_app.
        pose proof (insertBefore_ok _ _ _ _ _ n R NI) as L. destruct (insertBefore (hp s) (dl s) x n) as [h' d'].
        destruct L as [L _].
        assert (EQ : (A ++ [n]) ++ x :: T = A ++ n :: x :: T) by (rewrite <- app_assoc; reflexivity).
        rewrite EQ. split.
        + split; [rewrite EQ; exact L|]. split; [exact M|]. split; [exact I|exact Z].
        + split; [reflexivity|]. split; [|repeat split].
          intros y. rewrite !in_app_iff. simpl. intuition. }
    destruct X as (A2 & s1 & E1 & C1 & E2 & E3 & F1 & F2 & F3 & F4 & F5 & F6 & F7). rewrite E1. clear E1.
    set (s2 := setAcc (setTime (setInMM s1 n true) n now) n false).
    assert (C2 : core s2 A2 T) by exact C1.
    assert (K2 : ipSpec s2 = 0 -> T = []) by (intros X; apply K0; rewrite <- F4; exact X).
    destruct (updateIp_rel s2 A2 T C2 K2) as (s3 & A3 & T3 & U1 & U2 & U3 & U4 & U5 & U6 & U7).
    rewrite U1. exists s3, true. split; [reflexivity|]. split; [|reflexivity].
    cbn [fst]. cbv zeta. rewrite E2.
    destruct U2 as (_ & _ & V1 & V2 & V3 & V4 & V5 & V6 & V7).
    exists A3, T3. split; [exact U3|]. cbn [with_seen with_stamp with_order order tlen stamp seen k_of ref_of w_of r_of].
    split; [congruence|]. split.
    { rewrite U5. unfold retarget. rewrite K. unfold s2; cbn [setAcc setTime setInMM ipSpec].
      rewrite F4, TL. reflexivity. }
    rewrite V1, V2, V3, V4, V5, V6, V7. unfold s2; cbn [setAcc setTime setInMM ipSpec inMM accm utime refresh updOnWrite updOnRead].
    rewrite F1, F2, F3, F4, F5, F6, F7. rewrite U4.
    split. { intros x. rewrite E3, updb_spec. destruct (Nat.eqb_spec x n); [subst; intuition|]. rewrite IM. intuition. }
    split. { intros x. unfold updt. destruct (x =? n); auto. }
    split. { intros x. unfold updb. destruct (x =? n); auto. }
    repeat (split; [assumption|]). split.
    { intros X. apply U6. unfold s2; cbn. congruence. }
    exact U7.
Qed.

Lemma removeLocked_ok s p n : rel s p -> In n (order p) ->
  exists s', removeLocked s n = Some s' /\ rel s' (spec_remove p n).
Proof.
  intros (A & T & C & O & TL & IM & ST & SE & K & RF & WW & RR & K0 & B1) HI.
  rewrite O in HI. unfold removeLocked, spec_remove. rewrite O, TL, tail_part_app.
  pose proof C as (R0 & M0 & I0 & Z0). pose proof R0 as (ND0 & _).
  (* the state before updateIp: list without n, consistent split *)
  assert (X : exists s4 A4 T4,
     (let s1 := ensureNotIp s n in
      let s2 := setList s1 (DList_model.remove (hp s1) (dl s1) n) in
      let s3 := setAcc s2 n false in
      if tailm s3 n then decTail s3 n else Some s3) = Some s4 /\
     core s4 A4 T4 /\ A4 ++ T4 = remove_node (A ++ T) n /\
     length T4 = (if mem n T then length T - 1 else length T) + (if isPtr (ip s) n then
        match A with [] => 0 | _ => 1 end else 0) /\
     inMM s4 = inMM s /\ accm s4 = updb (accm s) n false /\ utime s4 = utime s /\ ipSpec s4 = ipSpec s /\
     refresh s4 = refresh s /\ updOnWrite s4 = updOnWrite s /\ updOnRead s4 = updOnRead s).
  { destruct (ensureNotIp_ok s A T n C HI) as (A1 & T1 & [(C1 & E1 & SR & NI & INT & LT)|(EA & (B & ET) & EE)]).
    - cbv zeta. set (s1 := ensureNotIp s n) in *. clearbody s1.
      destruct SR as (a1 & a2 & a3 & a4 & a5 & a6 & a7 & a8 & a9).
      destruct C1 as (R1 & M1 & I1 & Z1). pose proof R1 as (ND1 & _).
      assert (HI1 : In n (A1 ++ T1)) by (rewrite E1; auto).
      destruct (remove_mid_split A1 T1 n ND1 HI1) as ((a & b & Eab) & RM & NDr & InT & NInT).
      rewrite Eab in R1. pose proof (remove_ok _ _ _ _ _ R1) as RO.
      assert (nab : ~ In n a /\ ~ In n b) by (rewrite Eab in ND1; apply nodup_mid in ND1; tauto).
      assert (Eab2 : a ++ b = remove_node (A1 ++ T1) n) by (rewrite Eab, remove_node_mid; tauto).
      rewrite Eab2 in RO.
      destruct (DList_model.remove (hp s1) (dl s1) n) as [h' d'].
      destruct RO as (R2 & N1 & N2 & _).
      cbn [setAcc setList tailm fst snd].
      destruct (tailm s1 n) eqn:TM.
      + pose proof (proj1 (M1 n) TM) as NT1. destruct (InT NT1) as [RA LTT].
        unfold decTail. cbn [tailSize setAcc setList].
        rewrite Z1. destruct T1 as [|t1 T1']; [destruct NT1|]. simpl length at 1.
        eexists _, (remove_node A1 n), (remove_node (t1 :: T1') n). split; [reflexivity|].
        split; [|split; [|split]].
        * split; [cbn [hp dl setIp setAcc setList]; rewrite <- RM; exact R2|].
          split; [|split].
          -- intros x. cbn [tailm setIp setAcc setList]. rewrite updb_spec, in_remove_node.
             destruct (Nat.eqb_spec x n); [subst; intuition discriminate|]. rewrite M1. intuition.
          -- cbn [ip setIp setAcc setList]. rewrite firstOr_remove; [exact I1|]. rewrite <- I1. exact NI.
          -- cbn [tailSize setIp setAcc setList]. cbn [length] in LTT. lia.
        * rewrite <- RM, E1. reflexivity.
        * assert (MT : mem n T = true) by (apply mem_spec; apply INT; exact NT1). rewrite MT.
          assert (PT : 0 < length T) by (apply mem_spec in MT; destruct T; [destruct MT|simpl; lia]).
          destruct (isPtr (ip s) n) eqn:IP; rewrite ?IP in LT.
          -- destruct A as [|a0 A0].
             ++ exfalso. apply isPtr_spec in IP. rewrite I0 in IP. destruct T as [|x T]; [discriminate|].
                simpl in IP. inversion IP; subst x.
                (* A = [] but the insertion point grew: contradiction on lengths *)
                simpl app in E1. assert (length (A1 ++ t1 :: T1') = length (n :: T)) by congruence.
                rewrite app_length in H. simpl in *. lia.
             ++ lia.
          -- lia.
        * cbn [setIp setAcc setList inMM accm utime ipSpec refresh updOnWrite updOnRead]. rewrite a4.
          repeat split; auto.
      + assert (NT1 : ~ In n T1) by (intros X; apply M1 in X; congruence).
        destruct (NInT NT1) as [RT LAA].
        eexists _, (remove_node A1 n), (remove_node T1 n). split; [reflexivity|].
        split; [|split; [|split]].
        * split; [cbn [hp dl setIp setAcc setList]; rewrite <- RM; exact R2|].
          rewrite RT. split; [|split].
          -- exact M1.
          -- exact I1.
          -- exact Z1.
        * rewrite <- RM, E1. reflexivity.
        * assert (MT : mem n T = false).
          { destruct (mem n T) eqn:E; auto. apply mem_spec in E. apply INT in E. contradiction. }
          rewrite MT, RT, LT. destruct (isPtr (ip s) n) eqn:IP; [|lia].
          exfalso. apply isPtr_spec in IP. rewrite I0 in IP. apply NT1, INT.
          destruct T; [discriminate|]. simpl in IP. inversion IP. left; auto.
        * cbn [setIp setAcc setList inMM accm utime ipSpec refresh updOnWrite updOnRead]. rewrite a4.
          repeat split; auto.
    - subst A T. simpl app in *. cbv zeta. rewrite EE. cbn [setIp hp dl].
      assert (B = []) by (specialize (B1 eq_refl); simpl in B1; destruct B; [auto|simpl in B1; lia]).
      subst B. pose proof (remove_ok _ _ [] n [] R0) as RO.
      destruct (DList_model.remove (hp s) (dl s) n) as [h' d']. destruct RO as (R2 & _).
      cbn [setAcc setList setIp tailm fst snd].
      assert (TM : tailm s n = true) by (apply M0; left; auto). rewrite TM.
      unfold decTail. cbn [tailSize setAcc setList setIp]. rewrite Z0. simpl length at 1. cbv iota.
      eexists _, [], []. split; [reflexivity|]. split; [|split; [|split]].
      + split; [exact R2|]. split; [|split; reflexivity].
        intros x. cbn [tailm setIp setAcc setList]. rewrite updb_spec.
        destruct (Nat.eqb_spec x n); [split; [discriminate|intros []]|]. rewrite M0. simpl. intuition.
      + simpl. rewrite Nat.eqb_refl. reflexivity.
      + rewrite I0. simpl. rewrite Nat.eqb_refl. reflexivity.
      + cbn [setIp setAcc setList inMM accm utime ipSpec refresh updOnWrite updOnRead]. repeat split. }
  destruct X as (s4 & A4 & T4 & E1 & C4 & E2 & L4 & F1 & F2 & F3 & F4 & F5 & F6 & F7).
  cbv zeta in E1. cbv zeta. rewrite E1. clear E1.
  set (s5 := setInMM s4 n false).
  assert (C5 : core s5 A4 T4) by exact C4.
  assert (K5 : ipSpec s5 = 0 -> T4 = []).
  { intros X. unfold s5 in X; cbn in X. rewrite F4 in X. pose proof (K0 X) as ->. simpl in L4.
    rewrite I0 in L4. simpl in L4. destruct T4; [auto|simpl in L4; lia]. }
  destruct (updateIp_rel s5 A4 T4 C5 K5) as (s6 & A6 & T6 & U1 & U2 & U3 & U4 & U5 & U6 & U7).
  exists s6. split; [exact U1|].
  destruct U2 as (_ & _ & V1 & V2 & V3 & V4 & V5 & V6 & V7).
  exists A6, T6. cbn [with_seen with_stamp with_order order tlen stamp seen k_of ref_of w_of r_of].
  split; [exact U3|]. split; [congruence|]. split.
  { rewrite U5. unfold retarget. rewrite K. unfold s5; cbn [setInMM ipSpec]. rewrite F4, E2.
    destruct (Nat.eqb_spec (ipSpec s) 0) as [E|E]; [|reflexivity].
    rewrite L4. pose proof (K0 E) as ->. rewrite I0. simpl. reflexivity. }
  rewrite V1, V2, V3, V4, V5, V6, V7. unfold s5; cbn [setInMM ipSpec inMM accm utime refresh updOnWrite updOnRead].
  rewrite F1, F2, F3, F4, F5, F6, F7, U4, E2.
  split. { intros x. rewrite updb_spec, in_remove_node. destruct (Nat.eqb_spec x n); [subst; intuition discriminate|].
    rewrite IM. intuition. }
  split; [exact ST|]. split. { intros x. unfold updb. destruct (x =? n); auto. }
  repeat (split; [assumption|]). split; [|exact U7].
  intros X. apply U6. unfold s5; cbn. congruence.
Qed.

Lemma setAcc_rel s p n b : rel s p -> rel (setAcc s n b) (with_seen p n b).
Proof.
  intros (A & T & C & O & TL & IM & ST & SE & K & RF & WW & RR & K0 & B1).
  exists A, T. cbn [with_seen setAcc order tlen stamp seen k_of ref_of w_of r_of inMM accm utime ipSpec refresh updOnWrite updOnRead].
  split; [exact C|]. repeat (split; [assumption|]). split.
  { intros x. unfold updb. destruct (x =? n); auto. }
  repeat (split; [assumption|]). assumption.
Qed.

Lemma accessCheck_ok s p n w now : rel s p ->
  rel (fst (accessCheck s n w now)) (if wants_promote p n w now then with_seen p n true else p) /\
  snd (accessCheck s n w now) = wants_promote p n w now.
Proof.
  intros R. pose proof R as (A & T & C & O & TL & IM & ST & SE & K & RF & WW & RR & K0 & B1).
  unfold accessCheck, wants_promote.
  rewrite O. rewrite (mem_bool n (A ++ T) (inMM s n)) by apply IM.
  rewrite ST, SE, RF, WW, RR.
  assert (E : (w && negb (updOnWrite s) || negb w && negb (updOnRead s))%bool
              = negb (if w then updOnWrite s else updOnRead s)).
  { destruct w, (updOnWrite s), (updOnRead s); reflexivity. }
  rewrite E. destruct (if w then updOnWrite s else updOnRead s); simpl; [|auto].
  destruct (inMM s n && ((wrap32 (utime s n + refresh s) <=? now)%N || negb (accm s n)))%bool eqn:G; [|auto].
  split; [|reflexivity]. cbn [fst].
  destruct (accm s n) eqn:AC; [|now apply setAcc_rel].
  destruct (setAcc_rel s p n true R) as (A' & T' & Q). exists A', T'.
  destruct Q as (Q1 & Q2 & Q3 & Q4 & Q5 & Q6 & Q7). repeat split; auto; try apply Q1; try apply Q4; try apply Q7.
  intros x. rewrite Q6. cbn [setAcc accm]. unfold updb. destruct (Nat.eqb_spec x n); [subst; auto|auto].
Qed.

Lemma accessLocked_ok s p n now : rel s p ->
  exists s', accessLocked s n now = Some s' /\ rel s' (spec_promote p n now).
Proof.
  intros Rl. pose proof Rl as (A & T & C & O & TL & IM & ST & SE & K & RF & WW & RR & K0 & B1).
  unfold accessLocked, spec_promote. rewrite O, TL, tail_part_app.
  rewrite (mem_bool n (A ++ T) (inMM s n)) by apply IM.
  pose proof C as (R0 & M0 & I0 & Z0). pose proof R0 as (ND0 & _).
  destruct (inMM s n) eqn:In0.
  2:{ (* the node is not in the container: nothing happens *)
    assert (NI : ~ In n (A ++ T)) by (intros X; apply IM in X; congruence).
    assert (NT : ~ In n T) by (intros X; apply NI, in_or_app; auto).
    assert (E : ensureNotIp s n = s).
    { unfold ensureNotIp. rewrite isPtr_false; auto. rewrite I0. destruct T; [discriminate|].
      simpl. intros X. inversion X; subst. apply NT. now left. }
    rewrite E, In0. cbv zeta. destruct (tailm s n) eqn:TM; [exfalso; apply NT, M0; auto|].
    exists s. split; [reflexivity|exact Rl]. }
  assert (HI : In n (A ++ T)) by (apply IM; auto).
  cbv zeta.
  destruct (ensureNotIp_ok s A T n C HI) as (A1 & T1 & [(C1 & E1 & SR & NI & INT & LT)|(EA & (B & ET) & EE)]).
  - set (s1 := ensureNotIp s n) in *. clearbody s1.
    destruct SR as (a1 & a2 & a3 & a4 & a5 & a6 & a7 & a8 & a9). rewrite a3, In0.
    destruct C1 as (R1 & M1 & I1 & Z1). pose proof R1 as (ND1 & _).
    assert (HI1 : In n (A1 ++ T1)) by (rewrite E1; auto).
    destruct (remove_mid_split A1 T1 n ND1 HI1) as ((a & b & Eab) & RM & NDr & InT & NInT).
    rewrite Eab in R1. pose proof (moveToHead_ok _ _ _ _ _ R1) as RO.
    assert (nab : ~ In n a /\ ~ In n b) by (rewrite Eab in ND1; apply nodup_mid in ND1; tauto).
    assert (Eab2 : a ++ b = remove_node (A1 ++ T1) n) by (rewrite Eab, remove_node_mid; tauto).
    rewrite Eab2 in RO.
    destruct (moveToHead (hp s1) (dl s1) n) as [h' d']. destruct RO as (R2 & _).
    set (s2 := setTime (setList s1 (h', d')) n now).
    assert (TMeq : tailm s2 = tailm s1) by reflexivity. rewrite TMeq.
    destruct (tailm s1 n) eqn:TM.
    + pose proof (proj1 (M1 n) TM) as NT1. destruct (InT NT1) as [RA LTT].
      unfold decTail. cbn [tailSize s2 setTime setList]. rewrite Z1.
      destruct T1 as [|t1 T1']; [destruct NT1|]. cbn [length].
      set (s3 := setIp s2 (updb (tailm s2) n false) (ip s2) (length T1')).
      assert (C3 : core s3 (n :: remove_node A1 n) (remove_node (t1 :: T1') n)).
      { split; [cbn [s3 s2 hp dl setIp setTime setList app]; rewrite <- RM; exact R2|].
        split; [|split].
        - intros x. cbn [s3 s2 tailm setIp setTime setList]. rewrite updb_spec, in_remove_node.
          destruct (Nat.eqb_spec x n); [subst; intuition discriminate|]. rewrite M1. intuition.
        - cbn [s3 s2 ip setIp setTime setList]. rewrite firstOr_remove; [exact I1|]. rewrite <- I1. exact NI.
        - cbn [s3 s2 tailSize setIp setTime setList]. cbn [length] in LTT. lia. }
      assert (MT : mem n T = true) by (apply mem_spec; apply INT; exact NT1).
      assert (Kn : ipSpec s <> 0).
      { intros E. apply mem_spec in MT. rewrite (K0 E) in MT. destruct MT. }
      assert (K3 : ipSpec s3 = 0 -> remove_node (t1 :: T1') n = []).
      { cbn [s3 s2 ipSpec setIp setTime setList]. rewrite a6. contradiction. }
      destruct (updateIp_rel s3 _ _ C3 K3) as (s4 & A4 & T4 & U1 & U2 & U3 & U4 & U5 & U6 & U7).
      exists s4. split; [exact U1|].
      destruct U2 as (_ & _ & V1 & V2 & V3 & V4 & V5 & V6 & V7).
      exists A4, T4. cbn [with_seen with_stamp with_order order tlen stamp seen k_of ref_of w_of r_of].
      rewrite V1, V2, V3, V4, V5, V6, V7.
      cbn [s3 s2 setIp setTime setList ipSpec inMM accm utime refresh updOnWrite updOnRead].
      cbn [app] in U4. rewrite <- RM, E1 in U4.
      split; [exact U3|]. split; [auto|]. split.
      { rewrite MT. unfold retarget. rewrite K. cbn [s3 s2 ipSpec setIp setTime setList] in U5. rewrite a6 in U5.
        destruct (Nat.eqb_spec (ipSpec s) 0); [contradiction|]. rewrite U5.
        cbn [app]. rewrite <- RM, E1. reflexivity. }
      rewrite a3, a4, a5, a6, a7, a8, a9, U4.
      split. { intros x. rewrite IM. simpl. rewrite in_remove_node. split.
        - intros X. destruct (Nat.eq_dec n x); auto.
        - intros [<-|[X _]]; auto. }
      split. { intros x. unfold updt. destruct (x =? n); auto. }
      repeat (split; [assumption|]). split; [contradiction|exact U7].
    + assert (NT1 : ~ In n T1) by (intros X; apply M1 in X; congruence).
      destruct (NInT NT1) as [RT LAA].
      assert (MT : mem n T = false).
      { destruct (mem n T) eqn:E; auto. apply mem_spec in E. apply INT in E. contradiction. }
      exists s2. split; [reflexivity|].
      exists (n :: remove_node A1 n), T1.
      cbn [with_seen with_stamp with_order order tlen stamp seen k_of ref_of w_of r_of].
      cbn [s2 setIp setTime setList ipSpec inMM accm utime refresh updOnWrite updOnRead].
      rewrite MT.
      assert (RMT : remove_node (A ++ T) n = remove_node A1 n ++ T1) by (rewrite <- E1, RM, RT; reflexivity).
      split. { split; [cbn [s2 hp dl setTime setList app]; rewrite <- RMT, <- E1; exact R2|].
        split; [exact M1|]. split; [exact I1|exact Z1]. }
      split; [cbn [app]; rewrite RMT; reflexivity|].
      split. { destruct (isPtr (ip s) n) eqn:IP; [|lia]. exfalso.
        apply isPtr_spec in IP. rewrite I0 in IP. apply NT1, INT.
        destruct T; [discriminate|]. simpl in IP. inversion IP. left; auto. }
      rewrite a3, a4, a5, a6, a7, a8, a9.
      split. { intros x. rewrite IM. cbn [app]. rewrite <- RMT. simpl. rewrite in_remove_node. split.
        - intros X. destruct (Nat.eq_dec n x); auto.
        - intros [<-|[X _]]; auto. }
      split. { intros x. unfold updt. destruct (x =? n); auto. }
      repeat (split; [assumption|]). split; [|discriminate].
      intros X. pose proof (K0 X) as ->.
      assert (T1 = []); [|auto]. rewrite I0 in LT. simpl in LT. destruct T1; [auto|simpl in LT; lia].
  - subst A T. simpl app in *.
    assert (B = []) by (specialize (B1 eq_refl); simpl in B1; destruct B; [auto|simpl in B1; lia]).
    subst B. rewrite EE. cbn [setIp inMM hp dl]. rewrite In0.
    pose proof (moveToHead_ok _ _ [] n [] R0) as RO.
    destruct (moveToHead (hp s) (dl s) n) as [h' d']. destruct RO as (R2 & _).
    cbn [setTime setList setIp tailm].
    assert (TM : tailm s n = true) by (apply M0; left; auto). rewrite TM.
    unfold decTail. cbn [tailSize setTime setList setIp]. rewrite Z0. cbn [length].
    match goal with |- context [updateIp ?x] => set (s3 := x) end.
    assert (C3 : core s3 [n] []).
    { split; [exact R2|]. split; [|split; reflexivity].
      intros x. cbn [s3 tailm setIp setTime setList]. rewrite updb_spec.
      destruct (Nat.eqb_spec x n); [split; [discriminate|intros []]|]. rewrite M0. simpl. intuition. }
    assert (Kn : ipSpec s <> 0) by (intros E; specialize (K0 E); discriminate).
    destruct (updateIp_rel s3 _ _ C3 (fun _ => eq_refl)) as (s4 & A4 & T4 & U1 & U2 & U3 & U4 & U5 & U6 & U7).
    exists s4. split; [exact U1|].
    destruct U2 as (_ & _ & V1 & V2 & V3 & V4 & V5 & V6 & V7).
    exists A4, T4. cbn [with_seen with_stamp with_order order tlen stamp seen k_of ref_of w_of r_of].
    rewrite V1, V2, V3, V4, V5, V6, V7.
    cbn [s3 setIp setTime setList ipSpec inMM accm utime refresh updOnWrite updOnRead].
    simpl app in U4.
    assert (RN : n :: remove_node [n] n = [n]) by (simpl; rewrite Nat.eqb_refl; reflexivity).
    rewrite RN, U4.
    split; [exact U3|]. split; [auto|]. split.
    { simpl mem. rewrite Nat.eqb_refl. simpl orb. cbv iota. unfold retarget. rewrite K.
      cbn [s3 ipSpec setIp setTime setList] in U5.
      destruct (Nat.eqb_spec (ipSpec s) 0); [contradiction|]. rewrite U5. reflexivity. }
    split; [exact IM|]. split. { intros x. unfold updt. destruct (x =? n); auto. }
    repeat (split; [assumption || contradiction|]). first [exact U7|split; [contradiction|exact U7]].
Qed.

Lemma replace_node_app A T o n : replace_node (A ++ T) o n = replace_node A o n ++ replace_node T o n.
Proof. unfold replace_node. apply map_app. Qed.
Lemma replace_node_length l o n : length (replace_node l o n) = length l.
Proof. unfold replace_node. apply map_length. Qed.
Lemma in_replace_node l o n x : NoDup l -> ~ In n l -> In o l ->
  (In x (replace_node l o n) <-> x = n \/ (In x l /\ x <> o)).
Proof.
  intros ND NI HI. destruct (in_split _ _ HI) as (a & b & ->).
  destruct (nodup_mid _ _ _ ND) as (oa & ob & _). rewrite replace_node_mid by auto.
  rewrite !in_app_iff in *. simpl in *. split.
  - intros [X|[X|X]].
    + right. split; [auto|]. intros ->. auto.
    + left; auto.
    + right. split; [auto|]. intros ->. auto.
  - intros [->|[[X|[X|X]] Y]]; auto. congruence.
Qed.

Lemma replace_rel s p o n : rel s p ->
  rel (fst (replace s o n)) (fst (spec_exec p (MReplace o n))) /\
  snd (spec_exec p (MReplace o n)) = MBool (snd (replace s o n)).
Proof.
  intros Rl. pose proof Rl as (A & T & C & O & TL & IM & ST & SE & K & RF & WW & RR & K0 & B1).
  unfold replace. cbn [spec_exec]. rewrite O.
  rewrite (mem_bool o (A ++ T) (inMM s o)) by apply IM.
  rewrite (mem_bool n (A ++ T) (inMM s n)) by apply IM.
  destruct (inMM s o) eqn:Io; [|cbn [negb orb andb fst snd]; auto].
  destruct (inMM s n) eqn:Inn; [cbn [negb orb andb fst snd]; auto|].
  cbn [negb orb andb fst snd]. split; [|reflexivity].
  assert (HO : In o (A ++ T)) by (apply IM; auto).
  assert (HN : ~ In n (A ++ T)) by (intros X; apply IM in X; congruence).
  assert (on : o <> n) by (intros ->; congruence).
  pose proof C as (R0 & M0 & I0 & Z0). pose proof R0 as (ND0 & _).
  destruct (in_split _ _ HO) as (a & b & Eab).
  assert (Rr := R0). rewrite Eab in Rr, HN. pose proof (replace_ok _ _ _ _ _ n Rr HN) as RO.
  rewrite <- Eab in HN.
  assert (oab : ~ In o a /\ ~ In o b) by (rewrite Eab in ND0; apply nodup_mid in ND0; tauto).
  assert (Eab2 : a ++ n :: b = replace_node (A ++ T) o n) by (rewrite Eab, replace_node_mid; tauto).
  rewrite Eab2 in RO. destruct (DList_model.replace (hp s) (dl s) o n) as [h' d']. destruct RO as (R2 & _).
  exists (replace_node A o n), (replace_node T o n).
  cbn [with_seen with_stamp with_order order tlen stamp seen k_of ref_of w_of r_of].
  cbn [setIp setAcc setTime setInMM setList ipSpec inMM accm utime refresh updOnWrite updOnRead tailm ip tailSize].
  rewrite <- replace_node_app. rewrite !replace_node_length.
  assert (nT : ~ In n T) by (intros X; apply HN, in_or_app; auto).
  assert (NDT : NoDup T).
  { clear - ND0. induction A; auto. simpl in ND0. inversion ND0; auto. }
  split.
  { split; [cbn [hp dl setIp setAcc setTime setInMM setList]; rewrite <- replace_node_app; exact R2|].
    cbn [tailm ip tailSize setIp setAcc setTime setInMM setList]. split; [|split].
    - intros x. destruct (tailm s o) eqn:TM.
      + rewrite in_replace_node by (auto; apply M0; auto). rewrite !updb_spec.
        destruct (Nat.eqb_spec x o); [subst; split; [discriminate|intuition]|].
        destruct (Nat.eqb_spec x n); [subst; intuition|]. rewrite M0. intuition.
      + assert (oT : ~ In o T) by (intros X; apply M0 in X; congruence).
        rewrite replace_node_notin by auto. rewrite updb_spec.
        destruct (Nat.eqb_spec x n); [subst; split; [discriminate|intuition]|]. apply M0.
    - rewrite I0. destruct T as [|x T]; simpl; [reflexivity|].
      destruct (Nat.eqb_spec x o); reflexivity.
    - rewrite replace_node_length. auto. }
  split; [reflexivity|]. split; [auto|].
  split. { intros x. rewrite in_replace_node by auto. rewrite !updb_spec.
    destruct (Nat.eqb_spec x n); [subst; intuition|].
    destruct (Nat.eqb_spec x o); [subst; split; [discriminate|intuition]|]. rewrite IM. intuition. }
  split. { intros x. unfold updt. destruct (x =? n); auto. }
  split. { intros x. unfold updb. destruct (x =? n); auto. }
  repeat (split; [assumption|]). split.
  - intros X. rewrite (K0 X). reflexivity.
  - intros X. apply B1. destruct A; [auto|discriminate].
Qed.

Lemma clearLoop_ok h : forall T A m, (forall x, m x = true <-> In x T) -> NoDup (A ++ T) ->
  (exists p, seg h p T None) -> 
  exists m', clearLoop (length T) h m (firstOr T None) = Some m' /\ forall x, m' x = false.
Proof.
  induction T as [|x T IH]; intros A m M ND Sg.
  - exists m. split; [reflexivity|]. intros x. destruct (m x) eqn:E; auto. apply M in E. destruct E.
  - destruct Sg as (p & P1 & P2 & P3). cbn [length firstOr clearLoop]. rewrite P2.
    apply (IH (A ++ [x])).
    + intros y. rewrite updb_spec. destruct (nodup_mid _ _ _ ND) as (_ & xT & _).
      destruct (Nat.eqb_spec y x); [subst; split; [discriminate|intros; contradiction]|].
      rewrite M. simpl. split; [intros [E|E]; [congruence|auto]|auto].
    + rewrite <- app_assoc. exact ND.
    + eauto.
Qed.

Lemma setConfig_ok s p k r w rd : rel s p ->
  exists s', setConfig s k r w rd = Some s' /\ rel s' (fst (spec_exec p (MSetConfig k r w rd))).
Proof.
  intros (A & T & C & O & TL & IM & ST & SE & K & RF & WW & RR & K0 & B1).
  pose proof C as (R0 & M0 & I0 & Z0). pose proof R0 as (ND0 & S0 & _).
  unfold setConfig. cbn [spec_exec fst].
  destruct (Nat.eqb_spec k 0) as [E|E].
  - rewrite I0. destruct T as [|x T]; simpl firstOr.
    + eexists. split; [reflexivity|]. exists A, [].
      cbn [order tlen stamp seen k_of ref_of w_of r_of ipSpec inMM accm utime refresh updOnWrite updOnRead].
      split; [split; [exact R0|split; [exact M0|split; [reflexivity|exact Z0]]]|].
      repeat (split; [assumption || reflexivity|]). auto.
    + apply seg_app in S0 as [_ S0].
      destruct (clearLoop_ok (hp s) (x :: T) A (tailm s) M0 ND0) as (m' & E1 & E2); [eauto|].
      rewrite Z0. simpl firstOr in E1. rewrite E1. eexists. split; [reflexivity|].
      exists (A ++ x :: T), [].
      cbn [setIp order tlen stamp seen k_of ref_of w_of r_of ipSpec inMM accm utime refresh updOnWrite updOnRead].
      rewrite !app_nil_r.
      split. { split; [rewrite app_nil_r; exact R0|]. split; [|split; reflexivity].
        intros y. cbn [tailm setIp]. rewrite E2. split; [discriminate|intros []]. }
      repeat (split; [assumption || reflexivity|]). first [split; [reflexivity|simpl; lia]|simpl; lia].
  - eexists. split; [reflexivity|]. exists A, T.
    cbn [order tlen stamp seen k_of ref_of w_of r_of ipSpec inMM accm utime refresh updOnWrite updOnRead].
    split; [exact C|]. repeat (split; [assumption || reflexivity|]). split; [contradiction|auto].
Qed.

Lemma pred_of_mid a n b : forall p, ~ In n a -> pred_of n (a ++ n :: b) p = lastOr a p.
Proof.
  induction a as [|x a IH]; intros p H; simpl.
  - now rewrite Nat.eqb_refl.
  - simpl in H. destruct (Nat.eqb_spec x n); [subst; exfalso; auto|]. apply IH. auto.
Qed.

Lemma mexec_ok s p c : rel s p -> mlegal p c ->
  exists s' o, mexec s c = Some (s', o) /\ rel s' (fst (spec_exec p c)) /\ snd (spec_exec p c) = o.
Proof.
  intros R L. destruct c as [n now|n|n|o n|n w now|n now|n w now|k r w rd]; cbn [mexec].
  - destruct (add_ok s p n now R) as (s' & b & E & R' & O). rewrite E. eauto.
  - unfold remove. cbn [spec_exec].
    pose proof R as (A & T & C & O & TL & IM & _).
    rewrite O, (mem_bool n (A ++ T) (inMM s n)) by apply IM.
    destruct (inMM s n) eqn:E; cbn [negb].
    + assert (HI : In n (order p)) by (rewrite O; apply IM; auto).
      destruct (removeLocked_ok s p n R HI) as (s' & E' & R'). rewrite E'. eauto.
    + eauto.
  - cbn [mlegal] in L. unfold removeIt. destruct (removeLocked_ok s p n R L) as (s' & E' & R'). rewrite E'.
    eexists _, _. split; [reflexivity|]. split; [exact R'|]. cbn [spec_exec snd]. f_equal.
    destruct R as (A & T & (R0 & _) & O & _). rewrite <- O in R0.
    destruct R0 as (ND & Sg & _). destruct (in_split _ _ L) as (a & b & Eab). rewrite Eab in *.
    destruct (nodup_mid _ _ _ ND) as (na & _). rewrite pred_of_mid by auto.
    destruct (seg_mid _ _ _ _ _ _ Sg) as [P _]. auto.
  - destruct (replace_rel s p o n R) as [R' O]. destruct (replace s o n) as [s' b]. eauto.
  - destruct (accessCheck_ok s p n w now R) as [R' O]. destruct (accessCheck s n w now) as [s' b].
    cbn [fst snd spec_exec] in *. subst b. eexists _, _. split; [reflexivity|].
    destruct (wants_promote p n w now); auto.
  - destruct (accessLocked_ok s p n now R) as (s' & E & R'). rewrite E. eauto.
  - unfold recordAccess. destruct (accessCheck_ok s p n w now R) as [R' O].
    destruct (accessCheck s n w now) as [s' b]. cbn [fst snd spec_exec] in *. subst b.
    destruct (wants_promote p n w now).
    + destruct (accessLocked_ok _ _ n now R') as (s2 & E & R2). rewrite E. eauto.
    + eauto.
  - destruct (setConfig_ok s p k r w rd R) as (s' & E & R'). rewrite E. eauto.
Qed.

Lemma mexecs_ok cs : forall s p, rel s p -> mlegals p cs ->
  exists s', mexecs s cs = Some (s', snd (spec_execs p cs)) /\ rel s' (fst (spec_execs p cs)).
Proof.
  induction cs as [|c r IH]; intros s p R L.
  - exists s. split; [reflexivity|exact R].
  - destruct L as [L1 L2]. destruct (mexec_ok s p c R L1) as (s1 & o & E & R1 & O).
    cbn [mexecs spec_execs]. rewrite E.
    destruct (spec_exec p c) as [p1 o1]. cbn [fst snd] in *. subst o1.
    destruct (IH s1 p1 R1 L2) as (s2 & E2 & R2). rewrite E2.
    destruct (spec_execs p1 r) as [p2 os]. cbn [fst snd] in *. eauto.
Qed.

Lemma init_rel k r w rd : rel (initLru k r w rd) (init_spec k r w rd).
Proof.
  exists [], []. split.
  - split; [split; [constructor|simpl; auto]|]. split; [|split; reflexivity].
    intros x. simpl. split; [discriminate|intros []].
  - simpl. repeat split; auto; try discriminate; try (intros []).
Qed.

Lemma rel_observe s p : rel s p ->
  evictionOrder s = Some (rev (order p)) /\ NoDup (order p) /\ size (dl s) = length (order p) /\
  (forall n, inMM s n = true <-> In n (order p)).
Proof.
  intros (A & T & (R & _) & O & _ & IM & _). rewrite O.
  destruct (rep_walk _ _ _ R) as (_ & B & Z). pose proof R as (ND & _).
  unfold evictionOrder. auto.
Qed.
Lemma rel_ip s p : rel s p ->
  match ip s with
  | None => tlen p = 0
  | Some x => exists A B, order p = A ++ x :: B /\ length (x :: B) = tlen p
  end.
Proof.
  intros (A & T & (_ & _ & I & _) & O & TL & _). rewrite I, O, TL.
  destruct T as [|x T]; simpl; [auto|]. exists A, T. auto.
Qed.

Lemma reachable_rel s : reachable s -> exists p, rel s p.
Proof.
  intros (k & r & w & rd & cs & outs & _ & L & E).
  destruct (mexecs_ok cs _ _ (init_rel k r w rd) L) as (s' & E' & R). rewrite E' in E.
  inversion E; subst. eauto.
Qed.
Lemma remove_node_rev l n : remove_node (rev l) n = rev (remove_node l n).
Proof.
  induction l as [|x l IH]; [reflexivity|]. cbn [rev].
  assert (E : forall a b, remove_node (a ++ b) n = remove_node a n ++ remove_node b n)
    by (intros; apply filter_app).
  rewrite E, IH. simpl. destruct (x =? n); simpl; auto using app_nil_r.
Qed.
Lemma promote_moves_one s n now : reachable s ->
  exists s' l, accessLocked s n now = Some s' /\ evictionOrder s = Some l /\
    evictionOrder s' = Some (if inMM s n then remove_node l n ++ [n] else l).
Proof.
  intros H. destruct (reachable_rel s H) as (p & R).
  destruct (accessLocked_ok s p n now R) as (s' & E & R').
  destruct (rel_observe _ _ R) as (O & _ & _ & M). destruct (rel_observe _ _ R') as (O' & _).
  exists s', (rev (order p)). split; [exact E|]. split; [exact O|]. rewrite O'. f_equal.
  unfold spec_promote. rewrite (mem_bool n (order p) (inMM s n)) by apply M.
  destruct (inMM s n); [|reflexivity]. cbn [with_stamp with_order order rev].
  rewrite remove_node_rev. reflexivity.
Qed.
Lemma remove_removes_one s n : reachable s ->
  exists s' l, remove s n = Some (s', inMM s n) /\ evictionOrder s = Some l /\
    evictionOrder s' = Some (remove_node l n) /\ inMM s' n = false.
Proof.
  intros H. destruct (reachable_rel s H) as (p & R).
  destruct (rel_observe _ _ R) as (O & _ & _ & M). unfold remove.
  destruct (inMM s n) eqn:I; cbn [negb].
  - destruct (removeLocked_ok s p n R (proj1 (M n) I)) as (s' & E & R').
    destruct (rel_observe _ _ R') as (O' & _ & _ & M').
    exists s', (rev (order p)). rewrite E. split; [reflexivity|]. split; [exact O|]. split.
    + rewrite O', remove_node_rev. reflexivity.
    + destruct (inMM s' n) eqn:I'; auto. apply M' in I'. simpl in I'. apply in_remove_node in I'. tauto.
  - exists s, (rev (order p)). split; [reflexivity|]. split; [exact O|]. split; [|auto].
    rewrite O. f_equal. rewrite remove_node_notin; auto. intros X. apply in_rev in X. apply M in X. congruence.
Qed.
Lemma add_keeps_others s n now : reachable s -> inMM s n = false ->
  exists s' l l1 l2, add s n now = Some (s', true) /\ evictionOrder s = Some l /\ l = l1 ++ l2 /\
    evictionOrder s' = Some (l1 ++ n :: l2) /\ inMM s' n = true.
Proof.
  intros H I. destruct (reachable_rel s H) as (p & R).
  destruct (rel_observe _ _ R) as (O & _ & _ & M).
  destruct (add_ok s p n now R) as (s' & b & E & R' & B).
  destruct (rel_observe _ _ R') as (O' & _ & _ & M').
  cbn [spec_exec] in *. rewrite (mem_bool n (order p) (inMM s n)) in * by apply M. rewrite I in *.
  cbn [fst snd with_seen with_stamp with_order order] in *. inversion B; subst b.
  exists s', (rev (order p)).
  destruct (tlen p =? 0).
  - exists (rev (order p)), []. split; [exact E|]. split; [exact O|]. split; [now rewrite app_nil_r|].
    split; [exact O'|]. apply M'. now left.
  - exists (rev (tail_part (tlen p) (order p))), (rev (front_part (tlen p) (order p))).
    split; [exact E|]. split; [exact O|]. split; [|split].
    + rewrite <- rev_app_distr. unfold tail_part, front_part. rewrite firstn_skipn. reflexivity.
    + rewrite O'. f_equal. rewrite rev_app_distr. simpl. rewrite <- app_assoc. reflexivity.
    + apply M'. apply in_or_app. right. now left.
Qed.

Definition tgt (k : nat) (p : spec) : Prop :=
  k_of p = k /\ tlen p = if k =? 0 then 0 else target k (order p).

Lemma remove_node_length l n : NoDup l -> In n l -> length (remove_node l n) = length l - 1.
Proof.
  intros ND I. destruct (in_split _ _ I) as (a & b & ->). destruct (nodup_mid _ _ _ ND) as (na & nb & _).
  rewrite remove_node_mid by auto. rewrite !app_length. simpl. lia.
Qed.
Lemma target_length k l l' : length l = length l' -> target k l = target k l'.
Proof. unfold target. intros ->. reflexivity. Qed.

Lemma tgt_remove k p n : tgt k p -> tgt k (spec_remove p n).
Proof.
  intros (K & T). split; [exact K|]. unfold spec_remove, retarget. rewrite K.
  cbn [with_seen with_order tlen order]. destruct (k =? 0); [|reflexivity].
  rewrite T. destruct (mem _ _); reflexivity.
Qed.
Lemma tgt_promote k p n now : NoDup (order p) -> tgt k p -> tgt k (spec_promote p n now).
Proof.
  intros ND (K & T). unfold spec_promote. destruct (mem n (order p)) eqn:M; [|split; auto].
  apply mem_spec in M. split; [exact K|].
  cbn [with_stamp with_order tlen order]. unfold retarget. rewrite K.
  destruct (k =? 0) eqn:E.
  - rewrite T. destruct (mem _ _); reflexivity.
  - destruct (mem n (tail_part _ _)); [reflexivity|]. rewrite T. apply target_length.
    cbn [length]. rewrite remove_node_length by auto. destruct (order p); [destruct M|simpl; lia].
Qed.
Lemma tgt_step k s p c : rel s p -> no_config c -> tgt k p -> tgt k (fst (spec_exec p c)).
Proof.
  intros R NC T. destruct (rel_observe _ _ R) as (_ & ND & _).
  destruct c as [n now|n|n|o n|n w now|n now|n w now|k' r w rd]; cbn [spec_exec].
  - destruct (mem n (order p)); [exact T|]. destruct T as (K & T).
    split; [exact K|]. cbn [fst with_seen with_stamp with_order tlen order]. unfold retarget. rewrite K.
    destruct (k =? 0); [exact T|reflexivity].
  - destruct (mem n (order p)); [now apply tgt_remove|exact T].
  - now apply tgt_remove.
  - destruct (_ && _); [|exact T]. destruct T as (K & T). split; [exact K|].
    cbn [fst with_seen with_stamp with_order tlen order]. rewrite T. destruct (k =? 0); [auto|].
    apply target_length. symmetry. apply replace_node_length.
  - destruct (wants_promote _ _ _ _); exact T.
  - apply tgt_promote; auto.
  - destruct (wants_promote _ _ _ _); [|exact T]. cbn [fst]. apply tgt_promote; auto.
  - destruct NC.
Qed.
Lemma tgt_steps k cs : forall s p, rel s p -> mlegals p cs -> Forall no_config cs -> tgt k p ->
  tgt k (fst (spec_execs p cs)).
Proof.
  induction cs as [|c r IH]; intros s p R L F T; [exact T|].
  destruct L as [L1 L2]. inversion F; subst.
  destruct (mexec_ok s p c R L1) as (s1 & o & E & R1 & _).
  pose proof (tgt_step k s p c R H1 T) as T1.
  cbn [spec_execs]. destruct (spec_exec p c) as [p1 o1]. cbn [fst] in *.
  pose proof (IH s1 p1 R1 L2 H2 T1) as T2. destruct (spec_execs p1 r). exact T2.
Qed.
Lemma insertion_point_position : forall k r w rd cs s outs n now,
  k < 64 -> mlegals (init_spec k r w rd) cs -> Forall no_config cs ->
  mexecs (initLru k r w rd) cs = Some (s, outs) -> inMM s n = false ->
  exists s' l, add s n now = Some (s', true) /\ evictionOrder s = Some l /\
    let before := if k =? 0 then length l
                  else if length l =? 0 then 0 else Nat.max 1 (length l / 2 ^ k) in
    evictionOrder s' = Some (firstn before l ++ n :: skipn before l).
Proof.
  intros k r w rd cs s outs n now _ L F E I.
  destruct (mexecs_ok cs _ _ (init_rel k r w rd) L) as (s0 & E0 & R). rewrite E0 in E.
  inversion E; subst s0. clear E E0 H1.
  assert (T : tgt k (fst (spec_execs (init_spec k r w rd) cs))).
  { eapply tgt_steps; eauto using init_rel. split; [reflexivity|]. cbn. unfold target. simpl. destruct (k =? 0); auto. }
  set (p := fst (spec_execs (init_spec k r w rd) cs)) in *. clearbody p.
  destruct (rel_observe _ _ R) as (O & _ & _ & M).
  destruct (add_ok s p n now R) as (s' & b & E & R' & B).
  destruct (rel_observe _ _ R') as (O' & _ & _ & M').
  cbn [spec_exec] in *. rewrite (mem_bool n (order p) (inMM s n)) in * by apply M. rewrite I in *.
  cbn [fst snd with_seen with_stamp with_order order] in *. inversion B; subst b.
  exists s', (rev (order p)). split; [exact E|]. split; [exact O|].
  cbv zeta. rewrite rev_length. rewrite O'. f_equal.
  destruct T as (_ & T). destruct (k =? 0) eqn:K0.
  - rewrite T. cbn [Nat.eqb rev]. rewrite <- (rev_length (order p)), firstn_all, skipn_all. reflexivity.
  - unfold target in T. destruct (Nat.eqb_spec (length (order p)) 0) as [Z|Z].
    + rewrite T. destruct (order p); [reflexivity|discriminate].
    + set (t := Nat.max 1 (length (order p) / 2 ^ k)) in *.
      destruct (Nat.eqb_spec (tlen p) 0); [lia|]. rewrite rev_app_distr. cbn [rev]. rewrite <- app_assoc. cbn [app].
      unfold tail_part, front_part. rewrite T. rewrite firstn_rev, skipn_rev. reflexivity.
Qed.
Lemma access_promotes_iff s n wr now : reachable s ->
  exists s', recordAccess s n wr now = Some (s',
     ((if wr then updOnWrite s else updOnRead s) && inMM s n &&
      (((utime s n + refresh s) mod 2^32 <=? now)%N || negb (accm s n)))%bool).
Proof.
  intros H. destruct (reachable_rel s H) as (p & R). unfold recordAccess.
  destruct (accessCheck_ok s p n wr now R) as [R' O].
  assert (EQ : snd (accessCheck s n wr now) = ((if wr then updOnWrite s else updOnRead s) && inMM s n &&
      (((utime s n + refresh s) mod 2^32 <=? now)%N || negb (accm s n)))%bool).
  { unfold accessCheck. destruct wr, (updOnWrite s), (updOnRead s); cbn [negb andb orb];
      destruct (inMM s n); cbn [negb andb orb]; auto; unfold wrap32; 
      destruct ((_ <=? now)%N || negb (accm s n))%bool; reflexivity. }
  rewrite <- EQ. destruct (accessCheck s n wr now) as [s1 b]. cbn [fst snd] in *. subst b.
  destruct (wants_promote p n wr now).
  - destruct (accessLocked_ok _ _ n now R') as (s2 & E & _). rewrite E. eauto.
  - eauto.
Qed.
