(** The word and the drain. *)
From Coq Require Import List ZArith Bool Lia.
Import ListNotations.
From Verif Require Import Cohort_model Cohort_spec.
Open Scope Z_scope.

Ltac dm := Z.div_mod_to_equations; lia.
Definition bit (t : bool) : Z := if t then topBit else bottomBit.
Definition enc (t : bool) (a b : Z) : Z := bit t + (a * 2 ^ 32 + b).
Definition ok (a : Z) : Prop := 0 <= a < 2 ^ 31.

Lemma land_pow : forall w k, 0 <= k -> (Z.land w (2 ^ k) =? 0) = negb (Z.testbit w k).
Proof.
  intros w k K. destruct (Z.testbit w k) eqn:E; cbn.
  - apply Z.eqb_neq. intros H. assert (X : Z.testbit (Z.land w (2 ^ k)) k = false) by (rewrite H; apply Z.bits_0). rewrite Z.land_spec, E, Z.pow2_bits_true in X by assumption. discriminate.
  - apply Z.eqb_eq. apply Z.bits_inj'. intros n N. rewrite Z.land_spec, Z.bits_0. rewrite Z.pow2_bits_eqb by assumption. destruct (Z.eqb_spec k n); [subst; now rewrite E|apply andb_false_r].
Qed.
Lemma tb : forall w k, 0 <= k -> Z.testbit w k = (w / 2 ^ k mod 2 =? 1).
Proof. intros. now apply Z.testbit_eqb. Qed.
Lemma rest63 : forall a b, ok a -> ok b -> Z.testbit (a * 2 ^ 32 + b) 63 = false.
Proof. unfold ok. intros a b A B. rewrite tb by lia. apply Z.eqb_neq. change (2 ^ 63) with 9223372036854775808. change (2 ^ 32) with 4294967296. change (2 ^ 31) with 2147483648 in *. dm. Qed.
Lemma rest31 : forall a b, ok a -> ok b -> Z.testbit (a * 2 ^ 32 + b) 31 = false.
Proof.
  unfold ok. intros a b A B. rewrite tb by lia. replace (a * 2 ^ 32 + b) with (b + (2 * a) * 2 ^ 31) by (change (2 ^ 32) with (2 * 2 ^ 31); ring). rewrite Z.div_add by lia.
  rewrite (Z.div_small b) by lia. rewrite Z.add_0_l, Z.mul_comm, Z_mod_mult. reflexivity.
Qed.
Lemma enc_top : forall (t : bool) a b, ok a -> ok b -> isTop (enc t a b) = t.
Proof.
  intros t a b A B. unfold isTop, topBit. rewrite land_pow by lia. rewrite negb_involutive, tb by lia. unfold enc, bit, topBit, bottomBit, ok in *. change (2 ^ 63) with 9223372036854775808. change (2 ^ 32) with 4294967296. change (2 ^ 31) with 2147483648 in *.
  destruct t; [apply Z.eqb_eq|apply Z.eqb_neq]; dm.
Qed.
Lemma enc_bottom : forall (t : bool) a b, ok a -> ok b -> isBottom (enc t a b) = negb t.
Proof.
  intros t a b A B. unfold isBottom, bottomBit. rewrite land_pow by lia. rewrite negb_involutive, tb by lia. unfold enc, bit, topBit, bottomBit, ok in *.
  replace (if t then 2 ^ 63 else 2 ^ 31) with ((if t then 2 ^ 32 else 1) * 2 ^ 31) by (destruct t; reflexivity).
  replace ((if t then 2 ^ 32 else 1) * 2 ^ 31 + (a * 2 ^ 32 + b)) with (b + ((if t then 2 ^ 32 else 1) + 2 * a) * 2 ^ 31) by (change (2 ^ 32) with (2 * 2 ^ 31); ring). rewrite Z.div_add by lia.
  rewrite (Z.div_small b) by lia. rewrite Z.add_0_l. rewrite (Z.mul_comm 2 a), Z_mod_plus_full. now destruct t.
Qed.
Lemma land_bit : forall (t : bool) a b, ok a -> ok b -> Z.land (bit t) (a * 2 ^ 32 + b) = 0.
Proof.
  intros t a b A B. rewrite Z.land_comm. apply Z.eqb_eq. destruct t; unfold bit, topBit, bottomBit; rewrite land_pow by lia; [rewrite rest63|rewrite rest31]; auto.
Qed.
Lemma enc_switch : forall (t : bool) a b, ok a -> ok b -> Z.lxor (enc t a b) (topBit + bottomBit) = enc (negb t) a b.
Proof.
  intros t a b A B. unfold enc. assert (X : forall u, bit u + (a * 2 ^ 32 + b) = Z.lxor (bit u) (a * 2 ^ 32 + b)) by (intros u; apply Z.add_nocarry_lxor; now apply land_bit). rewrite !X.
  set (m := topBit + bottomBit). rewrite Z.lxor_assoc, (Z.lxor_comm _ m), <- Z.lxor_assoc. assert (Y : Z.lxor (bit t) m = bit (negb t)) by (destruct t; reflexivity). now rewrite Y.
Qed.
Lemma enc_add : forall (t u : bool) a b, ok a -> ok b -> ok (if (u : bool) then a + 1 else b + 1) -> wrap (enc t a b + ref u) = if u then enc t (a + 1) b else enc t a (b + 1).
Proof.
  intros t u a b A B P. unfold wrap, enc, ref, ok in *. rewrite Z.mod_small; [destruct u; ring|]. unfold bit, topBit, bottomBit. change (2 ^ 64) with 18446744073709551616. change (2 ^ 63) with 9223372036854775808. change (2 ^ 32) with 4294967296. change (2 ^ 31) with 2147483648 in *.
  destruct t, u; lia.
Qed.
Lemma enc_sub : forall (t u : bool) a b, ok a -> ok b -> 0 < (if (u : bool) then a else b) -> wrap (enc t a b - ref u) = if u then enc t (a - 1) b else enc t a (b - 1).
Proof.
  intros t u a b A B P. unfold wrap, enc, ref, ok in *. rewrite Z.mod_small; [destruct u; ring|]. unfold bit, topBit, bottomBit. change (2 ^ 64) with 18446744073709551616. change (2 ^ 63) with 9223372036854775808. change (2 ^ 32) with 4294967296. change (2 ^ 31) with 2147483648 in *.
  destruct t, u; lia.
Qed.
Lemma enc_low : forall (t : bool) a b, ok a -> ok b -> wrap (Z.shiftl (enc t a b) 32) = ((if t then 0 else 2 ^ 31) + b) * 2 ^ 32.
Proof.
  intros t a b A B. rewrite Z.shiftl_mul_pow2 by lia. unfold wrap, enc, bit, topBit, bottomBit, ok in *.
  replace (((if t then 2 ^ 63 else 2 ^ 31) + (a * 2 ^ 32 + b)) * 2 ^ 32) with (((if t then 0 else 2 ^ 31) + b) * 2 ^ 32 + ((if t then 2 ^ 31 else 0) + a) * 2 ^ 64) by (destruct t; change (2 ^ 64) with (2 ^ 32 * 2 ^ 32); change (2 ^ 63) with (2 ^ 31 * 2 ^ 32); ring).
  rewrite Z_mod_plus_full. apply Z.mod_small. change (2 ^ 64) with 18446744073709551616. change (2 ^ 32) with 4294967296. change (2 ^ 31) with 2147483648 in *. destruct t; lia.
Qed.
Lemma enc_high : forall (t : bool) a b, ok a -> ok b -> Z.shiftr (enc t a b) 32 = (if t then 2 ^ 31 else 0) + a.
Proof.
  intros t a b A B. rewrite Z.shiftr_div_pow2 by lia. unfold enc, bit, topBit, bottomBit, ok in *.
  replace ((if t then 2 ^ 63 else 2 ^ 31) + (a * 2 ^ 32 + b)) with (((if t then 0 else 2 ^ 31) + b) + ((if t then 2 ^ 31 else 0) + a) * 2 ^ 32) by (destruct t; change (2 ^ 63) with (2 ^ 31 * 2 ^ 32); ring).
  rewrite Z.div_add by lia. rewrite Z.div_small; [ring|]. change (2 ^ 32) with 4294967296. change (2 ^ 31) with 2147483648 in *. destruct t; lia.
Qed.
Lemma enc_draining : forall (t : bool) a b, ok a -> ok b -> draining (enc t a b) = negb ((if t then b else a) =? 0).
Proof.
  intros t a b A B. unfold draining. rewrite enc_low, enc_high by assumption. unfold ok in *. change (2 ^ 32) with 4294967296. change (2 ^ 31) with 2147483648 in *.
  destruct t; [destruct (Z.eqb_spec b 0)|destruct (Z.eqb_spec a 0)]; subst; cbn [negb].
  - reflexivity.
  - rewrite !(proj2 (Z.eqb_neq _ _)) by lia. reflexivity.
  - cbn [Z.add Z.eqb negb]. apply andb_false_r.
  - rewrite !(proj2 (Z.eqb_neq _ _)) by lia. reflexivity.
Qed.
Lemma ldiff_bit : forall t w, 0 <= w -> Z.testbit w (if (t : bool) then 63 else 31) = false -> Z.ldiff w (bit t) = w.
Proof.
  intros t w W H. apply Z.bits_inj'. intros n N. rewrite Z.ldiff_spec. unfold bit, topBit, bottomBit.
  destruct t; rewrite Z.pow2_bits_eqb by lia.
  - destruct (Z.eqb_spec 63 n) as [<-|]; cbn [negb]; [rewrite H; reflexivity|apply andb_true_r].
  - destruct (Z.eqb_spec 31 n) as [<-|]; cbn [negb]; [rewrite H; reflexivity|apply andb_true_r].
Qed.
Lemma ldiff_self : forall (t : bool) a b, ok a -> ok b -> Z.ldiff (enc t a b) (bit t) = a * 2 ^ 32 + b.
Proof.
  intros t a b A B. unfold enc. rewrite Z.add_nocarry_lxor by now apply land_bit. apply Z.bits_inj'. intros n N. rewrite Z.ldiff_spec, Z.lxor_spec.
  pose proof (land_bit t a b A B) as L. assert (X : Z.testbit (Z.land (bit t) (a * 2 ^ 32 + b)) n = false) by (rewrite L; apply Z.bits_0). rewrite Z.land_spec in X. destruct (Z.testbit (bit t) n), (Z.testbit (a * 2 ^ 32 + b) n); cbn in *; congruence.
Qed.
Lemma enc_other_bit : forall (t : bool) a b, ok a -> ok b -> Z.ldiff (enc t a b) (bit (negb t)) = enc t a b.
Proof.
  intros t a b A B. apply ldiff_bit; [unfold enc, ok, bit, topBit, bottomBit in *; destruct t; lia|].
  pose proof (enc_top t a b A B) as T. pose proof (enc_bottom t a b A B) as U. unfold isTop, isBottom, topBit, bottomBit in *. rewrite land_pow, negb_involutive in T by lia. rewrite land_pow, negb_involutive in U by lia. destruct t; cbn [negb] in *; assumption.
Qed.
Lemma enc_pending : forall (t u : bool) a b, ok a -> ok b -> pending (enc t a b) u = if u then a else b.
Proof.
  intros t u a b A B. unfold pending. change topBit with (bit true). change bottomBit with (bit false).
  assert (Q : forall x, Z.shiftr (x * 2 ^ 32) 32 = x) by (intros x; rewrite Z.shiftr_div_pow2 by lia; apply Z.div_mul; lia).
  assert (LO : wrap (Z.shiftl (a * 2 ^ 32 + b) 32) = b * 2 ^ 32).
  { rewrite Z.shiftl_mul_pow2 by lia. unfold wrap. replace ((a * 2 ^ 32 + b) * 2 ^ 32) with (b * 2 ^ 32 + a * 2 ^ 64) by (change (2 ^ 64) with (2 ^ 32 * 2 ^ 32); ring). rewrite Z_mod_plus_full. apply Z.mod_small. unfold ok in *.
    change (2 ^ 64) with 18446744073709551616. change (2 ^ 32) with 4294967296. change (2 ^ 31) with 2147483648 in *. lia. }
  assert (HI : Z.shiftr (a * 2 ^ 32 + b) 32 = a).
  { rewrite Z.shiftr_div_pow2 by lia. rewrite Z.add_comm, Z.div_add by lia. rewrite Z.div_small; [lia|]. unfold ok in *. change (2 ^ 32) with 4294967296. change (2 ^ 31) with 2147483648 in *. lia. }
  destruct u, t.
  - rewrite ldiff_self by assumption. exact HI.
  - rewrite (enc_other_bit false) by assumption. rewrite enc_high by assumption. reflexivity.
  - rewrite (enc_other_bit true) by assumption. rewrite enc_low by assumption. rewrite Q. reflexivity.
  - rewrite ldiff_self by assumption. rewrite LO. apply Q.
Qed.

(** *** The requests *)
Definition one (t : bool) (p : pc) : nat := if counts t p then 1 else 0.
Lemma set_len : forall l i p, length (set i p l) = length l.
Proof. induction l as [|q l IH]; intros [|i] p; cbn; auto. Qed.
Lemma set_count : forall t l i p q, nth_error l i = Some p -> (length (filter (counts t) (set i q l)) + one t p = length (filter (counts t) l) + one t q)%nat.
Proof.
  intros t l. unfold one. induction l as [|x l IH]; intros [|i] p q H; cbn in *; try discriminate.
  - injection H as ->. destruct (counts t p), (counts t q); cbn; lia.
  - specialize (IH i p q H). destruct (counts t x); cbn; lia.
Qed.
Lemma count_le : forall t l, (length (filter (counts t) l) <= length l)%nat.
Proof. intros. induction l as [|x l IH]; cbn; [lia|]. destruct (counts t x); cbn; lia. Qed.
Lemma count_in : forall t l p, In p l -> counts t p = true -> (0 < length (filter (counts t) l))%nat.
Proof. intros t l p I C. assert (X : In p (filter (counts t) l)) by (apply filter_In; auto). destruct (filter (counts t) l); [destruct X|cbn; lia]. Qed.
Lemma set_nth_same : forall l i p q, nth_error l i = Some p -> nth_error (set i q l) i = Some q.
Proof. induction l as [|x l IH]; intros [|i] p q H; cbn in *; try discriminate; eauto. Qed.
Lemma set_nth_other : forall l i j q, i <> j -> nth_error (set i q l) j = nth_error l j.
Proof. induction l as [|x l IH]; intros [|i] [|j] q H; cbn in *; auto; try congruence. Qed.

Record Inv (n : nat) (s : world) : Prop := {
  i_len : length (reqs s) = n;
  i_word : word s = enc (isTop (word s)) (Z.of_nat (users true s)) (Z.of_nat (users false s));
  i_wait : (waiting s <= 1)%nat;
  i_cur : waiting s = 0%nat -> forall i t, nth_error (reqs s) i = Some (Holds t) -> t = isTop (word s) }.
Lemma users_ok : forall n s t, fits n -> length (reqs s) = n -> ok (Z.of_nat (users t s)).
Proof. intros n s t F L. pose proof (count_le t (reqs s)). unfold ok, users, fits in *. lia. Qed.
Lemma start_inv : forall n, Inv n (start n).
Proof.
  intros n. assert (X : forall t, users t (start n) = 0%nat) by (intros t; unfold users, start; cbn; induction n as [|n IH]; cbn; auto).
  constructor.
  - apply repeat_length.
  - rewrite !X. reflexivity.
  - cbn. lia.
  - intros _ i t H. apply nth_error_In in H. cbn in H. apply repeat_spec in H. discriminate.
Qed.
Lemma step_inv : forall n s e s', fits n -> Inv n s -> (e = Switch -> waiting s = 0%nat) -> step s e = Some s' ->
  Inv n s' /\ isTop (word s') = (match e with Switch => negb (isTop (word s)) | _ => isTop (word s) end).
Proof.
  intros n s e s' F [L W Q C] SOLO H. pose proof (users_ok n s true F L) as A. pose proof (users_ok n s false F L) as B. destruct e as [i| |]; unfold step in H.
  - destruct (nth_error (reqs s) i) as [p|] eqn:E; [|discriminate].
    pose proof (fun t q => set_count t (reqs s) i p q E) as SC. fold (users true s) in SC.
    assert (SU : forall t q, (length (filter (counts t) (set i q (reqs s))) + one t p = users t s + one t q)%nat) by (intros; apply SC).
    assert (LE : forall t q, (length (filter (counts t) (set i q (reqs s))) <= n)%nat) by (intros; pose proof (count_le t (set i q (reqs s))); rewrite set_len in *; lia).
    assert (KEY : forall w q, isTop w = isTop (word s) -> w = enc (isTop (word s)) (Z.of_nat (length (filter (counts true) (set i q (reqs s))))) (Z.of_nat (length (filter (counts false) (set i q (reqs s))))) ->
                  (waiting s = 0%nat -> forall t, q = Holds t -> t = isTop (word s)) -> Inv n (mkW w (set i q (reqs s)) (waiting s) (returns s)) /\ isTop w = isTop (word s)).
    { intros w q T K HQ. split; [|exact T]. constructor; cbn.
      - now rewrite set_len.
      - rewrite T. exact K.
      - assumption.
      - intros WZ j t HJ. rewrite T. destruct (Nat.eq_dec i j) as [<-|Ne].
        + rewrite (set_nth_same _ _ _ _ E) in HJ. injection HJ as ->. now apply HQ.
        + rewrite set_nth_other in HJ by assumption. eauto. }
    assert (TT : forall w q, w = enc (isTop (word s)) (Z.of_nat (length (filter (counts true) (set i q (reqs s))))) (Z.of_nat (length (filter (counts false) (set i q (reqs s))))) -> isTop w = isTop (word s)).
    { intros w q ->. apply enc_top; unfold ok, fits in *; pose proof (LE true q); pose proof (LE false q); lia. }
    destruct p as [|t|t|t]; cbn [reqStep] in H.
    + injection H as <-. assert (K : word s = enc (isTop (word s)) (Z.of_nat (length (filter (counts true) (set i (Loaded (isTop (word s))) (reqs s))))) (Z.of_nat (length (filter (counts false) (set i (Loaded (isTop (word s))) (reqs s)))))).
      { pose proof (SU true (Loaded (isTop (word s)))) as X. pose proof (SU false (Loaded (isTop (word s)))) as Y. unfold one, counts in X, Y. rewrite W at 1. f_equal; f_equal; unfold counts; lia. }
      apply KEY; auto. discriminate.
    + set (q := if Bool.eqb (isTop (word s)) t then Holds t else Undo t) in *. injection H as <-.
      assert (CQ : forall u, one u q = if Bool.eqb t u then 1%nat else 0%nat) by (intros u; unfold q, one, counts; destruct (Bool.eqb (isTop (word s)) t); reflexivity).
      assert (K : wrap (word s + ref t) = enc (isTop (word s)) (Z.of_nat (length (filter (counts true) (set i q (reqs s))))) (Z.of_nat (length (filter (counts false) (set i q (reqs s)))))).
      { pose proof (SU true q) as X. pose proof (SU false q) as Y. rewrite CQ in X, Y. unfold one in X, Y. cbn [counts] in X, Y. rewrite W at 1.
        pose proof (LE true q) as X1. pose proof (LE false q) as Y1. rewrite enc_add; auto; [destruct t; cbn [Bool.eqb] in X, Y; f_equal; lia|]. unfold ok, fits in *. destruct t; cbn [Bool.eqb] in X, Y; lia. }
      apply KEY; auto; [now apply (TT _ q)|]. intros _ u. unfold q. destruct (Bool.eqb (isTop (word s)) t) eqn:Z; [|discriminate]. intros D. injection D as <-. apply eqb_prop in Z. congruence.
    + injection H as <-. assert (P : 0 < (if t then Z.of_nat (users true s) else Z.of_nat (users false s))).
      { pose proof (count_in t (reqs s) (Undo t) (nth_error_In _ _ E)) as X. cbn [counts] in X. rewrite eqb_reflx in X. specialize (X eq_refl). unfold users. destruct t; lia. }
      assert (K : wrap (word s - ref t) = enc (isTop (word s)) (Z.of_nat (length (filter (counts true) (set i Out (reqs s))))) (Z.of_nat (length (filter (counts false) (set i Out (reqs s)))))).
      { pose proof (SU true Out) as X. pose proof (SU false Out) as Y. unfold one in X, Y. cbn [counts] in X, Y. rewrite W at 1. rewrite enc_sub by assumption. destruct t; cbn [Bool.eqb] in X, Y; f_equal; lia. }
      apply KEY; auto; [now apply (TT _ Out)|discriminate].
    + injection H as <-. assert (P : 0 < (if t then Z.of_nat (users true s) else Z.of_nat (users false s))).
      { pose proof (count_in t (reqs s) (Holds t) (nth_error_In _ _ E)) as X. cbn [counts] in X. rewrite eqb_reflx in X. specialize (X eq_refl). unfold users. destruct t; lia. }
      assert (K : wrap (word s - ref t) = enc (isTop (word s)) (Z.of_nat (length (filter (counts true) (set i Out (reqs s))))) (Z.of_nat (length (filter (counts false) (set i Out (reqs s)))))).
      { pose proof (SU true Out) as X. pose proof (SU false Out) as Y. unfold one in X, Y. cbn [counts] in X, Y. rewrite W at 1. rewrite enc_sub by assumption. destruct t; cbn [Bool.eqb] in X, Y; f_equal; lia. }
      apply KEY; auto; [now apply (TT _ Out)|discriminate].
  - assert (H' : mkW (Z.lxor (word s) (topBit + bottomBit)) (reqs s) (S (waiting s)) (returns s) = s') by congruence. clear H. subst s'. specialize (SOLO eq_refl). assert (X : Z.lxor (word s) (topBit + bottomBit) = enc (negb (isTop (word s))) (Z.of_nat (users true s)) (Z.of_nat (users false s))) by (rewrite W at 1; now apply enc_switch).
    split; [|cbn [word]; rewrite X; now apply enc_top]. constructor; cbn [word reqs waiting].
    + assumption.
    + rewrite X. rewrite enc_top by assumption. reflexivity.
    + lia.
    + discriminate.
  - destruct (waiting s) as [|k] eqn:E; [discriminate|]. injection H as <-. destruct (draining (word s)) eqn:D.
    + split; [|reflexivity]. constructor; auto; [lia|]. rewrite E. discriminate.
    + split; [|reflexivity]. constructor; cbn [word reqs waiting]; auto; [lia|]. intros _ i t H. rewrite W, enc_draining in D by assumption. apply negb_false_iff, Z.eqb_eq in D.
      pose proof (fun u => count_in u (reqs s) (Holds t) (nth_error_In _ _ H)) as X. cbn [counts] in X. fold (users true s) in X. specialize (X t). rewrite eqb_reflx in X. specialize (X eq_refl). fold (users t s) in X.
      destruct (isTop (word s)), t; auto; lia.
Qed.
Lemma run_inv : forall n l s s', fits n -> Inv n s -> oneAtATime s l -> run s l = Some s' -> Inv n s'.
Proof.
  induction l as [|e l IH]; intros s s' F I O R; cbn in O, R; [injection R as <-; assumption|]. destruct O as [O1 O2]. destruct (step s e) as [s1|] eqn:E; [|destruct O2]. eapply (IH s1); eauto. exact (proj1 (step_inv n s e s1 F I O1 E)).
Qed.
Lemma reach_inv : forall n s, fits n -> reachable n s -> Inv n s.
Proof. intros n s F (l & O & R). eapply run_inv; eauto. apply start_inv. Qed.

Lemma exact_counts : forall n s t, fits n -> reachable n s -> pending (word s) t = Z.of_nat (users t s).
Proof. intros n s t F R. destruct (reach_inv _ _ F R) as [L W _ _]. rewrite W. rewrite enc_pending by (eapply users_ok; eauto). now destruct t. Qed.
Lemma one_cohort : forall n s, fits n -> reachable n s -> isBottom (word s) = negb (isTop (word s)).
Proof. intros n s F R. destruct (reach_inv _ _ F R) as [L W _ _]. rewrite W at 1. now rewrite enc_bottom by (eapply users_ok; eauto). Qed.
Lemma current : forall n s i t, fits n -> reachable n s -> waiting s = 0%nat -> nth_error (reqs s) i = Some (Holds t) -> t = isTop (word s).
Proof. intros n s i t F R. destruct (reach_inv _ _ F R) as [_ _ _ C]. eauto. Qed.

Lemma step_other : forall s e s' i p, step s e = Some s' -> e <> Req i -> nth_error (reqs s) i = Some p -> nth_error (reqs s') i = Some p.
Proof.
  intros s e s' i p H N E. destruct e as [j| |]; unfold step in H.
  - destruct (nth_error (reqs s) j) as [q|]; [|discriminate]. destruct (reqStep (word s) q) as [w q']. injection H as <-. cbn. rewrite set_nth_other by congruence. assumption.
  - injection H as <-. assumption.
  - destruct (waiting s); [discriminate|]. injection H as <-. destruct (draining (word s)); assumption.
Qed.

Lemma waits0 : forall n i t l s s', fits n -> Inv n s -> nth_error (reqs s) i = Some (Holds t) -> (waiting s <> 0%nat -> t <> isTop (word s)) ->
  oneAtATime s l -> ~ In (Req i) l -> run s l = Some s' -> returns s' = returns s.
Proof.
  induction l as [|e l IH]; intros s s' F I E C O NI R; cbn in O, R; [injection R as <-; reflexivity|]. destruct O as [O1 O2]. destruct (step s e) as [s1|] eqn:S; [|destruct O2].
  destruct (step_inv n s e s1 F I O1 S) as [I1 T1]. assert (NE : e <> Req i) by (intros ->; apply NI; now left). pose proof (step_other _ _ _ _ _ S NE E) as E1.
  assert (NI' : ~ In (Req i) l) by (intros X; apply NI; now right).
  assert (K : returns s1 = returns s /\ (waiting s1 <> 0%nat -> t <> isTop (word s1))).
  { rewrite T1. destruct e as [j| |]; unfold step in S.
    - destruct (nth_error (reqs s) j) as [p|]; [|discriminate]. destruct (reqStep (word s) p). apply (f_equal (fun o => match o with Some x => (returns x, waiting x) | None => (0%nat, 0%nat) end)) in S. cbn in S. injection S as <- <-. auto.
    - apply (f_equal (fun o => match o with Some x => returns x | None => 0%nat end)) in S. cbn in S. split; [auto|]. intros _. rewrite (i_cur _ _ I (O1 eq_refl) _ _ E). now destruct (isTop (word s)).
    - destruct (waiting s) as [|k] eqn:W; [discriminate|]. destruct (draining (word s)) eqn:D.
      + injection S as <-. split; [reflexivity|]. intros _. apply C. lia.
      + exfalso. specialize (C ltac:(lia)). destruct I as [L I2 _ _]. rewrite I2, enc_draining in D by (eapply users_ok; eauto). apply negb_false_iff, Z.eqb_eq in D.
        pose proof (count_in t (reqs s) (Holds t) (nth_error_In _ _ E)) as X. cbn [counts] in X. rewrite eqb_reflx in X. specialize (X eq_refl). fold (users t s) in X. destruct (isTop (word s)), t; try congruence; lia. }
  destruct K as [K1 K2]. rewrite <- K1. eapply (IH s1); eauto.
Qed.
Lemma waits : forall n s s' i t l, fits n -> reachable n s -> waiting s = 0%nat -> nth_error (reqs s) i = Some (Holds t) ->
  oneAtATime s l -> ~ In (Req i) l -> run s l = Some s' -> returns s' = returns s.
Proof. intros n s s' i t l F R W E O NI Q. apply (waits0 n i t l s s'); auto; first [now apply reach_inv|congruence]. Qed.
Lemma finishes : forall n s, fits n -> reachable n s -> waiting s <> 0%nat -> users (negb (isTop (word s))) s = 0%nat ->
  exists s', step s Poll = Some s' /\ waiting s' = 0%nat /\ returns s' = S (returns s) /\ reqs s' = reqs s.
Proof.
  intros n s F R W U. destruct (reach_inv _ _ F R) as [L I2 Q _]. unfold step. destruct (waiting s) as [|k]; [congruence|].
  assert (D : draining (word s) = false). { rewrite I2, enc_draining by (eapply users_ok; eauto). apply negb_false_iff, Z.eqb_eq. destruct (isTop (word s)); cbn [negb] in U; rewrite U; reflexivity. }
  rewrite D. eexists. split; [reflexivity|]. cbn. repeat split; lia.
Qed.
Lemma joins : forall n s s' i t, fits n -> reachable n s -> step s (Req i) = Some s' -> nth_error (reqs s') i = Some (Holds t) ->
  isTop (word s') = t /\ isTop (word s) = t.
Proof.
  intros n s s' i t F R S E. destruct (step_inv n s (Req i) s' F (reach_inv _ _ F R) ltac:(discriminate) S) as [_ T]. cbn in T. rewrite T. split; [|].
  all: unfold step in S; destruct (nth_error (reqs s) i) as [p|] eqn:P; [|discriminate]; destruct (reqStep (word s) p) as [w q] eqn:Q;
    apply (f_equal (fun o => match o with Some x => reqs x | None => [] end)) in S; cbn in S; rewrite <- S, (set_nth_same _ _ _ _ P) in E; injection E as ->;
    destruct p as [|u|u|u]; cbn [reqStep] in Q; apply (f_equal snd) in Q; cbn [snd] in Q; try discriminate; destruct (Bool.eqb (isTop (word s)) u) eqn:Z; try discriminate; injection Q as ->; now apply eqb_prop in Z.
Qed.
Lemma no_retry0 : forall n i t l s s', fits n -> Inv n s -> nth_error (reqs s) i = Some (Loaded t) -> isTop (word s) = t -> oneAtATime s l -> ~ In (Req i) l -> ~ In Switch l -> run s l = Some s' ->
  nth_error (reqs s') i = Some (Loaded t) /\ isTop (word s') = t.
Proof.
  induction l as [|e l IH]; intros s s' F I E T O NI NS R; cbn in O, R; [injection R as <-; auto|]. destruct O as [O1 O2]. destruct (step s e) as [s1|] eqn:S; [|destruct O2].
  destruct (step_inv n s e s1 F I O1 S) as [I1 T1]. eapply (IH s1); eauto.
  - eapply step_other; eauto. intros ->. apply NI. now left.
  - rewrite T1. destruct e; auto. destruct NS. now left.
  - intros X. apply NI. now right.
  - intros X. apply NS. now right.
Qed.
Lemma no_retry : forall n s s1 s2 s3 i l, fits n -> reachable n s -> nth_error (reqs s) i = Some Out -> step s (Req i) = Some s1 ->
  oneAtATime s1 l -> ~ In (Req i) l -> ~ In Switch l -> run s1 l = Some s2 -> step s2 (Req i) = Some s3 -> exists t, nth_error (reqs s3) i = Some (Holds t).
Proof.
  intros n s s1 s2 s3 i l F R E S1 O NI NS R2 S3. pose proof (reach_inv _ _ F R) as I. destruct (step_inv n s (Req i) s1 F I ltac:(discriminate) S1) as [I1 T1]. cbn in T1.
  assert (E1 : nth_error (reqs s1) i = Some (Loaded (isTop (word s)))).
  { unfold step in S1. rewrite E in S1. cbn [reqStep] in S1. apply (f_equal (fun o => match o with Some x => reqs x | None => [] end)) in S1. cbn in S1. rewrite <- S1. eapply set_nth_same; eauto. }
  destruct (no_retry0 n i _ l s1 s2 F I1 E1 T1 O NI NS R2) as [E2 T2]. unfold step in S3. rewrite E2 in S3. cbn [reqStep] in S3. rewrite T2, eqb_reflx in S3.
  apply (f_equal (fun o => match o with Some x => reqs x | None => [] end)) in S3. cbn in S3. rewrite <- S3. eexists. eapply set_nth_same; eauto.
Qed.
Lemma releases : forall s i t, nth_error (reqs s) i = Some (Holds t) \/ nth_error (reqs s) i = Some (Undo t) -> exists s', step s (Req i) = Some s' /\ nth_error (reqs s') i = Some Out.
Proof. intros s i t [E|E]; unfold step; rewrite E; cbn [reqStep]; eexists; (split; [reflexivity|]); cbn [reqs]; eapply set_nth_same; eauto. Qed.
Lemma two_switchers : exists l s, run (start 1) l = Some s /\ returns s = 2%nat /\ waiting s = 0%nat /\ nth_error (reqs s) 0 = Some (Holds false).
Proof. exists [Req 0; Req 0; Switch; Switch; Poll; Poll]. eexists. repeat split; vm_compute; reflexivity. Qed.
