(** Proofs about the fixed-size flash index. *)
From Verif Require Import Bytes SparseIndex_model SparseIndex_spec SparseIndex_proofs
  FixedIndex_model FixedIndex_spec.
Open Scope N_scope.
Set Implicit Arguments. Unset Strict Implicit.
Ltac Zify.zify_post_hook ::= idtac.

(** * Size hints *)
Lemma hte_spec : forall fuel n h, (exists j, (j < fuel)%nat /\ f_lt (f_pow (n + j)) h = false) ->
  exists j, hte_loop fuel (f_pow n) (N.of_nat n) h = Some (N.of_nat (n + j)) /\
    f_lt (f_pow (n + j)) h = false /\ (j < fuel)%nat /\
    forall i, (i < j)%nat -> f_lt (f_pow (n + i)) h = true.
Proof.
  induction fuel as [|fuel IH]; intros n h [j [J E]]; [lia|].
  cbn [hte_loop]. destruct (f_lt (f_pow n) h) eqn:F.
  - destruct j as [|j]; [rewrite Nat.add_0_r in E; congruence|].
    destruct (IH (S n) h) as (i & H1 & H2 & H3 & H4).
    { exists j. split; [lia|]. replace (S n + j)%nat with (n + S j)%nat by lia. auto. }
    exists (S i). replace (n + S i)%nat with (S n + i)%nat by lia.
    replace (N.of_nat n + 1) with (N.of_nat (S n)) by lia.
    split; [exact H1|]. split; [auto|]. split; [lia|].
    intros [|k] K; [rewrite Nat.add_0_r; auto|].
    replace (n + S k)%nat with (S n + k)%nat by lia. apply H4. lia.
  - exists O. rewrite Nat.add_0_r. split; [auto|]. split; [auto|]. split; [lia|]. intros; lia.
Qed.

Definition f_val (n : nat) : N := fst (f_pow n) * 2 ^ snd (f_pow n).
Definition f_floor (n : nat) : N := f_val n / 2 ^ 52.
Lemma f_lt_val : forall n h, f_lt (f_pow n) h = (f_val n <? h * 2 ^ 52).
Proof. reflexivity. Qed.

Lemma pow62 : f_lt (f_pow 62) 65535 = false.
Proof. vm_compute. reflexivity. Qed.

Lemma exp_spec : forall h, h <= 65535 -> exists j, (j <= 62)%nat /\
  sizeHintToExp h = Some (N.of_nat j) /\ h * 2 ^ 52 <= f_val j /\
  forall i, (i < j)%nat -> f_val i < h * 2 ^ 52.
Proof.
  intros h H.
  assert (P62 : f_lt (f_pow 62) h = false).
  { pose proof pow62 as P. rewrite f_lt_val in *. apply N.ltb_ge in P. apply N.ltb_ge.
    eapply N.le_trans; [|exact P]. apply N.mul_le_mono_r; auto. }
  destruct (@hte_spec 64 0 h) as (j & A & B & C & D).
  { exists 62%nat. split; [lia|exact P62]. }
  exists j. split.
  { destruct (le_lt_dec j 62); auto. specialize (D 62%nat l). simpl plus in D. congruence. }
  split; [exact A|]. simpl plus in *. rewrite f_lt_val in B. apply N.ltb_ge in B. split; auto.
  intros i I. specialize (D i I). rewrite f_lt_val in D. apply N.ltb_lt in D. auto.
Qed.

Lemma pow61_val : f_val 61 / 2 ^ 52 = 55157 /\ f_val 62 / 2 ^ 52 = 65967.
Proof. vm_compute. auto. Qed.

Lemma floor_table : forallb (fun j => f_floor (S j) <? 65536) (seq 0 61) = true /\
  forallb (fun j => 1000 * f_floor (S j) <=? 1196 * (f_floor j + 1)) (seq 0 61) = true.
Proof. vm_compute. auto. Qed.

Lemma exp_small : forall h, 1 <= h <= 55157 -> exists j, (j <= 61)%nat /\
  sizeHintToExp h = Some (N.of_nat j) /\ h * 2 ^ 52 <= f_val j /\
  forall i, (i < j)%nat -> f_val i < h * 2 ^ 52.
Proof.
  intros h [H1 H2]. destruct (@exp_spec h) as (j & A & B & C & D); [lia|].
  exists j. split; [|auto].
  destruct (le_lt_dec j 61); auto. exfalso. specialize (D 61%nat l).
  destruct pow61_val as [P _]. pose proof (N.mul_div_le (f_val 61) (2 ^ 52)) as Q.
  rewrite P in Q. assert (h * 2 ^ 52 <= 55157 * 2 ^ 52) by (apply N.mul_le_mono_r; auto).
  rewrite N.mul_comm in Q. specialize (Q ltac:(discriminate)). lia.
Qed.

Lemma hint_floor : forall j, (j <= 61)%nat -> sizeExpToHint (N.of_nat j) = Some (f_floor j).
Proof.
  intros j J. unfold sizeExpToHint, f_u16. rewrite Nat2N.id.
  change ((fst (f_pow j) * 2 ^ snd (f_pow j)) / 2 ^ 52) with (f_floor j).
  destruct j as [|j]; [reflexivity|].
  destruct floor_table as [T _]. rewrite forallb_forall in T.
  rewrite (T j); auto. apply in_seq. lia.
Qed.

(** The rounded hint never underestimates, and overestimates by at most a fifth. *)
Lemma quant_bounds : forall h, 1 <= h <= 55157 -> exists v, quant h = Some v /\ h <= v /\ 1000 * v <= 1196 * h.
Proof.
  intros h H. destruct (exp_small H) as (j & A & B & C & D). unfold quant. rewrite B, hint_floor by auto.
  exists (f_floor j). split; auto. split.
  - unfold f_floor. apply N.div_le_lower_bound; [discriminate|]. lia.
  - destruct j as [|j]; [vm_compute f_floor; lia|].
    destruct floor_table as [_ T]. rewrite forallb_forall in T.
    specialize (T j). apply N.leb_le in T; [|apply in_seq; lia].
    eapply N.le_trans; [exact T|]. apply N.mul_le_mono_l.
    specialize (D j ltac:(lia)). unfold f_floor.
    assert (f_val j / 2 ^ 52 < h); [|lia].
    apply N.div_lt_upper_bound; [discriminate|]. lia.
Qed.
Lemma quant_overflow : forall h, 55157 < h <= 65535 -> quant h = None.
Proof.
  intros h [H1 H2]. destruct (@exp_spec h H2) as (j & A & B & C & D). unfold quant. rewrite B.
  assert (j = 62%nat).
  { destruct (le_lt_dec 62 j); [lia|]. exfalso.
    assert (X : f_val j / 2 ^ 52 < 55158).
    { destruct (le_lt_dec j 0); [replace j with 0%nat by lia; vm_compute; auto|].
      destruct floor_table as [_ T].
      assert (M : forallb (fun i => f_floor i <? 55158) (seq 0 62) = true) by (vm_compute; auto).
      rewrite forallb_forall in M. specialize (M j). apply N.ltb_lt in M; [exact M|]. apply in_seq. lia. }
    assert (Y : h <= f_val j / 2 ^ 52) by (apply N.div_le_lower_bound; [discriminate|lia]).
    lia. }
  subst j. reflexivity.
Qed.

(** * Fill bits *)
Lemma land3 : forall v, N.land v 3 = v mod 4.
Proof. intros. change 3 with (2 ^ 2 - 1). rewrite land_ones_pow. reflexivity. Qed.
Lemma fm_get_set : forall m b b' o, o < 4 ->
  (forall i, m i < 256) ->
  fm_get (fm_set m b o) b' = (if b' =? b then o else fm_get m b').
Proof.
  intros m b b' o O M. unfold fm_get, fm_set.
  destruct (N.eqb_spec (b' / 4) (b / 4)) as [E|E].
  - rewrite E.
    pose proof (M (b / 4)) as MB. revert MB. generalize (m (b / 4)). intros v V.
    assert (R : b mod 4 < 4 /\ b' mod 4 < 4) by (split; apply N.mod_lt; discriminate).
    assert (Q : (b' =? b) = (b' mod 4 =? b mod 4)).
    { destruct (N.eqb_spec b' b) as [->|X]; [symmetry; apply N.eqb_refl|].
      destruct (N.eqb_spec (b' mod 4) (b mod 4)) as [Y|Y]; auto. exfalso. apply X.
      rewrite (N.div_mod b' 4), (N.div_mod b 4) by discriminate. rewrite E, Y. reflexivity. }
    rewrite Q. revert R. generalize (b mod 4) (b' mod 4). clear - O V. intros x y [X Y].
    apply N.bits_inj. intros i. rewrite land3.
    change 4 with (2 ^ 2).
    assert (T : forall w, N.testbit (w mod 2 ^ 2) i = if i <? 2 then N.testbit w i else false).
    { intros w. destruct (N.ltb_spec i 2); [apply N.mod_pow2_bits_low; auto|apply N.mod_pow2_bits_high; auto]. }
    rewrite T, N.shiftr_spec', N.lor_spec, N.land_spec, N.lxor_spec.
    rewrite land3. change 4 with (2 ^ 2) at 1.
    destruct (N.ltb_spec i 2) as [I|I].
    + destruct (N.eqb_spec y x) as [->|NE].
      * rewrite (N.shiftl_spec_high' 3 (2 * x)) by lia.
        rewrite (N.shiftl_spec_high' o (2 * x)) by lia.
        replace (i + 2 * x - 2 * x) with i by lia.
        assert (A : N.testbit 3 i = true) by (assert (H : i = 0 \/ i = 1) by lia; destruct H as [->| ->]; reflexivity).
        assert (B : N.testbit 255 (i + 2 * x) = true).
        { change 255 with (N.ones 8). apply N.ones_spec_low. lia. }
        rewrite A, B, andb_false_r. reflexivity.
      * assert (A : N.testbit (N.shiftl 3 (2 * x)) (i + 2 * y) = false /\ N.testbit (N.shiftl o (2 * x)) (i + 2 * y) = false).
        { destruct (N.lt_ge_cases y x) as [L|L].
          - rewrite !N.shiftl_spec_low by lia. auto.
          - rewrite !N.shiftl_spec_high' by lia.
            assert (K : forall w, w < 4 -> N.testbit w (i + 2 * y - 2 * x) = false).
            { intros w W. destruct (N.eqb_spec w 0) as [->|NZ]; [apply N.bits_0|].
              apply N.bits_above_log2. apply N.lt_le_trans with 2; [|lia].
              apply N.log2_lt_pow2; [lia|exact W]. }
            split; apply K; lia. }
        destruct A as [-> ->].
        assert (B : N.testbit 255 (i + 2 * y) = true).
        { change 255 with (N.ones 8). apply N.ones_spec_low. lia. }
        rewrite B, orb_false_r, andb_true_r.
        rewrite T, N.shiftr_spec'. replace (i <? 2) with true by (symmetry; apply N.ltb_lt; lia). reflexivity.
    + symmetry. destruct (y =? x).
      * destruct (N.eqb_spec o 0) as [->|NZ]; [apply N.bits_0|].
        apply N.bits_above_log2. apply N.lt_le_trans with 2; [|lia].
        apply N.log2_lt_pow2; [lia|exact O].
      * rewrite T. replace (i <? 2) with false by (symmetry; apply N.ltb_ge; lia). reflexivity.
  - destruct (N.eqb_spec b' b) as [->|X]; [congruence|reflexivity].
Qed.
